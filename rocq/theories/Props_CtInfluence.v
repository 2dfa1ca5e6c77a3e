(** * Props_CtInfluence: C126 in continuous time: stronger connections never lower an intensity; the expected number of events a
    recorded event brings to a process is the weight of the connection. *)
From Coq Require Import Permutation.
From Verif Require Import Prelude ExtReal Arrays Spec_Gibbs Spec_Continuous M_Basis M_Parents M_Discrete M_Gibbs M_Dist M_Network M_Sweep
  M_Continuous L_Continuous Props_Continuous Props_Continuous3 Props_CtJoint.
Set Implicit Arguments.
Open Scope R_scope.

(** The same model apart from background rates and connections, which are nowhere stronger. *)
Record ct_weaker (m m' : ctmodel) : Prop := {
  cw_K : cm_K m' = cm_K m; cw_D : cm_dtmax m' = cm_dtmax m; cw_mu : cm_mu m' = cm_mu m; cw_tau : cm_tau m' = cm_tau m;
  cw_lam : forall k, (k < cm_K m)%nat -> cm_lam m k <= cm_lam m' k;
  cw_W : forall i j, (i < cm_K m)%nat -> (j < cm_K m)%nat -> conn m i j <= conn m' i j }.

Lemma delay_pdf_nonneg D mu tau dt : 0 < dt < D -> 0 < tau -> 0 <= delay_pdf D mu tau dt.
Proof.
  intros H Ht. unfold delay_pdf, normal_pdf. apply Rmult_le_pos; [apply Rmult_le_pos; [apply sqrt_pos|apply Rlt_le, exp_pos]|].
  apply Rlt_le, Rdiv_lt_0_compat; [lra|]. apply Rmult_lt_0_compat; lra.
Qed.
(** C126 (continuous time): larger background rates, larger weights or more edges never lower the rate at an event. *)
Theorem C126_ct_monotone : forall order order' m m' d n,
  params_ok m -> params_ok m' -> ct_weaker m m' -> data_ok (cm_K m) d ->
  Permutation order (seq 0 (cd_N d)) -> Permutation order' (seq 0 (cd_N d)) -> (n < cd_N d)%nat ->
  ct_model_rate order m d n <= ct_model_rate order' m' d n.
Proof.
  intros order order' m m' d n Hp Hp' Hw Hd Ho Ho' Hn.
  rewrite (@C58_rate_is_intensity order m d n), (@C58_rate_is_intensity order' m' d n) by (rewrite ?(cw_K Hw); auto).
  unfold intensity, intensity_at. destruct Hd as (_ & _ & HC). apply Rplus_le_compat; [apply (cw_lam Hw); auto|].
  apply Rsum_le. intros p Hpn. rewrite (cw_D Hw). destruct (in_window_b eps (cm_dtmax m) (cd_S d n - cd_S d p)) eqn:E; [|lra].
  unfold in_window_b in E. apply andb_prop in E. destruct E as [E1 E2]. apply Rleb_true in E1. apply Rltb_true in E2.
  assert (0 < eps) by (unfold eps; lra). assert (HA : (cd_C d p < cm_K m)%nat) by (apply HC; lia). assert (HB : (cd_C d n < cm_K m)%nat) by auto.
  unfold impulse_of. rewrite (cw_D Hw), (cw_mu Hw), (cw_tau Hw). apply Rmult_le_compat_r; [|now apply (cw_W Hw)].
  apply Rmult_le_pos; [apply Rlt_le, kappa_c_pos|]. apply delay_pdf_nonneg; [lra|]. now apply (proj2 (proj2 Hp)).
Qed.
Print Assumptions C126_ct_monotone.

(** The recording with one more event, anywhere in the list, of process j at any time. *)
Definition ct_one_more (d d' : ctdata) (i j : nat) : Prop :=
  cd_N d' = S (cd_N d) /\ cd_T d' = cd_T d /\ (i <= cd_N d)%nat /\ cd_C d' i = j /\
  (forall n, (n < i)%nat -> cd_C d' n = cd_C d n) /\ (forall n, (i <= n)%nat -> (n < cd_N d)%nat -> cd_C d' (S n) = cd_C d n).
(** C126 (continuous time): one more event of process j raises the expected number of events of process k that the model reports by the
    weight of the connection from j to k. *)
Theorem C126_ct_one_more_event : forall m d d' i j, ct_one_more d d' i j -> (j < cm_K m)%nat ->
  forall k, ct_integrated m d' k = ct_integrated m d k + conn m j k.
Proof.
  intros m d d' i j (HN & HT & Hi & Hj & H1 & H2) HjK k. unfold ct_integrated. rewrite HT.
  assert (E : forall k1, IZR (cd_Ns d' k1) = IZR (cd_Ns d k1) + (if Nat.eqb j k1 then 1 else 0)).
  { intros k1. replace (cd_Ns d' k1) with (cd_Ns d k1 + b2Z (Nat.eqb j k1))%Z; [rewrite plus_IZR; destruct (Nat.eqb j k1); cbn; ring|].
    unfold cd_Ns, ct_Ns. rewrite HN. clear HN HT HjK.
    assert (G : forall r N, (N = i + r)%nat -> (N <= cd_N d)%nat ->
      (Zsum N (fun n => b2Z (Nat.eqb (cd_C d n) k1)) + b2Z (Nat.eqb j k1) = Zsum (S N) (fun n => b2Z (Nat.eqb (cd_C d' n) k1)))%Z).
    { induction r as [|r IH]; intros N EN HN.
      - replace N with i by lia. cbn [Zsum]. rewrite Hj. f_equal. apply Zsum_ext. intros n Hn. now rewrite H1.
      - destruct N as [|N]; [lia|]. change (Zsum (S (S N)) ?f) with (Zsum (S N) f + f (S N))%Z. cbv beta. rewrite <- (IH N) by lia. cbn [Zsum]. rewrite H2 by lia. lia. }
    apply (G (cd_N d - i)%nat); lia. }
  rewrite (@Rsum_ext (cm_K m) _ (fun k1 => ct_W_effective m k1 k * IZR (cd_Ns d k1) + (if Nat.eqb j k1 then conn m j k else 0))).
  - rewrite Rsum_plus. rewrite <- Rplus_assoc. f_equal. apply (Props_CtJoint.Rsum_pick (fun _ => conn m j k) HjK).
  - intros k1 _. rewrite E. destruct (Nat.eqb_spec j k1) as [<-|]; rewrite ?Weff_conn; ring.
Qed.
Print Assumptions C126_ct_one_more_event.

(** A weaker and a stronger connection of the one-process example, and a third event inserted between its two. *)
Example C126_ct_nonvacuous : params_ok (ex_ct (1 / 2)) /\ params_ok (ex_ct 1) /\ ct_weaker (ex_ct (1 / 2)) (ex_ct 1) /\ data_ok 1 (ex_rec 1) /\
  conn (ex_ct (1 / 2)) 0%nat 0%nat < conn (ex_ct 1) 0%nat 0%nat /\
  ct_one_more (ex_rec 1) {| cd_N := 3; cd_S := fun n => INR n / 2; cd_C := fun _ => 0%nat; cd_T := 3; cd_Z := fun _ => (-1)%Z; cd_bkgd := fun _ => 3;
    cd_weight := fun _ _ => 0; cd_imp := fun _ _ _ => 0 |} 1 0.
Proof.
  split; [apply ex_ct_ok; lra|]. split; [apply ex_ct_ok; lra|]. split; [constructor; cbn; intros; try reflexivity; unfold conn; cbn; lra|].
  split; [apply ex_rec_ok; lra|]. split; [unfold conn; cbn; lra|]. repeat split; cbn; lia.
Qed.
