(** * Props_Cut: a recording may be cut wherever the last dt_max was silent (C137). *)
From Verif Require Import Prelude ExtReal Arrays Spec_Basis Spec_Discrete Spec_Cut M_Basis L_Basis Props_Basis
  M_Parents M_Discrete L_Discrete L_Minibatch Props_Discrete.
Set Implicit Arguments.
Open Scope R_scope.

Lemma glue_l T1 S1 S2 t k : (t < T1)%nat -> glue T1 S1 S2 t k = S1 t k.
Proof. intros H. unfold glue. now rewrite (proj2 (Nat.ltb_lt _ _) H). Qed.
Lemma glue_r T1 S1 S2 t k : glue T1 S1 S2 (T1 + t) k = S2 t k.
Proof. unfold glue. rewrite (proj2 (Nat.ltb_ge _ _)) by lia. f_equal. lia. Qed.

Lemma conv_glue_l T1 L bas S1 S2 t k b : (t < T1)%nat ->
  causal_conv L bas (glue T1 S1 S2) t k b = causal_conv L bas S1 t k b.
Proof.
  intros Ht. unfold causal_conv. apply Rsum_ext; intros l Hl. destruct (Nat.ltb l L); [|reflexivity].
  rewrite glue_l by lia. reflexivity.
Qed.
Lemma conv_glue_r T1 L K bas S1 S2 t k b : quiet_end T1 L K S1 -> (k < K)%nat ->
  causal_conv L bas (glue T1 S1 S2) (T1 + t) k b = causal_conv L bas S2 t k b.
Proof.
  intros Hq Hk. unfold causal_conv. replace (S (T1 + t)) with (S t + T1)%nat by lia.
  rewrite Rsum_app. match goal with |- _ + Rsum T1 ?f = _ => rewrite (@Rsum_0 T1 f) end.
  - rewrite Rplus_0_r. apply Rsum_ext; intros l Hl. destruct (Nat.ltb l L); [|reflexivity].
    replace (T1 + t - l)%nat with (T1 + (t - l))%nat by lia. now rewrite glue_r.
  - intros i Hi. destruct (Nat.ltb_spec (S t + i) L); [|reflexivity].
    rewrite glue_l by lia. rewrite Hq by lia. lra.
Qed.

Lemma net_rate_glue_l m T1 S1 S2 t k : (t < T1)%nat -> net_rate m (glue T1 S1 S2) t k = net_rate m S1 t k.
Proof. intros Ht. apply hawkes_rate_ext. intros. now apply conv_glue_l. Qed.
Lemma net_rate_glue_r m T1 S1 S2 t k : quiet_end T1 (dm_L m) (dm_K m) S1 ->
  net_rate m (glue T1 S1 S2) (T1 + t) k = net_rate m S2 t k.
Proof.
  intros Hq. unfold net_rate, hawkes_rate. f_equal. apply Rsum_ext; intros k1 Hk1. apply Rsum_ext; intros b Hb.
  now rewrite (@conv_glue_r T1 (dm_L m) (dm_K m)).
Qed.

(** What compute_rate returns for the whole is what it returns for the parts, one after the other. *)
Theorem C137_rates : forall m index T1 T2 S1 S2, proper_dims m -> (0 < T1)%nat -> (0 < T2)%nat ->
  quiet_end T1 (dm_L m) (dm_K m) S1 ->
  exists R_ R1 R2,
    compute_rate m index (Some (sval_of (T1 + T2) (dm_K m) (glue T1 S1 S2))) None = Ok (T1 + T2, R_)%nat /\
    compute_rate m index (Some (sval_of T1 (dm_K m) S1)) None = Ok (T1, R1) /\
    compute_rate m index (Some (sval_of T2 (dm_K m) S2)) None = Ok (T2, R2) /\
    forall k, (k < dm_K m)%nat ->
      (forall t, (t < T1)%nat -> R_ t k = R1 t k) /\ (forall t, (t < T2)%nat -> R_ (T1 + t)%nat k = R2 t k).
Proof.
  intros m index T1 T2 S1 S2 Hd H1 H2 Hq.
  destruct (@C04_compute_rate m index (T1 + T2) (glue T1 S1 S2) Hd) as (R_ & E & H); [lia|].
  destruct (@C04_compute_rate m index T1 S1 Hd H1) as (R1 & E1 & HR1).
  destruct (@C04_compute_rate m index T2 S2 Hd H2) as (R2 & E2 & HR2).
  exists R_, R1, R2. split; [exact E|]. split; [exact E1|]. split; [exact E2|]. intros k Hk. split; intros t Ht.
  - rewrite H, HR1 by lia. now apply net_rate_glue_l.
  - rewrite H, HR2 by lia. now apply net_rate_glue_r.
Qed.
Print Assumptions C137_rates.

(** ... the held-out log likelihood is the sum ... *)
Theorem C137_heldout : forall m T1 T2 S1 S2, proper_dims m -> (0 < T1)%nat -> (0 < T2)%nat ->
  quiet_end T1 (dm_L m) (dm_K m) S1 ->
  (forall t k, (t < T1)%nat -> (k < dm_K m)%nat -> 0 < net_rate m S1 t k) ->
  (forall t k, (t < T2)%nat -> (k < dm_K m)%nat -> 0 < net_rate m S2 t k) ->
  exists l1 l2,
    fst (heldout_log_likelihood m (sval_of T1 (dm_K m) S1) None) = Ok (Fin l1) /\
    fst (heldout_log_likelihood m (sval_of T2 (dm_K m) S2) None) = Ok (Fin l2) /\
    fst (heldout_log_likelihood m (sval_of (T1 + T2) (dm_K m) (glue T1 S1 S2)) None) = Ok (Fin (l1 + l2)).
Proof.
  intros m T1 T2 S1 S2 Hd H1 H2 Hq P1 P2. do 2 eexists.
  rewrite !C09_heldout_log_likelihood; auto; try lia.
  - cbn [fst]. split; [reflexivity|]. split; [reflexivity|]. do 2 f_equal. unfold poisson_loglik. rewrite Rsum_app. f_equal.
    + apply Rsum_ext; intros t Ht. apply Rsum_ext; intros k Hk. now rewrite net_rate_glue_l, glue_l.
    + apply Rsum_ext; intros t Ht. apply Rsum_ext; intros k Hk. now rewrite net_rate_glue_r, glue_r.
  - intros t k Ht Hk. destruct (Nat.lt_ge_cases t T1) as [H|H]; [rewrite net_rate_glue_l; auto|].
    replace t with (T1 + (t - T1))%nat by lia. rewrite net_rate_glue_r by auto. apply P2; auto. lia.
Qed.
Print Assumptions C137_heldout.

(** ... and so is the training log likelihood, infinities and NaN included: adding the two parts gives what adding the whole does. *)
Lemma ll_single_ext K B dt T S_ S' F F' q k :
  (k < K)%nat -> (forall t k', (t < T)%nat -> (k' < K)%nat -> S_ t k' = S' t k') ->
  (forall t k' b, (t < T)%nat -> (k' < K)%nat -> (b < B)%nat -> F t k' b = F' t k' b) ->
  ll_single (mk_parents K B dt T S_ F) q k = ll_single (mk_parents K B dt T S' F') q k.
Proof.
  intros Hk HS HF.
  assert (E1 := piece_ll K B dt T S_ F 0 q k). assert (E2 := piece_ll K B dt T S' F' 0 q k).
  change (ll_single (mk_parents K B dt T (slice2 0 S_) (slice3 0 F)) q k) with (ll_single (mk_parents K B dt T S_ F) q k) in E1.
  change (ll_single (mk_parents K B dt T (slice2 0 S') (slice3 0 F')) q k) with (ll_single (mk_parents K B dt T S' F') q k) in E2.
  rewrite E1, E2. f_equal; [f_equal|].
  - do 2 f_equal. apply Rsum_ext; intros k1 Hk1. do 3 f_equal. apply map_ext_in. intros t Ht. apply in_seq in Ht. apply HS; lia.
  - replace (filter (nz S' k) (seq 0 T)) with (filter (nz S_ k) (seq 0 T)).
    + apply elsum_map_ext. intros t Ht. apply filter_In in Ht as [Ht _]. apply in_seq in Ht. unfold rowterm.
      rewrite HS by lia. f_equal. do 2 f_equal. apply hawkes_rate_ext. intros. apply HF; auto; lia.
    + apply filter_ext_in. intros t Ht. apply in_seq in Ht. unfold nz. rewrite HS by lia. reflexivity.
Qed.

Theorem C137_training : forall m T1 T2 S1 S2, proper_dims m -> (0 < T1)%nat -> (0 < T2)%nat ->
  counts T1 (dm_K m) S1 -> counts T2 (dm_K m) S2 -> quiet_end T1 (dm_L m) (dm_K m) S1 ->
  exists m' m1 m2,
    add_data m (sval_of (T1 + T2) (dm_K m) (glue T1 S1 S2)) None None = Ok m' /\
    add_data m (sval_of T1 (dm_K m) S1) None None = Ok m1 /\
    add_data m1 (sval_of T2 (dm_K m) S2) None None = Ok m2 /\
    log_likelihood m2 All = log_likelihood m' All.
Proof.
  intros m T1 T2 S1 S2 Hd H1 H2 C1 C2 Hq. destruct Hd as (HK & HB & HL).
  assert (Cg : counts (T1 + T2) (dm_K m) (glue T1 S1 S2)).
  { intros t k Ht Hk. unfold glue. destruct (Nat.ltb_spec t T1); [apply C1|apply C2]; auto; lia. }
  destruct (@convolve_ok (T1 + T2) (dm_K m) (glue T1 S1 S2) (dm_L m) (dm_B m) (dm_bas m)) as (F & E); try lia.
  destruct (@convolve_ok T1 (dm_K m) S1 (dm_L m) (dm_B m) (dm_bas m)) as (F1 & E1); try lia.
  destruct (@convolve_ok T2 (dm_K m) S2 (dm_L m) (dm_B m) (dm_bas m)) as (F2 & E2); try lia.
  do 3 eexists. split; [eapply (@add_data_ok m); eauto; try lia; reflexivity|].
  split; [eapply (@add_data_ok m); eauto; reflexivity|].
  split.
  { match goal with |- add_data ?x _ _ _ = _ => apply (@add_data_ok x T2 S2 None
      [mk_parents (dm_K m) (dm_B m) (dm_dt m) T2 S2 F2] F2); auto end. }
  rewrite !log_likelihood_all. f_equal. cbn [dm_data with_data].
  rewrite !map_app, !elsum_app. cbn [map elsum]. rewrite !eadd_0_r.
  rewrite <- eadd_assoc. f_equal.
  set (q := params_of _). match goal with |- _ = pa_ll _ ?q' => change q' with q end. unfold pa_ll.
  cbn [pa_K mk_parents]. rewrite <- esum_plus. apply esum_ext. intros k Hk.
  rewrite <- (@tiles_ll (dm_K m) (dm_B m) (dm_dt m) (T1 + T2) (glue T1 S1 S2) F q k [(0, T1); (T1, T2)]%nat).
  2:{ cbn [map concat fst snd]. now rewrite app_nil_r, <- seq_app. }
  cbn [map elsum fst snd]. rewrite eadd_0_r. f_equal.
  - apply ll_single_ext; auto.
    + intros t k' Ht Hk'. unfold slice2. cbn [Nat.add]. now rewrite glue_l.
    + intros t k' b Ht Hk' Hb. unfold slice3. cbn [Nat.add].
      rewrite (@convolve_causal _ _ _ _ _ _ _ E), (@convolve_causal _ _ _ _ _ _ _ E1) by (auto; lia). now rewrite conv_glue_l.
  - apply ll_single_ext; auto.
    + intros t k' Ht Hk'. unfold slice2. now rewrite glue_r.
    + intros t k' b Ht Hk' Hb. unfold slice3.
      rewrite (@convolve_causal _ _ _ _ _ _ _ E), (@convolve_causal _ _ _ _ _ _ _ E2) by (auto; lia).
      now rewrite (@conv_glue_r T1 (dm_L m) (dm_K m)).
Qed.
Print Assumptions C137_training.

(** The silence is needed: after a last bin with an event, the same two recordings have other rates apart than together. *)
Definition ex_loud : imat := fun t k => if Nat.eqb k 0 then 1%Z else 0%Z.
Theorem C137_silence_needed : exists m T1 T2 S1 S2 R_ R2,
  proper_dims m /\ nonneg_params m /\ counts T1 (dm_K m) S1 /\ counts T2 (dm_K m) S2 /\ ~ quiet_end T1 (dm_L m) (dm_K m) S1 /\
  compute_rate m 0 (Some (sval_of (T1 + T2) (dm_K m) (glue T1 S1 S2))) None = Ok (T1 + T2, R_)%nat /\
  compute_rate m 0 (Some (sval_of T2 (dm_K m) S2)) None = Ok (T2, R2) /\
  R2 0%nat 1%nat < R_ T1 1%nat.
Proof.
  assert (Hd : proper_dims ex_m) by (repeat split; cbn; lia).
  destruct (@C04_compute_rate ex_m 0 (1 + 1) (glue 1 ex_loud (fun _ _ => 0%Z)) Hd) as (R_ & E & H); [lia|].
  destruct (@C04_compute_rate ex_m 0 1 (fun _ _ => 0%Z) Hd) as (R2 & E2 & H2); [lia|].
  exists ex_m, 1%nat, 1%nat, ex_loud, (fun _ _ => 0%Z), R_, R2.
  split; [exact Hd|]. split; [apply ex_nonneg|]. split. { intros t k _ _. unfold ex_loud. destruct (Nat.eqb k 0); lia. }
  split. { intros t k _ _. lia. }
  split. { intros Hq. specialize (Hq 0%nat 0%nat). cbn in Hq. specialize (Hq ltac:(lia) ltac:(lia) ltac:(lia)). discriminate. }
  split; [exact E|]. split; [exact E2|].
  rewrite H, H2 by (cbn; lia). unfold net_rate, hawkes_rate, net_weight, causal_conv, glue, ex_loud. cbn. lra.
Qed.
Print Assumptions C137_silence_needed.

Example C137_nonvacuous :
  proper_dims ex_m /\ counts 2 (dm_K ex_m) ex_S /\ counts 1 (dm_K ex_m) ex_S /\ quiet_end 2 (dm_L ex_m) (dm_K ex_m) ex_S /\ ex_S 0%nat 0%nat = 2%Z /\
  (forall t k, (t < 2)%nat -> (k < dm_K ex_m)%nat -> 0 < net_rate ex_m ex_S t k).
Proof.
  split; [repeat split; cbn; lia|]. split; [intros t k _ _; unfold ex_S; destruct (_ && _)%bool; lia|].
  split; [intros t k _ _; unfold ex_S; destruct (_ && _)%bool; lia|].
  split. { intros t k Ht HL Hk. cbn in HL. replace t with 1%nat by lia. reflexivity. }
  split; [reflexivity|].
  intros t k Ht Hk. cbn in Hk. destruct t as [|[|]]; [| |lia]; destruct k as [|[|]]; try lia;
    unfold net_rate, hawkes_rate, net_weight, causal_conv; cbn; lra.
Qed.
