(** * Props_Continuous4: C76 (edges), C77 (weights). *)
From Coq Require Import Permutation FunctionalExtensionality.
From Verif Require Import Prelude ExtReal Arrays Spec_Gibbs Spec_Continuous M_Basis M_Parents M_Discrete M_Gibbs M_Dist M_Network M_Sweep
  L_Gibbs L_Sweep Props_Gibbs Props_Network M_Continuous L_Continuous Props_Continuous Props_Continuous2 Props_Continuous3.
Set Implicit Arguments.
Open Scope R_scope.

(** The model with another adjacency matrix. *)
Definition ct_with_A (m : ctmodel) (A : bmat) : ctmodel :=
  cm_set m (cm_lam m) A (cm_W m) (cm_mu m) (cm_tau m) (cm_net m) (cm_data m).

(** Log likelihood of the events of process k. *)
Definition proc_loglik (m : ctmodel) (d : ctdata) (k : nat) : R :=
  Rsum (cd_N d) (fun n => if Nat.eqb (cd_C d n) k then ln (intensity m d n) else 0) -
  (cm_lam m k * cd_T d + Rsum (cm_K m) (fun k1 => conn m k1 k * count (cd_N d) (fun n => Nat.eqb (cd_C d n) k1))).

Lemma loglik_split m d : data_ok (cm_K m) d -> hawkes_loglik m d = Rsum (cm_K m) (proc_loglik m d).
Proof.
  intros (_ & _ & Hc). unfold hawkes_loglik, proc_loglik. rewrite Rsum_minus. f_equal.
  rewrite Rsum_swap. apply Rsum_ext. intros n Hn.
  rewrite (@Rsum_ext (cm_K m) _ (fun k => ln (intensity m d n) * (if Nat.eqb (cd_C d n) k then 1 else 0)))
    by (intros k _; destruct (Nat.eqb (cd_C d n) k); lra).
  rewrite Rsum_scal, Rsum_indicator by auto. lra.
Qed.

(** The intensity at an event of process k uses column k of A only. *)
Lemma intensity_local m A A' d n : data_ok (cm_K m) d -> (n < cd_N d)%nat ->
  (forall k1, (k1 < cm_K m)%nat -> A k1 (cd_C d n) = A' k1 (cd_C d n)) ->
  intensity (ct_with_A m A) d n = intensity (ct_with_A m A') d n.
Proof.
  intros (_ & _ & Hc) Hn H. unfold intensity, intensity_at. f_equal. apply Rsum_ext. intros p Hp.
  cbn [ct_with_A cm_set cm_dtmax]. destruct (in_window_b _ _ _); [|reflexivity].
  unfold impulse_of, conn. cbn [ct_with_A cm_set cm_A cm_W cm_dtmax cm_mu cm_tau]. rewrite H by (apply Hc; lia). reflexivity.
Qed.
Lemma proc_loglik_local m A A' d k : data_ok (cm_K m) d ->
  (forall k1, (k1 < cm_K m)%nat -> A k1 k = A' k1 k) ->
  proc_loglik (ct_with_A m A) d k = proc_loglik (ct_with_A m A') d k.
Proof.
  intros Hd H. unfold proc_loglik. f_equal.
  - apply Rsum_ext. intros n Hn. destruct (Nat.eqb_spec (cd_C d n) k) as [<-|]; [|reflexivity]. f_equal. now apply intensity_local.
  - cbn [ct_with_A cm_set cm_lam cm_K]. f_equal. apply Rsum_ext. intros k1 Hk1. unfold conn. cbn [ct_with_A cm_set cm_A cm_W]. now rewrite H.
Qed.

Lemma params_with_A m A : params_ok m -> params_ok (ct_with_A m A).
Proof. exact (fun H => H). Qed.

(** The likelihood evaluated inside the sweep. *)
Lemma ct_ll_single_value norder m data k A : params_ok m ->
  (forall d, In d data -> data_ok (cm_K m) d /\ Permutation (norder d) (seq 0 (cd_N d))) ->
  ct_ll_single m (fun d => ct_irs (norder d) m d) data k (fun i => A i k) =
  Fin (lsum (map (fun d => proc_loglik (ct_with_A m A) d k) data)).
Proof.
  intros Hp H.
  assert (E : forall d, In d data -> ct_ll_single_data m (fun d => ct_irs (norder d) m d) k (fun i => A i k) d = Fin (proc_loglik (ct_with_A m A) d k)).
  { intros d Hin. destruct (H d Hin) as [Hd Ho]. unfold ct_ll_single_data. cbv zeta.
    rewrite (@esum_fin (cd_N d) _ (fun n => if Nat.eqb (cd_C d n) k then ln (intensity (ct_with_A m A) d n) else 0)).
    - rewrite esub_fin, eadd_fin. f_equal. unfold proc_loglik. cbn [ct_with_A cm_set cm_lam cm_K].
      rewrite (@Rsum_ext (cm_K m) (fun k1 => b2R (A k1 k) * cm_W m k1 k * IZR (cd_Ns d k1))
         (fun k1 => conn (ct_with_A m A) k1 k * count (cd_N d) (fun n => Nat.eqb (cd_C d n) k1))).
      + lra.
      + intros k1 _. unfold cd_Ns. rewrite Ns_count. unfold conn. cbn [ct_with_A cm_set cm_A cm_W]. destruct (A k1 k); cbn; lra.
    - intros n Hn. destruct (Nat.eqb_spec (cd_C d n) k) as [<-|]; [|reflexivity].
      pose proof (@C58_masked_impulses_sum (norder d) (ct_with_A m A) d n (params_with_A A Hp) Hd Ho Hn) as EI.
      cbn [ct_with_A cm_set cm_lam cm_K cm_A] in EI.
      change (ct_irs (norder d) (ct_with_A m A) d) with (ct_irs (norder d) m d) in EI. rewrite EI.
      apply elog_fin. apply intensity_pos; auto. }
  unfold ct_ll_single. rewrite fold_eadd, eadd_0_l. now apply elsum_map_fin.
Qed.

Lemma Rsum_lsum {X} (f : X -> vec) K l : Rsum K (fun k => lsum (map (fun d => f d k) l)) = lsum (map (fun d => Rsum K (f d)) l).
Proof. induction l as [|d l IH]; cbn [map lsum]; [apply Rsum_0; reflexivity|]. now rewrite Rsum_plus, IH. Qed.

(** A sweep over all edges in terms of any column-local finite likelihood. *)
Lemma sweep_posterior K (ll : bmat -> nat -> er) P u A A' :
  col_local K ll -> (forall B k, (k < K)%nat -> exists x, ll B k = Fin x) ->
  (forall i j, (i < K)%nat -> (j < K)%nat -> unit_interval (u i j) /\ 0 <= P i j <= 1) ->
  (forall i j, (i < K)%nat -> (j < K)%nat -> A' i j = serial_sweep ll P u K A i j) ->
  forall k1 k2 (M : bmat), (k1 < K)%nat -> (k2 < K)%nat ->
  (forall i, (i < K)%nat -> M i k2 = if Nat.ltb i k1 then A' i k2 else A i k2) ->
  exists L0 L1, esum K (ll (upd2 M k1 k2 false)) = Fin L0 /\ esum K (ll (upd2 M k1 k2 true)) = Fin L1 /\
    (A' k1 k2 = true <-> u k1 k2 < edge_posterior (P k1 k2) L0 L1).
Proof.
  intros Hloc Hfin Hu EA k1 k2 M H1 H2 HM.
  assert (Hv : forall A, exists f : nat -> R, forall k, (k < K)%nat -> ll A k = Fin (f k)).
  { intros B. exists (fun k => fval (ll B k)). intros k Hk. destruct (Hfin B k Hk) as (x & E). rewrite E. reflexivity. }
  destruct (Hv (upd2 M k1 k2 false)) as (f0 & Hf0). destruct (Hv (upd2 M k1 k2 true)) as (f1 & Hf1).
  exists (Rsum K f0), (Rsum K f1).
  split; [now apply esum_fin|]. split; [now apply esum_fin|].
  assert (Hoth : forall k, (k < K)%nat -> k <> k2 -> f0 k = f1 k).
  { intros k Hk Hne. assert (E : ll (upd2 M k1 k2 false) k = ll (upd2 M k1 k2 true) k).
    { apply Hloc; auto. intros i _. unfold upd2. destruct (Nat.eqb_spec k k2); [contradiction|]. now rewrite !andb_false_r. }
    rewrite Hf0, Hf1 in E by auto. congruence. }
  set (c := Rsum K (fun k => if Nat.eqb k k2 then 0 else f0 k)).
  assert (E0 : Rsum K f0 = f0 k2 + c).
  { unfold c. rewrite (Rsum_ext f0 (fun k => (if Nat.eqb k k2 then f0 k else 0) + (if Nat.eqb k k2 then 0 else f0 k))).
    - rewrite Rsum_plus. f_equal. rewrite (Rsum_ind K k2 f0). destruct (Nat.ltb_spec k2 K); [reflexivity|lia].
    - intros k _. destruct (Nat.eqb k k2); lra. }
  assert (E1 : Rsum K f1 = f1 k2 + c).
  { unfold c. rewrite (Rsum_ext f1 (fun k => (if Nat.eqb k k2 then f1 k else 0) + (if Nat.eqb k k2 then 0 else f0 k))).
    - rewrite Rsum_plus. f_equal. rewrite (Rsum_ind K k2 f1). destruct (Nat.ltb_spec k2 K); [reflexivity|lia].
    - intros k Hk. destruct (Nat.eqb_spec k k2); [lra|]. rewrite Hoth by auto. lra. }
  rewrite E0, E1, edge_posterior_shift. rewrite EA by auto.
  rewrite (@serial_sweep_col K) by auto.
  destruct (@plain_column_scan (col_ll ll k2) (fun i => P i k2) (fun i => u i k2) K (fun i => A i k2)) as [_ Hs].
  { intros b b' Hb. apply Hloc; auto. }
  rewrite (Hs k1 (fun i => M i k2) H1).
  - assert (EL : forall b, col_ll ll k2 (upd (fun i => M i k2) k1 b) = ll (upd2 M k1 k2 b) k2).
    { intros b. unfold col_ll. apply Hloc; auto. intros i _. symmetry. apply upd2_col. }
    rewrite !EL, Hf0, Hf1 by auto. destruct (Hu k1 k2 H1 H2). rewrite accept_edge by auto. apply Rltb_true.
  - intros i Hi. rewrite HM by auto. destruct (Nat.ltb i k1); [|reflexivity].
    rewrite EA by auto. now rewrite (@serial_sweep_col K).
Qed.

(** The serial loop with its shortcuts for probabilities 0 and 1 is the plain sweep. *)
Lemma ct_edge_step_plain K llc P u A k1 k2 :
  (forall a, exists x, llc k2 a = Fin x) -> unit_interval (u k1 k2) -> 0 <= P k1 k2 <= 1 -> (k1 < K)%nat -> (k2 < K)%nat ->
  ct_edge_step llc P u A k1 k2 = edge_step (fun A k => llc k (fun i => A i k)) P u A k1 k2.
Proof.
  intros Hf Hu Hp H1 H2. unfold ct_edge_step, edge_step. cbv zeta.
  assert (Euu : forall x y, upd2 (upd2 A k1 k2 x) k1 k2 y = upd2 A k1 k2 y).
  { intros x y. extensionality i. extensionality j. unfold upd2. destruct (_ && _)%bool; reflexivity. }
  rewrite !Euu.
  destruct (Hf (fun i => upd2 A k1 k2 false i k2)) as (l0 & E0). destruct (Hf (fun i => upd2 A k1 k2 true i k2)) as (l1 & E1).
  rewrite E0, E1, accept_edge by auto. unfold edge_posterior. pose proof (exp_pos l0). pose proof (exp_pos l1). destruct Hu as [Hu0 Hu1].
  destruct (Reqb (P k1 k2) 0) eqn:E.
  - apply Reqb_true in E. rewrite E. f_equal. symmetry. apply Rltb_false.
    replace (0 * exp l1 / (0 * exp l1 + (1 - 0) * exp l0)) with 0; [lra|field; lra].
  - destruct (Reqb (P k1 k2) 1) eqn:E'; [|reflexivity]. apply Reqb_true in E'. rewrite E'. f_equal. symmetry. apply Rltb_true.
    replace (1 * exp l1 / (1 * exp l1 + (1 - 1) * exp l0)) with 1; [lra|field; lra].
Qed.
Lemma fold_left_ext_in {X} (f g : X -> nat -> X) l a : (forall x i, In i l -> f x i = g x i) -> fold_left f l a = fold_left g l a.
Proof.
  revert a. induction l as [|i l IH]; intros a H; [reflexivity|]. cbn [fold_left]. rewrite H by now left. apply IH. intros; apply H; now right.
Qed.
Lemma ct_A_serial_plain K llc P u A :
  (forall k a, (k < K)%nat -> exists x, llc k a = Fin x) ->
  (forall i j, (i < K)%nat -> (j < K)%nat -> unit_interval (u i j) /\ 0 <= P i j <= 1) ->
  ct_A_serial llc P u K A = serial_sweep (fun A k => llc k (fun i => A i k)) P u K A.
Proof.
  intros Hf Hu. unfold ct_A_serial, serial_sweep. apply fold_left_ext_in. intros B i Hi. apply in_seq in Hi.
  apply fold_left_ext_in. intros B' j Hj. apply in_seq in Hj. destruct (Hu i j ltac:(lia) ltac:(lia)).
  apply (@ct_edge_step_plain K); auto; try lia. intros a. apply Hf. lia.
Qed.
Lemma ct_A_parallel_plain K order llc P u A i j :
  (forall k a, (k < K)%nat -> exists x, llc k a = Fin x) ->
  (forall k a a', (k < K)%nat -> (forall i, (i < K)%nat -> a i = a' i) -> llc k a = llc k a') ->
  (forall i j, (i < K)%nat -> (j < K)%nat -> unit_interval (u i j) /\ 0 <= P i j <= 1) ->
  Permutation order (seq 0 K) -> (i < K)%nat -> (j < K)%nat ->
  ct_A_parallel order llc P u K A i j = serial_sweep (fun A k => llc k (fun i => A i k)) P u K A i j.
Proof.
  intros Hf He Hu Ho Hi Hj. unfold ct_A_parallel. rewrite run_tasks_spec.
  replace (existsb (Nat.eqb j) order) with true.
  2:{ symmetry. apply existsb_exists. exists j. split; [|apply Nat.eqb_refl]. apply (Permutation_in _ (Permutation_sym Ho)), in_seq. lia. }
  rewrite column_plain.
  - rewrite (@serial_sweep_col K); auto. intros B B' k Hk HB. now apply He.
  - intros b. now apply Hf.
  - intros k Hk. now apply Hu.
  - intros k Hk. now apply Hu.
  - intros b b' Hb. apply He; auto.
Qed.

(* ================= C76 ================= *)
(** The weight update: W drawn first, then every edge (k1,k2) present exactly when its uniform is below the posterior
    probability given the events (full log likelihood of the data under the model with the new weights and the other edges:
    rows above as already updated, rows below as before).  Serial or parallel, any schedule. *)
Theorem C76_edges_from_posterior :
  forall order norder g u m data,
    net_ok (cm_K m) (cm_net m) ->
    (forall k, (k < cm_K m)%nat -> 0 < cm_lam m k) -> (forall a b, (a < cm_K m)%nat -> (b < cm_K m)%nat -> 0 < cm_tau m a b) ->
    (forall d, In d data -> data_ok (cm_K m) d /\ Permutation (norder d) (seq 0 (cd_N d))) ->
    (forall i j, (i < cm_K m)%nat -> (j < cm_K m)%nat -> unit_interval (u i j)) ->
    Permutation order (seq 0 (cm_K m)) ->
    let m' := ct_weights_resample order norder g u m data in
    (forall i j, (i < cm_K m)%nat -> (j < cm_K m)%nat -> 0 <= cm_W m' i j) ->
    m' = cm_set m (cm_lam m) (cm_A m') (ct_W_resample g (net_view (cm_net m)) (cm_A m) data) (cm_mu m) (cm_tau m) (cm_net m) (cm_data m) /\
    forall k1 k2 (M : bmat), (k1 < cm_K m)%nat -> (k2 < cm_K m)%nat ->
      (forall i, (i < cm_K m)%nat -> M i k2 = if Nat.ltb i k1 then cm_A m' i k2 else cm_A m i k2) ->
      let L b := lsum (map (hawkes_loglik (ct_with_A m' (upd2 M k1 k2 b))) data) in
      (forall b, ct_log_likelihood norder (ct_with_A m' (upd2 M k1 k2 b)) (Some data) = Fin (L b)) /\
      (cm_A m' k1 k2 = true <-> u k1 k2 < edge_posterior (n_P (net_view (cm_net m)) k1 k2) (L false) (L true)).
Proof.
  intros order norder g u m data Hnet Hlam Htau Hd Hu Ho m' HW. split; [reflexivity|].
  intros k1 k2 M H1 H2 HM L.
  set (m1 := cm_set m (cm_lam m) (cm_A m) (ct_W_resample g (net_view (cm_net m)) (cm_A m) data) (cm_mu m) (cm_tau m) (cm_net m) (cm_data m)).
  assert (Hp1 : params_ok m1) by (split; [exact Hlam|split; [exact HW|exact Htau]]).
  assert (EW : forall A, ct_with_A m' A = ct_with_A m1 A) by reflexivity.
  assert (Hd1 : forall d, In d data -> data_ok (cm_K m1) d /\ Permutation (norder d) (seq 0 (cd_N d))) by exact Hd.
  split.
  { intros b. apply (@C62_log_likelihood norder (ct_with_A m' (upd2 M k1 k2 b)) data); [|exact Hd]. exact Hp1. }
  set (llc := ct_ll_single m1 (fun d => ct_irs (norder d) m1 d) data).
  assert (Hval : forall k A, llc k (fun i => A i k) = Fin (lsum (map (fun d => proc_loglik (ct_with_A m1 A) d k) data)))
    by (intros k A; apply ct_ll_single_value; auto).
  assert (Hcol : forall k a, llc k a = Fin (lsum (map (fun d => proc_loglik (ct_with_A m1 (fun i _ => a i)) d k) data)))
    by (intros k a; exact (Hval k (fun i _ => a i))).
  assert (Hext : forall k a a', (k < cm_K m)%nat -> (forall i, (i < cm_K m)%nat -> a i = a' i) -> llc k a = llc k a').
  { intros k a a' Hk Ha. rewrite !Hcol. f_equal. apply lsum_map_ext. intros d Hin. apply proc_loglik_local; [apply Hd1; auto|]. intros; now apply Ha. }
  pose proof (@net_view_ok _ _ Hnet) as (_ & Hv).
  assert (HuP : forall i j, (i < cm_K m)%nat -> (j < cm_K m)%nat -> unit_interval (u i j) /\ 0 <= n_P (net_view (cm_net m)) i j <= 1).
  { intros i j Hi Hj. split; [auto|]. now apply Hv. }
  set (ll := fun (A : bmat) k => llc k (fun i => A i k)).
  assert (Hloc : col_local (cm_K m) ll) by (intros A A' k Hk HA; apply Hext; auto).
  assert (EA : forall i j, (i < cm_K m)%nat -> (j < cm_K m)%nat ->
     cm_A m' i j = serial_sweep ll (n_P (net_view (cm_net m))) u (cm_K m) (cm_A m) i j).
  { intros i j Hi Hj. unfold m', ct_weights_resample. fold m1. cbv zeta. fold llc. cbn [cm_set cm_A]. change (cm_par m1) with (cm_par m).
    change (cm_K m1) with (cm_K m). change (cm_A m1) with (cm_A m).
    destruct (cm_par m).
    - destruct data as [|d0 rest] eqn:Ed.
      + rewrite (@serial_sweep_col (cm_K m)) by auto.
        destruct (@plain_column_scan (col_ll ll j) (fun i => n_P (net_view (cm_net m)) i j) (fun i => u i j) (cm_K m) (fun i => cm_A m i j)) as [_ Hs].
        { intros b b' Hb. apply Hloc; auto. }
        rewrite (Hs i _ Hi (fun i _ => eq_refl)). unfold col_ll, ll, llc, ct_ll_single. cbn [fold_left].
        destruct (HuP i j Hi Hj). rewrite accept_edge by auto. f_equal. unfold edge_posterior. field. rewrite exp_0. lra.
      + apply ct_A_parallel_plain; auto. intros k a Hk. rewrite Hcol. eauto.
    - unfold ll. rewrite <- ct_A_serial_plain; auto. intros k a Hk. rewrite Hcol. eauto. }
  destruct (@sweep_posterior (cm_K m) ll (n_P (net_view (cm_net m))) u (cm_A m) (cm_A m')) with (k1 := k1) (k2 := k2) (M := M)
    as (L0 & L1 & E0 & E1 & Hiff); auto.
  { intros B k Hk. unfold ll. rewrite Hval. eauto. }
  assert (EL : forall A, esum (cm_K m) (ll A) = Fin (lsum (map (hawkes_loglik (ct_with_A m' A)) data))).
  { intros A. rewrite (@esum_fin (cm_K m) (ll A) (fun k => lsum (map (fun d => proc_loglik (ct_with_A m1 A) d k) data))) by (intros k _; apply Hval).
    f_equal. rewrite (@lsum_map_ext _ _ (fun d => Rsum (cm_K m) (proc_loglik (ct_with_A m1 A) d)) data)
      by (intros d Hin; rewrite EW; apply (@loglik_split (ct_with_A m1 A)); apply Hd; auto).
    apply Rsum_lsum. }
  rewrite EL in E0, E1. injection E0 as <-. injection E1 as <-. exact Hiff.
Qed.

(** The schedule does not matter, and the serial and parallel updates agree. *)
Theorem C76_serial_parallel_agree :
  forall order1 order2 norder1 norder2 g u m data,
    net_ok (cm_K m) (cm_net m) ->
    (forall k, (k < cm_K m)%nat -> 0 < cm_lam m k) -> (forall a b, (a < cm_K m)%nat -> (b < cm_K m)%nat -> 0 < cm_tau m a b) ->
    (forall d, In d data -> data_ok (cm_K m) d /\ Permutation (norder1 d) (seq 0 (cd_N d)) /\ Permutation (norder2 d) (seq 0 (cd_N d))) ->
    (forall i j, (i < cm_K m)%nat -> (j < cm_K m)%nat -> unit_interval (u i j)) ->
    Permutation order1 (seq 0 (cm_K m)) -> Permutation order2 (seq 0 (cm_K m)) ->
    (forall i j, (i < cm_K m)%nat -> (j < cm_K m)%nat -> 0 <= ct_W_resample g (net_view (cm_net m)) (cm_A m) data i j) ->
    forall par m2, m2 = {| cm_K := cm_K m; cm_dtmax := cm_dtmax m; cm_lam := cm_lam m; cm_A := cm_A m; cm_W := cm_W m; cm_mu := cm_mu m;
         cm_tau := cm_tau m; cm_net := cm_net m; cm_data := cm_data m; cm_alpha := cm_alpha m; cm_beta := cm_beta m; cm_mu0 := cm_mu0 m;
         cm_lmbda0 := cm_lmbda0 m; cm_alpha0 := cm_alpha0 m; cm_beta0 := cm_beta0 m; cm_par := par |} ->
    forall i j, (i < cm_K m)%nat -> (j < cm_K m)%nat ->
      cm_A (ct_weights_resample order1 norder1 g u m data) i j = cm_A (ct_weights_resample order2 norder2 g u m2 data) i j /\
      cm_W (ct_weights_resample order1 norder1 g u m data) i j = cm_W (ct_weights_resample order2 norder2 g u m2 data) i j.
Proof.
  intros o1 o2 n1 n2 g u m data Hnet Hlam Htau Hd Hu Ho1 Ho2 HW par m2 E2 i j Hi Hj. split; [|subst m2; reflexivity].
  destruct (@C76_edges_from_posterior o1 n1 g u m data Hnet Hlam Htau) as (_ & P1); auto.
  { intros d Hin. destruct (Hd d Hin) as (A & B & C). auto. }
  destruct (@C76_edges_from_posterior o2 n2 g u m2 data) as (_ & P2); try (subst m2; auto; fail).
  { subst m2. intros d Hin. destruct (Hd d Hin) as (A & B & C). auto. }
  set (A1 := cm_A (ct_weights_resample o1 n1 g u m data)) in *. set (A2 := cm_A (ct_weights_resample o2 n2 g u m2 data)) in *.
  assert (EK : cm_K m2 = cm_K m) by (subst m2; reflexivity). assert (EA : cm_A m2 = cm_A m) by (subst m2; reflexivity).
  assert (EN : cm_net m2 = cm_net m) by (subst m2; reflexivity). rewrite EK, EA, EN in P2.
  assert (EL : forall A d, hawkes_loglik (ct_with_A (ct_weights_resample o1 n1 g u m data) A) d = hawkes_loglik (ct_with_A (ct_weights_resample o2 n2 g u m2 data) A) d)
    by (subst m2; reflexivity).
  revert Hi. induction i as [i IH] using lt_wf_ind. intros Hi.
  pose (M := fun a (b : nat) => if Nat.ltb a i then A1 a b else cm_A m a b).
  destruct (P1 i j M Hi Hj) as (_ & Q1); [intros a Ha; reflexivity|].
  destruct (P2 i j M Hi Hj) as (_ & Q2).
  { intros a Ha. unfold M. destruct (Nat.ltb_spec a i); [|reflexivity]. apply IH; auto. }
  cbv zeta in Q1, Q2. 
  assert (EE : forall b, lsum (map (hawkes_loglik (ct_with_A (ct_weights_resample o1 n1 g u m data) (upd2 M i j b))) data) =
                         lsum (map (hawkes_loglik (ct_with_A (ct_weights_resample o2 n2 g u m2 data) (upd2 M i j b))) data)).
  { intros b. apply lsum_map_ext. intros d _. apply EL. }
  rewrite !EE in Q1. destruct (A1 i j), (A2 i j); try reflexivity; exfalso.
  - assert (false = true) by (apply Q2, Q1; reflexivity). discriminate.
  - assert (false = true) by (apply Q1, Q2; reflexivity). discriminate.
Qed.

(** With no data an edge is present exactly when u < P. *)
Theorem C76_no_data_prior :
  forall order norder g u m k1 k2,
    net_ok (cm_K m) (cm_net m) ->
    (forall i j, (i < cm_K m)%nat -> (j < cm_K m)%nat -> unit_interval (u i j)) ->
    (k1 < cm_K m)%nat -> (k2 < cm_K m)%nat -> cm_par m = true ->
    (cm_A (ct_weights_resample order norder g u m []) k1 k2 = true <-> u k1 k2 < n_P (net_view (cm_net m)) k1 k2).
Proof.
  intros order norder g u m k1 k2 Hn Hu H1 H2 Hp. unfold ct_weights_resample. cbn [cm_set cm_par cm_A]. rewrite Hp. apply Rltb_true.
Qed.

(* ================= C77 ================= *)
(** Events of b attributed to events of a, and events of a, in data set d. *)
Definition n_children (d : ctdata) (a b : nat) : R := count (cd_N d) (pair_events d a b).
Definition n_of (d : ctdata) (a : nat) : R := count (cd_N d) (fun n => Nat.eqb (cd_C d n) a).

Lemma count_nonneg N P : 0 <= count N P.
Proof. unfold count. apply Rsum_nonneg. intros n _. destruct (P n); lra. Qed.

(** The weight of an existing edge is drawn from the gamma posterior given the attributed events of all data sets (each event of
    a is an exposure of one unit, since the response has mass one); without an edge, from the prior. *)
Theorem C77_weight_posterior :
  forall lgam (g : gam2) m n A data a b,
    0 < n_kappa n -> 0 < n_V n a b -> (forall d, In d data -> stats_ok m d) ->
    (A a b = false -> forall d, In d data -> n_children d a b = 0) ->
    exists sh sc, ct_W_resample g n A data a b = g a b sh sc /\ 0 < sh /\ 0 < sc /\
      (A a b = false -> sh = n_kappa n /\ / sc = n_V n a b) /\
      same_law (fun w => 0 < w) (fun w => gamma_lpdf lgam sh (/ sc) w)
        (fun w => gamma_lpdf lgam (n_kappa n) (n_V n a b) w +
           if A a b then lsum (map (fun d => pois_loglik (n_children d a b) (n_of d a) w) data) else 0).
Proof.
  intros lgam g m n A data a b Hk Hv Hs Habs.
  set (c := lsum (map (fun d => n_children d a b) data)). set (N := lsum (map (fun d => n_of d a) data)).
  assert (Hc : 0 <= c) by (apply lsum_map_nonneg; intros; apply count_nonneg).
  assert (HN : 0 <= N) by (apply lsum_map_nonneg; intros; apply count_nonneg).
  pose proof (b2R_range (A a b)) as HA.
  exists (n_kappa n + c), (1 / (n_V n a b + N * b2R (A a b))). split.
  { unfold ct_W_resample, ct_W_request. rewrite !pool_lsum, !Rplus_0_l. unfold c, N.
    rewrite (@lsum_map_ext _ (fun d => cd_weight d a b) (fun d => n_children d a b)) by (intros d Hin; exact (st_weight (Hs d Hin) a b)).
    rewrite (@lsum_map_ext _ (fun d => IZR (cd_Ns d a)) (fun d => n_of d a)); [reflexivity|].
    intros d _. apply Ns_count. }
  assert (HNA : 0 <= N * b2R (A a b)) by (apply Rmult_le_pos; tauto).
  split; [lra|]. split; [apply Rdiv_lt_0_compat; lra|].
  assert (Es : / (1 / (n_V n a b + N * b2R (A a b))) = n_V n a b + N * b2R (A a b)) by (field; lra).
  rewrite Es. assert (Hc0 : A a b = false -> c = 0).
  { intros HA0. unfold c. rewrite (lsum_map_ext _ (fun _ => 0)) by (intros d Hin; now rewrite Habs). rewrite lsum_map_const. lra. }
  split.
  { intros HA0. rewrite Hc0 by auto. rewrite HA0. cbn. split; lra. }
  exists ((n_kappa n + c) * ln (n_V n a b + N * b2R (A a b)) - lgam (n_kappa n + c) - (n_kappa n * ln (n_V n a b) - lgam (n_kappa n))).
  intros w Hw. destruct (A a b) eqn:EA; cbn [b2R].
  - assert (E : lsum (map (fun d => pois_loglik (n_children d a b) (n_of d a) w) data) = c * ln w - N * w).
    { unfold c, N. rewrite <- !lsum_map_scal_r, <- lsum_map_minus. reflexivity. }
    rewrite E. unfold gamma_lpdf. ring.
  - rewrite Hc0 by reflexivity. unfold gamma_lpdf. ring.
Qed.

(** The hypothesis about absent edges holds for the parents drawn under the current edges. *)
Theorem C77_no_children_without_edge :
  forall m order u d d', params_ok m -> data_ok (cm_K m) d -> Permutation order (seq 0 (cd_N d)) ->
    (forall n, (n < cd_N d)%nat -> unit_interval (u n)) -> ct_parents_resample m order u d = Ok d' ->
    forall a b, cm_A m a b = false -> n_children d' a b = 0.
Proof.
  intros m order u d d' Hp Hd Ho Hu E a b HA.
  destruct (@C59_parent_update m order u d Hp Hd Ho Hu) as (d2 & E2 & (EN & ES & EC & _) & _ & Hz). rewrite E in E2. injection E2 as <-.
  unfold n_children, count. apply Rsum_0. intros n Hn. rewrite EN in Hn. unfold pair_events. rewrite EC.
  destruct (Z.eqb_spec (cd_Z d' n) (-1)) as [|Hne]; [reflexivity|]. cbn [negb andb].
  destruct (Hz n Hn) as ((j & Hj & Ej & _) & _ & Hcand). specialize (Hcand (Z.to_nat (cd_Z d' n)) ltac:(lia)).
  destruct Hcand as (_ & _ & HA' & _).
  destruct (Nat.eqb_spec (cd_C d (Z.to_nat (cd_Z d' n))) a) as [<-|]; [|reflexivity]. cbn [andb].
  destruct (Nat.eqb_spec (cd_C d n) b) as [<-|]; [|reflexivity]. congruence.
Qed.

(** Non-vacuity: a one-process model with an attributed recording. *)
Lemma ex_net_ct_ok : net_ok 1 ex_net_ct.
Proof. repeat split; cbn; try lra; discriminate. Qed.
Example C76_nonvacuous : exists d,
  net_ok (cm_K (ex_ct 1)) (cm_net (ex_ct 1)) /\ params_ok (ex_ct 1) /\ data_ok (cm_K (ex_ct 1)) d /\ (0 < cd_N d)%nat /\
  stats_ok (ex_ct 1) d /\ n_children d 0 0 = 1 /\
  (forall i j, 0 <= ct_W_resample (fun _ _ _ _ => 1) (net_view ex_net_ct) (cm_A (ex_ct 1)) [d] i j).
Proof.
  destruct (@ex_attributed 1 ltac:(lra)) as (u & d & Hu & E & Hst & HL).
  destruct (@C59_parent_update (ex_ct 1) [0%nat; 1%nat] u (ex_rec 1) (@ex_ct_ok 1 ltac:(lra)) (@ex_rec_ok 1 ltac:(lra)) (Permutation_refl _) Hu) as (d2 & E2 & (EN & ES & EC & ET) & _).
  rewrite E in E2. injection E2 as <-. exists d.
  split; [exact ex_net_ct_ok|]. split; [apply ex_ct_ok; lra|]. split.
  { unfold data_ok. rewrite EN, ES, EC, ET. apply ex_rec_ok. lra. }
  split; [rewrite EN; cbn; lia|]. split; [exact Hst|]. split.
  - unfold n_children. rewrite count_list. assert (EL : length (pair_delays (ex_ct 1) 0 0 d) = 1%nat) by now rewrite HL.
    unfold pair_delays in EL. rewrite map_length in EL. rewrite EL. reflexivity.
  - intros i j. unfold ct_W_resample. destruct (ct_W_request _ _ _ _ _). lra.
Qed.

Print Assumptions C76_edges_from_posterior.
Print Assumptions C76_serial_parallel_agree.
Print Assumptions C77_weight_posterior.
Print Assumptions C77_no_children_without_edge.
