(** * Props_Refused2: further refused calls (C106, C70, C71, C80), and readings of the model's own vocabulary in plain terms
    (C47 own block, C49 views, C91 after initialisation, C93/C98 block models). *)
From Verif Require Import Prelude ExtReal Arrays Spec_Moments Spec_Gamma M_Basis M_Parents M_Discrete M_Gibbs M_Network M_Standard M_Dist M_Nonlinear
  M_Utils M_Sweep M_Mixed M_Heap M_MeanField L_Parents L_Moments L_Dirichlet Props_Network Props_CtGenerate.
From Coq Require Import Lia Lra.
Set Implicit Arguments.
Open Scope R_scope.

(** ** C98: the block weights of a block model are a Dirichlet. *)
Theorem C98_block_weights : forall s f c, (c < sb_C s)%nat -> (forall c', (c' < sb_C s)%nat -> 0 < mf_pi f c') ->
  dirichlet_law (sb_C s) (mf_pi f) (fun x => x c) (sbm_expected_m s f c) /\
  dirichlet_law (sb_C s) (mf_pi f) (fun x => ln (x c)) (sbm_expected_log_m digamma s f c).
Proof.
  intros s f c Hc Hp. assert (0 < sb_C s)%nat by lia.
  split; [apply dirichlet_law_entry; auto|apply dirichlet_law_log; auto].
Qed.

(** ** C93: with the connection probabilities given by the caller, the expected scale of a pair and its log are those of the
    pair's blocks: sender's block first, receiver's second. *)
Theorem C93_fixed_expectations : forall s f psi i j, sb_fixed s = true ->
  sbm_expected_v s f i j = sb_v s (sb_c s i) (sb_c s j) /\
  sbm_expected_log_v psi s f i j = ln (sb_v s (sb_c s i) (sb_c s j)).
Proof. intros s f psi i j H. unfold sbm_expected_v, sbm_expected_log_v. rewrite H. split; reflexivity. Qed.

(** ** C47: the columns of process k's own block are 1 + k*B, ..., 1 + k*B + B - 1. *)
Theorem C47_own_block : forall B k j,
  self_block B k j = true <-> exists b, (b < B)%nat /\ j = (1 + (k * B + b))%nat.
Proof.
  intros B k j. unfold self_block. rewrite andb_true_iff, Nat.leb_le, Nat.ltb_lt. split.
  - intros [H1 H2]. exists (j - (1 + k * B))%nat. nia.
  - intros (b & Hb & ->). nia.
Qed.

(** ** C106: further refusals. *)
(** The gradient of a model without self-connections asserts that the process's own weights are (close to) zero. *)
Theorem C106_gradient_with_self_weights : forall m k w ds, sm_allow m = false ->
  match s_gradient_row m k w ds with
  | Ok _ => forall j, (j < sm_P m)%nat -> self_block (sm_B m) k j = true -> close0 (w j) = true
  | Raise e => e = AssertionError /\ exists j, (j < sm_P m)%nat /\ self_block (sm_B m) k j = true /\ close0 (w j) = false
  end.
Proof.
  intros m k w ds Ha. unfold s_gradient_row. rewrite Ha.
  destruct (forall_lt _ _) eqn:E.
  - rewrite forall_lt_true in E. intros j Hj Hs. specialize (E j Hj). now rewrite Hs in E.
  - apply forall_lt_false in E as (j & Hj & E). split; [reflexivity|]. exists j. destruct (self_block (sm_B m) k j); [auto|discriminate].
Qed.
(** Initialising from a standard model: mismatched sizes fail an assertion; a mean connection probability outside [0, 1] is
    refused by the percentile. *)
Theorem C106_initialise_from_standard : forall m K B mp,
  (sm_K m <> K \/ sm_B m <> B -> init_from_std m K B mp = Raise AssertionError) /\
  (sm_K m = K -> sm_B m = B -> mp < 0 \/ 1 < mp -> init_from_std m K B mp = Raise ValueError) /\
  (sm_K m = K -> sm_B m = B -> 0 <= mp <= 1 -> (0 < K)%nat -> exists r, init_from_std m K B mp = Ok r).
Proof.
  intros m K B mp. split; [|split].
  - intros H. unfold init_from_std, guard. destruct (Nat.eqb_spec (sm_K m) K); cbn [bindr]; [|reflexivity].
    destruct (Nat.eqb_spec (sm_B m) B); cbn [bindr]; [tauto|reflexivity].
  - intros EK EB H. unfold init_from_std, guard. rewrite EK, EB, !Nat.eqb_refl. cbn [bindr].
    unfold percentile. assert (E : (Rltb ((1 - mp) * 100) 0 || Rltb 100 ((1 - mp) * 100))%bool = true).
    { apply orb_true_iff. rewrite !Rltb_true. destruct H; [right|left]; lra. }
    rewrite E. reflexivity.
  - intros EK EB H HK. unfold init_from_std, guard. rewrite EK, EB, !Nat.eqb_refl. cbn [bindr].
    unfold percentile. assert (E : (Rltb ((1 - mp) * 100) 0 || Rltb 100 ((1 - mp) * 100))%bool = false).
    { apply orb_false_iff. rewrite !Rltb_false. split; lra. }
    rewrite E. destruct (flat_mat K _) eqn:Ef.
    + exfalso. destruct K; [lia|]. unfold flat_mat in Ef. cbn in Ef. discriminate.
    + cbn [bindr]. eexists. reflexivity.
Qed.
(** The Erdos-Renyi bound: TypeError without a prior, AttributeError without variational parameters. *)
Theorem C106_erdos_renyi_bound : forall lgam psi n,
  match er_get_vlb lgam psi n with
  | Ok _ => e_alpha n <> None /\ e_beta n <> None /\ e_mf n <> None
  | Raise e => (e = TypeError /\ (e_alpha n = None \/ e_beta n = None)) \/
               (e = AttributeError /\ e_alpha n <> None /\ e_beta n <> None /\ e_mf n = None)
  end.
Proof.
  intros lgam psi n. unfold er_get_vlb.
  destruct (e_alpha n), (e_beta n); try (left; split; [reflexivity|tauto]).
  destruct (e_mf n) as [[ma mb]|]; [repeat split; discriminate|right; repeat split; discriminate].
Qed.
(** The rate of one process: too large an index fails the assertion; an index below -K is out of range; the others name a
    process, counted from the end when negative. *)
Theorem C106_rate_of_one_process : forall m index proc s f TF, rate_input m index s f = Ok TF ->
  ((Z.of_nat (dm_K m) <= proc)%Z -> compute_rate_proc m index proc s f = Raise AssertionError) /\
  ((proc < - Z.of_nat (dm_K m))%Z -> compute_rate_proc m index proc s f = Raise IndexError) /\
  ((- Z.of_nat (dm_K m) <= proc < Z.of_nat (dm_K m))%Z -> exists R_, compute_rate_proc m index proc s f = Ok (fst TF, R_) /\
      forall t, R_ t = rate_proc m (snd TF) t (Z.to_nat (proc mod Z.of_nat (dm_K m)))).
Proof.
  intros m index proc s f TF E. unfold compute_rate_proc. rewrite E. cbn [bindr]. split; [|split]; intros H.
  - destruct (Z.ltb_spec proc (Z.of_nat (dm_K m))); [lia|]. reflexivity.
  - destruct (Z.ltb_spec proc (Z.of_nat (dm_K m))); [|lia]. cbn [negb]. unfold py_index.
    destruct (Z.leb_spec 0 proc); [lia|]. cbn [andb].
    destruct (Z.leb_spec 0 (Z.of_nat (dm_K m) + proc)); [lia|]. rewrite ?andb_false_r. reflexivity.
  - destruct (Z.ltb_spec proc (Z.of_nat (dm_K m))); [|lia]. cbn [negb]. unfold py_index.
    destruct (Z.leb_spec 0 proc); cbn [andb].
    + destruct (Z.ltb_spec proc (Z.of_nat (dm_K m))); [|lia]. eexists. split; [reflexivity|]. intros t. now rewrite Z.mod_small by lia.
    + destruct (Z.ltb_spec proc 0); [|lia]. destruct (Z.leb_spec 0 (Z.of_nat (dm_K m) + proc)); [|lia]. cbn [andb].
      eexists. split; [reflexivity|]. intros t. cbv beta. do 2 f_equal.
      rewrite <- (Z_mod_plus_full proc 1 (Z.of_nat (dm_K m))), Z.mod_small; lia.
Qed.
(** The compiled parent sampler: refused exactly when some occupied bin has no rate at all. *)
Theorem C106_parent_sampler_gsl : forall mult p q,
  let no_rate := exists k r, (k < pa_K p)%nat /\ (r < pa_Tk p k)%nat /\ Rsum (1 + pa_K p * pa_B p) (pvec_gsl p q k r) = 0 in
  match resample_Z_gsl mult p q with Raise e => e = ValueError /\ no_rate | Ok _ => ~ no_rate end.
Proof.
  intros mult p q no. unfold resample_Z_gsl.
  destruct (all_rows p (fun k r => negb (Reqb (Rsum (1 + pa_K p * pa_B p) (pvec_gsl p q k r)) 0))) eqn:E2; cbn [negb].
  - intros (k & r & Hk & Hr & H). rewrite all_rows_true in E2. specialize (E2 k r Hk Hr).
    apply negb_true_iff in E2. apply Reqb_false in E2. now apply E2.
  - split; [reflexivity|]. unfold all_rows in E2. apply forall_lt_false in E2 as (k & Hk & E2). apply forall_lt_false in E2 as (r & Hr & E2).
    apply negb_false_iff in E2. apply Reqb_true in E2. exists k, r. auto.
Qed.
(** Creating the random generators. *)
Theorem C106_generators : forall e,
  match initialize_pyrngs e with
  | Ok n => env_gsl e = true /\ env_omp e = None /\ (0 < env_threads e)%Z /\ Z.of_nat n = env_threads e
  | Raise x => (env_gsl e = false /\ x = GenericException) \/
               (env_gsl e = true /\ env_omp e <> None /\ x = TypeError) \/
               (env_gsl e = true /\ env_omp e = None /\ (env_threads e <= 0)%Z /\ x = AssertionError)
  end.
Proof.
  intros e. unfold initialize_pyrngs, guard. destruct (env_gsl e); cbn [bindr]; [|now left].
  destruct (env_omp e); [right; left; repeat split; discriminate|].
  destruct (Z.ltb_spec 0 (env_threads e)); cbn [bindr]; [|right; right; auto]. repeat split; auto. lia.
Qed.
(** Assigning into something that is not an array. *)
Theorem C106_assign_into_non_array : forall h m p x l o, walk h (VRef m) p = Some (VRef l) -> h_at h l = Some o ->
  match o with
  | Arr d _ => exec (Inplace p x) h m = Ok (store h l (Arr d x))
  | _ => exec (Inplace p x) h m = Raise TypeError
  end.
Proof. intros h m p x l o H1 H2. unfold exec. rewrite H1, H2. now destruct o. Qed.

(** ** C70: the cross-correlations are refused exactly when some lag exceeds the number of bins but not twice it. *)
Theorem C70_refused_lags : forall N T dtmax S_,
  let bad := (0 < N)%nat /\ exists d, (d < dtmax)%nat /\ (T < d < 2 * T)%nat in
  match xcorr N T dtmax S_ with Ok _ => ~ bad | Raise e => e = ValueError /\ bad end.
Proof.
  intros N T dtmax S_ bad. unfold xcorr, guard.
  destruct (forall_lt dtmax _) eqn:E; cbn [bindr].
  - intros (HN & d & Hd & H). rewrite forall_lt_true in E. specialize (E d Hd). cbv beta in E.
    apply orb_true_iff in E as [E|E].
    + unfold slices_match in E. apply orb_true_iff in E as [E|E]; apply Nat.leb_le in E; lia.
    + apply Nat.eqb_eq in E. lia.
  - split; [reflexivity|]. apply forall_lt_false in E as (d & Hd & E). apply orb_false_iff in E as [E1 E2].
    apply Nat.eqb_neq in E2. unfold slices_match in E1. apply orb_false_iff in E1 as [E1 E3].
    apply Nat.leb_gt in E1, E3. split; [lia|]. exists d. lia.
Qed.
(** ** C80: the firing-rate estimate is refused exactly for an empty grid or an empty interval. *)
Theorem C80_refused_grid : forall S_ T0 T1 Nb,
  match approximate_firing_rate S_ T0 T1 Nb with
  | Ok _ => (0 < Nb)%nat /\ T0 < T1
  | Raise e => e = ValueError /\ (Nb = 0%nat \/ T1 <= T0)
  end.
Proof.
  intros S_ T0 T1 Nb. unfold approximate_firing_rate, guard.
  destruct (Nat.ltb_spec 0 Nb); cbn [andb].
  - destruct (Rltb T0 T1) eqn:E; cbn [bindr].
    + apply Rltb_true in E. auto.
    + apply Rltb_false in E. split; [reflexivity|]. right. lra.
  - cbn [bindr]. split; [reflexivity|]. left. lia.
Qed.
(** ** C71: a Dirichlet needs at least one entry. *)
Theorem C71_dirichlet_needs_an_entry : forall rows gamma, dirichlet_init rows 0 gamma = Raise AssertionError.
Proof. intros rows gamma. unfold dirichlet_init, guard. change (1 <=? 0)%nat with false. now rewrite andb_false_r. Qed.

(** ** C91: after initialising from a standard model the variational parameters of absent edges are per-pair arrays, so the
    weights are drawn independently. *)
Theorem C91_after_initialisation : forall s x r, init_with_std s x = Ok r -> mx_scalar (fst r) = false.
Proof. intros s x r H. unfold init_with_std in H. apply bindr_ok in H as (y & _ & H). injection H as <-. reflexivity. Qed.

Theorem C91_after_mean_field : forall lgam psi o x x', (o = XBatch \/ exists mb step, o = XSgd mb step) ->
  mstep lgam psi o x = (Ok tt, x') -> mx_scalar x' = false.
Proof.
  intros lgam psi o x x' Ho H. destruct Ho as [->|(mb & step & ->)]; cbn [mstep] in H; unfold lift_mf in H;
  match type of H with context [match ?e with _ => _ end] => destruct e end; try discriminate; injection H as <-; reflexivity.
Qed.
(** Initialising the variational weights from a Gibbs sample (A, W): given an edge the expected weight is the sample's, given
    no edge the prior's spike; the edge probability is 0.95 or 0.05 according to the sample. *)
Theorem C91_from_gibbs_sample : forall A W scale x i j, scale <> 0 ->
  let w := mx_w (init_from_gibbs A W scale x) in let h := gi_h (mx_g x) in
  expected_W_given_A w 1 i j = W i j /\
  expected_W_given_A w 0 i j = h_kappa0 h / h_nu0 h /\
  w_p w i j = Fin (if A i j then 95 / 100 else 5 / 100) /\
  mx_scalar (init_from_gibbs A W scale x) = true.
Proof.
  intros A W scale x i j Hs w h. unfold expected_W_given_A, w. cbn [init_from_gibbs mx_w mx_scalar w_from_gibbs w_kappa1 w_v1 w_kappa0 w_v0 w_p].
  split; [unfold Rdiv; rewrite (Rmult_comm scale), Rmult_assoc, Rinv_r by assumption; ring|].
  split; [unfold h; ring|]. split; [|reflexivity]. f_equal. destruct (A i j); cbn; lra.
Qed.

(** ** C49: the standard model's weight table as an array: K rows of 1 + K*B entries, of which the last K*B form the
    (receiver, sender, basis) view. *)
Theorem C49_weight_table_shape : forall l K B,
  v_dims (weights_view l K B) = [K; 1 + K * B]%nat /\
  v_dims (slice_from1 (weights_view l K B)) = [K; K * B]%nat /\
  fold_right Nat.mul 1%nat (v_dims (split_last (slice_from1 (weights_view l K B)) K B)) = (K * K * B)%nat /\
  fold_right Nat.mul 1%nat (v_dims (slice_from1 (weights_view l K B))) = (K * K * B)%nat.
Proof.
  intros l K B. unfold split_last, slice_from1, weights_view. cbn [v_dims v_strides fold_right].
  replace (1 + K * B - 1)%nat with (K * B)%nat by lia. repeat split; lia.
Qed.

(** ** C104: the Erdos-Renyi network has one block, with weight one. *)
Theorem C104_erdos_renyi_one_block : forall K p tau0 tau1 v alpha beta kappa d s,
  erdos_renyi_init K p tau0 tau1 v alpha beta kappa d = Ok s ->
  sb_C s = 1%nat /\ sb_pi s 0%nat = 1 /\ sb_K s = K /\ sb_allow s = true.
Proof.
  intros K p tau0 tau1 v alpha beta kappa d s H. unfold erdos_renyi_init, sbm_init in H. apply bindr_ok in H as (s0 & Hb & H).
  unfold sbm_base_init in Hb. cbv zeta in Hb.
  apply bindr_ok in Hb as ([] & H1 & Hb). apply bindr_ok in Hb as (pi & Hpi & Hb). apply bindr_ok in Hb as (m & _ & Hb).
  apply bindr_ok in Hb as (c' & Hc & Hb). apply bindr_ok in Hb as (p' & Hp & Hb). apply bindr_ok in Hb as (v' & Hv & Hb).
  apply bindr_ok in Hb as (f & Hf & Hb). injection Hb as <-. cbn [sb_fixed] in H.
  cbn in Hpi. injection Hpi as <-. destruct f; cbn [negb] in H; injection H as <-; cbn; repeat split; lra.
Qed.
Print Assumptions C98_block_weights.
Print Assumptions C106_initialise_from_standard.
Print Assumptions C106_rate_of_one_process.

(** Non-vacuity. *)
(** A construction that succeeds: C104_erdos_renyi_nonvacuous in Props_Fresh. *)
Example ex_own_block : self_block 2 1 3 = true /\ self_block 2 1 2 = false /\ self_block 2 1 5 = false.
Proof. repeat split. Qed.
Example ex_bad_lag : (0 < 2)%nat /\ exists d, (d < 9)%nat /\ (5 < d < 2 * 5)%nat.
Proof. split; [lia|exists 7%nat; lia]. Qed.
