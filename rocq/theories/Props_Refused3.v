(** * Props_Refused3: further refused calls (C106) and exact values tightened after the third automatic mutation campaign. *)
From Coq Require Import FunctionalExtensionality.
From Verif Require Import Prelude ExtReal Arrays M_Basis M_Parents M_Discrete M_Gibbs M_Network M_Sweep M_MeanField M_Standard M_Dist
  M_Nonlinear M_Continuous M_CtInit M_Interrupt M_InterruptVb M_Utils Props_Network L_Parents L_Discrete.
Set Implicit Arguments.
Open Scope R_scope.

(** ** Mean-field steps without data, and stochastic steps with other than one data set, are refused. *)
Theorem C106_mean_field_steps :
  (forall lgam psi m, mm_data m = [] -> mf_batch_step lgam psi m = Raise TypeError) /\
  (forall lgam psi mb step m, List.length (mm_data m) <> 1%nat -> mf_sgd_step lgam psi mb step m = Raise AssertionError).
Proof.
  split.
  - intros lgam psi m E. unfold mf_batch_step. rewrite E. reflexivity.
  - intros lgam psi mb step m H. unfold mf_sgd_step. destruct (mm_data m) as [|d [|]]; [reflexivity|cbn in H; lia|reflexivity].
Qed.
Print Assumptions C106_mean_field_steps.

(** ** A variational parent update with a zero normaliser is refused with AssertionError, whole or one process at a time. *)
Theorem C106_mean_field_parents :
  (forall p e, (mf_update_python p e = Raise AssertionError /\ exists k r, (k < pa_K p)%nat /\ (r < pa_Tk p k)%nat /\ mf_norm p e k r = 0) \/
     (exists p', mf_update_python p e = Ok p') /\ forall k r, (k < pa_K p)%nat -> (r < pa_Tk p k)%nat -> mf_norm p e k r <> 0) /\
  (forall psi m p k, rows_finite psi m p k = Ok tt \/
     rows_finite psi m p k = Raise AssertionError /\ exists r, (r < pa_Tk p k)%nat /\ mf_norm p (mf_in_of psi m) k r = 0).
Proof.
  split.
  - intros p e. unfold mf_update_python. destruct (all_rows p _) eqn:E; cbn [negb].
    + right. split; [eauto|]. intros k r Hk Hr H0. rewrite all_rows_true in E. specialize (E k r Hk Hr).
      apply Bool.negb_true_iff, Reqb_false in E. contradiction.
    + left. split; [reflexivity|]. unfold all_rows in E. apply forall_lt_false in E as (k & Hk & E).
      apply forall_lt_false in E as (r & Hr & E). exists k, r. split; [exact Hk|]. split; [exact Hr|].
      apply Bool.negb_false_iff, Reqb_true in E. exact E.
  - intros psi m p k. unfold rows_finite. destruct (forall_lt _ _) eqn:E; [left; reflexivity|].
    right. split; [reflexivity|]. apply forall_lt_false in E as (r & Hr & E). exists r. split; [exact Hr|].
    apply Bool.negb_false_iff, Reqb_true in E. exact E.
Qed.
Print Assumptions C106_mean_field_parents.

(** ** Block models: a scalar or table of connection probabilities outside [0, 1], a negative scale or a table of the wrong
    shape is refused with AssertionError; labels for no node at all with ValueError. *)
Theorem C106_block_tables :
  (forall C x, x < 0 \/ 1 < x -> table_of C (Some 1) (PScalar x) = Raise AssertionError) /\
  (forall C x, x < 0 -> table_of C None (PScalar x) = Raise AssertionError) /\
  (forall C hi r c M, r <> C \/ c <> C \/ (exists i j, (i < C)%nat /\ (j < C)%nat /\ M i j < 0) ->
     table_of C hi (PArray r c M) = Raise AssertionError) /\
  (forall C M i j, (i < C)%nat -> (j < C)%nat -> 1 < M i j -> table_of C (Some 1) (PArray C C M) = Raise AssertionError) /\
  (forall a d c, (1 <= ar_C a)%nat -> (exists x, ar_pi a = PiScalar x) -> ar_m a = None -> ar_K a = 0%nat -> ar_c a = Some (0%nat, c) ->
     sbm_init a d = Raise ValueError).
Proof.
  assert (N : forall C (M : mat) i j (P : R -> bool), (i < C)%nat -> (j < C)%nat -> P (M i j) = false ->
      forall_lt C (fun i => forall_lt C (fun j => P (M i j))) = false).
  { intros C M i j P Hi Hj H. destruct (forall_lt C (fun i => forall_lt C (fun j => P (M i j)))) eqn:E; [|reflexivity].
    rewrite forall_lt_true in E. specialize (E i Hi). rewrite forall_lt_true in E. rewrite E in H by exact Hj. discriminate. }
  split; [|split; [|split; [|split]]].
  - intros C x H. cbn [table_of]. destruct (Rleb 0 x) eqn:E1; [|reflexivity]. destruct (Rleb x 1) eqn:E2; [|reflexivity].
    apply Rleb_true in E1, E2. lra.
  - intros C x H. cbn [table_of]. replace (Rleb 0 x) with false by (symmetry; apply Rleb_false; lra). reflexivity.
  - intros C hi r c M H. cbn [table_of]. destruct (Nat.eqb_spec r C); [|reflexivity]. destruct (Nat.eqb_spec c C); [|reflexivity].
    destruct H as [H|[H|(i & j & Hi & Hj & H)]]; try contradiction. cbn [andb].
    rewrite (@N C M i j (Rleb 0) Hi Hj) by (apply Rleb_false; lra). reflexivity.
  - intros C M i j Hi Hj H. cbn [table_of]. rewrite (@N C M i j (fun x => Rleb x 1) Hi Hj) by (apply Rleb_false; lra).
    rewrite andb_false_r. reflexivity.
  - intros a d c HC (x & Hx) Hm HK Hc. unfold sbm_init, sbm_base_init. cbv zeta. rewrite Hx, Hm, Hc, HK.
    destruct (Nat.leb_spec 1 (ar_C a)); [|lia]. reflexivity.
Qed.
Print Assumptions C106_block_tables.

(** ** Counts: anything but an array is refused with AssertionError; counts for another number of processes are refused by
    add_data with AssertionError and by compute_rate, given the filtered data too, with ValueError. *)
Theorem C106_counts :
  (forall K s, sv_isarray s = false -> check_S K s = Raise AssertionError) /\
  (forall K s T K', sv_dims s = [T; K'] -> K' <> K -> check_S K s = Raise AssertionError) /\
  (forall m index s T K' fv, sv_isarray s = true -> sv_dims s = [T; K'] -> K' <> dm_K m -> fv_dims fv = [T; K'; dm_B m] ->
     rate_input m index (Some s) (Some fv) = Raise ValueError) /\
  (forall m index s f, sv_isarray s = false -> rate_input m index (Some s) f = Raise AssertionError).
Proof.
  split; [|split; [|split]].
  - intros K s H. unfold check_S. now rewrite H.
  - intros K s T K' H HK. unfold check_S. destruct (sv_isarray s); [|reflexivity]. cbn [negb]. rewrite H.
    destruct (Nat.eqb_spec K' K); [contradiction|reflexivity].
  - intros m index s T K' fv Ha Hs HK Hf. cbn [rate_input]. rewrite Ha. cbn [negb]. rewrite Hs, Hf.
    replace (dims_eqb _ _) with true; [|cbn; now rewrite !Nat.eqb_refl].
    destruct (Nat.eqb_spec K' (dm_K m)); [contradiction|reflexivity].
  - intros m index s f H. cbn [rate_input]. now rewrite H.
Qed.
Print Assumptions C106_counts.

(** ** One row of an interrupted parent update is refused exactly as in the uninterrupted one: a row without events by the
    assertion of the pure-Python sampler, a row without mass by the multinomial. *)
Theorem C106_parent_row :
  forall (gsl : bool) (st : gibbs) (p : parents) (k r : nat), let v := (if gsl then pvec_gsl else pvec_python) p (params_of (gi_m st)) k r in
    (gsl = false -> (pa_Ss p k r <= 0)%Z -> row_ok gsl st p k r = Raise AssertionError) /\
    ((0 < pa_Ss p k r)%Z -> Rsum (1 + pa_K p * pa_B p) v = 0 -> row_ok gsl st p k r = Raise ValueError) /\
    ((0 < pa_Ss p k r)%Z -> Rsum (1 + pa_K p * pa_B p) v <> 0 -> row_ok gsl st p k r = Ok tt).
Proof.
  intros gsl st p k r v. unfold row_ok. fold v. split; [|split].
  - intros -> H. destruct (Z.ltb_spec 0 (pa_Ss p k r)); [lia|reflexivity].
  - intros H H0. destruct (Z.ltb_spec 0 (pa_Ss p k r)); [|lia]. rewrite andb_false_r. rewrite (proj2 (Reqb_true _ _) H0). reflexivity.
  - intros H H0. destruct (Z.ltb_spec 0 (pa_Ss p k r)); [|lia]. rewrite andb_false_r. rewrite (proj2 (Reqb_false _ _) H0). reflexivity.
Qed.
Print Assumptions C106_parent_row.

(** ** Initialising the mixture model from a standard model: the variational expectation of every weight, given that the edge
    is present, is the standard model's; the edge probability is 0.8 where the edge is set and 0.2 elsewhere; the expected
    background rate is the standard model's bias when it is not below 1e-10. *)
Theorem C52_variational_expectations :
  forall nu0 ip i j k, 0 < nu0 ->
    expected_W_given_A (init_mf_weights nu0 ip) 1 i j = ip_W ip i j /\
    expected_W_given_A (init_mf_weights nu0 ip) 0 i j = ip_W ip i j /\
    w_p (init_mf_weights nu0 ip) i j = Fin (if ip_A ip i j then 8 / 10 else 2 / 10) /\
    (/ 10 ^ 10 <= ip_lam ip k -> mb_alpha (init_mf_bias ip) k / mb_beta (init_mf_bias ip) k = ip_lam ip k).
Proof.
  intros nu0 ip i j k Hn. unfold expected_W_given_A. cbn [init_mf_weights w_kappa0 w_kappa1 w_v0 w_v1 w_p].
  split; [field; lra|]. split; [field; lra|]. split; [destruct (ip_A ip i j); cbn; f_equal; lra|].
  intros H. cbn [init_mf_bias mb_alpha mb_beta]. unfold clip_lo. rewrite Rmax_right; lra.
Qed.
Print Assumptions C52_variational_expectations.

(** ** Initialising the continuous-time model with a block network of as many blocks as processes: the edge i -> j is set when
    its weight exceeds the percentile of ITS OWN sparsity p[i, j] among all weights. *)
Theorem C109_threshold_per_pair :
  forall K W fp s r c A i j, sb_C s = K -> ct_threshold K W (NetSbm fp s) = Ok (r, c, A) -> (i < K)%nat -> (j < K)%nat ->
    exists thr, percentile (flat_mat K W) ((1 - sb_p s i j) * 100) = Ok thr /\ (A i j = true <-> thr < W i j) /\ r = K /\ c = K.
Proof.
  intros K W fp s r c A i j HC. cbn [ct_threshold]. unfold percentile_table. destruct (forall_lt _ _) eqn:F; cbn [bindr].
  - rewrite HC, Nat.eqb_refl. intros [= <- <- <-] Hi Hj. rewrite forall_lt_true in F. specialize (F i ltac:(lia)).
    rewrite forall_lt_true in F. specialize (F j ltac:(lia)). destruct (percentile _ _) as [thr|e]; [|discriminate].
    exists thr. split; [reflexivity|]. split; [apply Rltb_true|auto].
  - destruct (flat_mat K W); discriminate.
Qed.
Print Assumptions C109_threshold_per_pair.

(** ** The smoothing kernel of approximateFiringRate: nine taps, symmetric, a Gaussian of unit width in time, summing to 1. *)
Theorem C80_smoothing_kernel :
  forall bw, Rsum 9 (kernel bw) = 1 /\
    (forall j, (j < 9)%nat -> 0 < kernel bw j /\ kernel bw j = kernel bw 4 * exp (- (((INR j - 4) * bw) ^ 2 / 2)) /\
                               kernel bw (8 - j) = kernel bw j).
Proof.
  intros bw. assert (P : forall j, 0 < kernel_raw bw j) by (intros; apply exp_pos).
  assert (Q : 0 < Rsum 9 (kernel_raw bw)) by (apply Rsum_pos; [lia|]; intros; apply P).
  assert (E : forall j, kernel_raw bw j = exp (- (((INR j - 4) * bw) ^ 2 / 2))).
  { intros j. unfold kernel_raw. f_equal. ring_simplify. field. }
  split.
  - unfold kernel. rewrite Rsum_div. field. lra.
  - intros j Hj. unfold kernel. split; [apply Rdiv_lt_0_compat; auto|]. split.
    + assert (E4 : kernel_raw bw 4 = 1). { rewrite E. replace (INR 4) with 4 by (cbn; ring). replace (- (((4 - 4) * bw) ^ 2 / 2)) with 0 by field. apply exp_0. }
      rewrite E4, (E j). field. lra.
    + f_equal. rewrite !E. f_equal. rewrite minus_INR by lia. replace (INR 8) with 8 by (cbn; ring). field.
Qed.
Print Assumptions C80_smoothing_kernel.

Example Refused3_nonvacuous :
  exists ip, expected_W_given_A (init_mf_weights 2 ip) 1 0%nat 1%nat = 3 /\ w_p (init_mf_weights 2 ip) 0%nat 1%nat = Fin (8 / 10).
Proof.
  exists {| ip_lam := fun _ => 1; ip_W := fun _ _ => 3; ip_A := fun _ _ => true; ip_g := fun _ _ _ => 1 |}.
  destruct (@C52_variational_expectations 2 {| ip_lam := fun _ => 1; ip_W := fun _ _ => 3; ip_A := fun _ _ => true; ip_g := fun _ _ _ => 1 |} 0 1 0 ltac:(lra))
    as (H1 & _ & H2 & _). split; [exact H1|exact H2].
Qed.
