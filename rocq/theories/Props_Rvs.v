(** * Props_Rvs: C124, rvs() draws from a component's prior. *)
From Verif Require Import Prelude ExtReal Arrays Spec_Labels Spec_Parents Spec_Gibbs Spec_Network Spec_Joint M_Basis M_Parents M_Discrete M_Gibbs M_Dist M_Network M_Sweep M_Prior M_Rvs
  L_Parents Props_Prior Props_Expect.
Set Implicit Arguments.
Open Scope R_scope.

(** C124 for the background rates: whatever size is asked for, one gamma variate per process, from the prior whose log density
    log_likelihood then reports. *)
Theorem C124_bias_rvs_partial : forall (Sz : Type) g K alpha beta (size : Sz),
  exists x, fst (comp_rvs g (CBias K alpha beta) size) = Ok (HVec K x) /\
    snd (comp_rvs g (CBias K alpha beta) size) = [AGamma alpha (1 / beta) K] /\ x = g alpha (1 / beta) K /\
    forall lgam, (forall k, (k < K)%nat -> 0 < x k) ->
      bias_log_likelihood lgam K alpha beta (HVec K x) = Ok (Fin (Rsum K (fun k => gamma_lpdf lgam alpha beta (x k)))).
Proof.
  intros Sz g K alpha beta size. exists (g alpha (1 / beta) K). repeat split. intros lgam H. unfold bias_log_likelihood. rewrite Nat.eqb_refl. cbn [guard bindr].
  rewrite C87_bias by exact H. reflexivity.
Qed.
Print Assumptions C124_bias_rvs_partial.

(** False of every other component: weights, impulse responses, networks and parents never return a value. *)
Theorem C124_other_components_refuted : forall (Sz : Type) g (size : Sz) c, (forall K alpha beta, c <> CBias K alpha beta) ->
  (forall n x, fst (comp_rvs g c size) <> Ok (HVec n x)) /\
  ((c = CImpulses \/ c = CCtImpulses) -> comp_rvs g c size = (Ok HNone, [])) /\
  (forall K n, c = CSpikeSlab K n -> comp_rvs g c size = (Raise TypeError, [AUnif K])) /\
  (c = CMixture \/ c = CCtWeights \/ c = CBlockNet \/ c = CErNet \/ c = CParents -> comp_rvs g c size = (Raise NotImplementedErr, [])).
Proof.
  intros Sz g size c H. split; [|split; [|split]].
  - destruct c; cbn; try discriminate. intros n x E. exact (H _ _ _ eq_refl).
  - intros [-> | ->]; reflexivity.
  - intros K n ->. reflexivity.
  - intros [-> | [-> | [-> | [-> | ->]]]]; reflexivity.
Qed.
Print Assumptions C124_other_components_refuted.

(** The size argument changes nothing. *)
Theorem C124_size_ignored_refuted : forall (Sz Sz' : Type) g c (size : Sz) (size' : Sz'), comp_rvs g c size = comp_rvs g c size'.
Proof. intros. reflexivity. Qed.

(** The block-model impulse responses cannot be constructed. *)
Theorem C124_block_impulses_refuted :
  sbm_impulses_init true = Raise NotImplementedErr /\ sbm_impulses_init false = Raise AssertionError.
Proof. split; reflexivity. Qed.

(** The statistics of a table of background counts are the sums over its rows and the time it spans; an empty table
    counts for nothing. *)
Theorem C124_background_table : forall dt T K Z0 k, (k < K)%nat ->
  bias_table_ss dt T K Z0 k = (Rsum T (fun t => IZR (Z0 t k)), INR T * dt).
Proof. intros dt [|T] K Z0 k Hk; [cbn; f_equal; ring|reflexivity]. Qed.

Example C124_nonvacuous : exists x, fst (comp_rvs (fun a s n i => INR i + 1) (CBias 3 2 (1/2)) tt) = Ok (HVec 3 x) /\
  (forall k, (k < 3)%nat -> 0 < x k) /\ x 2%nat = 3.
Proof.
  eexists. split; [reflexivity|]. split; [|cbn; lra]. intros k _. pose proof (pos_INR k). lra.
Qed.

Lemma label_mean_plus C q : forall n c F G, label_mean_from C q n c (fun x => F x + G x) = label_mean_from C q n c F + label_mean_from C q n c G.
Proof.
  induction n as [|n IH]; intros c F G; cbn [label_mean_from]; [reflexivity|]. rewrite <- Rsum_plus. apply Rsum_ext. intros a _. rewrite IH. ring.
Qed.
Lemma label_mean_ext C q : forall n c F G, (forall x, F x = G x) -> label_mean_from C q n c F = label_mean_from C q n c G.
Proof. induction n as [|n IH]; intros c F G H; cbn [label_mean_from]; [apply H|]. apply Rsum_ext. intros a _. f_equal. now apply IH. Qed.
(** C93 for expected_notp: between distinct nodes it is the posterior mean of the probability of no connection; with
    self-connections disallowed it is 1 on the diagonal. *)
Theorem C93_expected_notp_partial : forall s f i j, sb_fixed s = false -> (forall k, (k < sb_K s)%nat -> simplex (sb_C s) (mf_m f k)) ->
  (i < sb_K s)%nat -> (j < sb_K s)%nat -> (forall a b, mf_tau1 f a b + mf_tau0 f a b <> 0) ->
  ((i <> j \/ sb_C s = 1%nat) -> (sb_allow s = true \/ i <> j) ->
     sbm_expected_notp s f i j = posterior_mean s f (fun a b => mf_tau0 f a b / (mf_tau1 f a b + mf_tau0 f a b)) i j) /\
  (i = j -> sb_allow s = false -> sbm_expected_notp s f i j = 1).
Proof.
  intros s f i j Hf Hm Hi Hj Hn. split.
  - intros Hij Hal. unfold sbm_expected_notp.
    destruct (@C93_expectations_partial (fun _ => 0) s f i j Hf Hm Hi Hj Hij Hal) as (E & _). rewrite E.
    enough (G : posterior_mean s f (fun a b => mf_tau1 f a b / (mf_tau1 f a b + mf_tau0 f a b)) i j + posterior_mean s f (fun a b => mf_tau0 f a b / (mf_tau1 f a b + mf_tau0 f a b)) i j = 1) by lra.
    unfold posterior_mean, label_mean. rewrite <- label_mean_plus.
    rewrite (@label_mean_ext _ _ _ _ _ (fun _ => 1)) by (intros x; field; apply Hn).
    rewrite (@label_mean_const (sb_C s) (mf_m f) (sb_K s)); [reflexivity| |lia|reflexivity]. intros k Hk. apply Hm. exact Hk.
  - intros -> Ha. unfold sbm_expected_notp, sbm_expected_p. rewrite Hf, Ha. cbn [negb]. unfold fill_diagonal. rewrite Nat.eqb_refl. ring.
Qed.
Print Assumptions C93_expected_notp_partial.
