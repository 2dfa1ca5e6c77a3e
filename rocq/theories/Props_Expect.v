(** * Props_Expect: C93, the expectations a block-model network reports are means under its variational posterior. *)
From Verif Require Import Prelude ExtReal Arrays Spec_Labels Spec_Basis Spec_Discrete Spec_Parents Spec_Gibbs Spec_Network
  M_Basis M_Parents M_Discrete M_Gibbs M_Dist M_Network L_Basis L_Discrete L_Parents L_Gibbs L_Network
  Props_Discrete Props_Parents Props_Gibbs Props_Network.
Set Implicit Arguments.
Open Scope R_scope.

Section Labels.
Variables (C : nat) (q : nat -> nat -> R) (K : nat).
Hypothesis Hq : forall k, (k < K)%nat -> Rsum C (q k) = 1.

(** A function of labels that are already set averages to itself. *)
Lemma label_mean_const n : forall c F, (n <= K)%nat ->
  (forall c', (forall i, (n <= i)%nat -> c' i = c i) -> F c' = F c) -> label_mean_from C q n c F = F c.
Proof.
  induction n as [|n IH]; intros c F Hn HF; cbn [label_mean_from]; [reflexivity|].
  rewrite (@Rsum_ext C _ (fun a => q n a * F c)).
  - transitivity (F c * Rsum C (q n)); [|rewrite Hq by lia; ring]. rewrite <- Rsum_scal. apply Rsum_ext. intros; ring.
  - intros a Ha. f_equal.
    assert (E0 : F (set_label c n a) = F c).
    { apply HF. intros i Hi. unfold set_label. destruct (Nat.eqb_spec i n); [lia|reflexivity]. }
    rewrite <- E0. apply IH; [lia|]. intros c' Hc'. rewrite E0. apply HF. intros i Hi. rewrite Hc' by lia.
    unfold set_label. destruct (Nat.eqb_spec i n); [lia|reflexivity].
Qed.
Lemma label_mean_one n : forall c i (h : nat -> R), (i < n <= K)%nat ->
  label_mean_from C q n c (fun c => h (c i)) = Rsum C (fun a => q i a * h a).
Proof.
  induction n as [|n IH]; intros c i h Hi; [lia|]. cbn [label_mean_from].
  destruct (Nat.eq_dec i n) as [->|Hne].
  - apply Rsum_ext. intros a Ha. f_equal. rewrite (@label_mean_const n _ (fun c => h (c n))) by (try lia; intros c' Hc'; rewrite Hc' by lia; reflexivity).
    unfold set_label. now rewrite Nat.eqb_refl.
  - rewrite (@Rsum_ext C _ (fun a => q n a * Rsum C (fun a => q i a * h a))).
    + transitivity (Rsum C (fun a => q i a * h a) * Rsum C (q n)); [|rewrite Hq by lia; ring]. rewrite <- Rsum_scal. apply Rsum_ext. intros; ring.
    + intros a Ha. f_equal. apply IH. lia.
Qed.
Lemma label_mean_two n : forall c i j (T : mat), (i < n <= K)%nat -> (j < n)%nat -> i <> j ->
  label_mean_from C q n c (fun c => T (c i) (c j)) = Rsum C (fun a => Rsum C (fun b => q i a * q j b * T a b)).
Proof.
  induction n as [|n IH]; intros c i j T Hi Hj Hij; [lia|]. cbn [label_mean_from].
  destruct (Nat.eq_dec i n) as [->|Hi'].
  - apply Rsum_ext. intros a Ha.
    assert (E : label_mean_from C q n (set_label c n a) (fun c => T (c n) (c j)) = label_mean_from C q n (set_label c n a) (fun c => T a (c j))).
    { clear IH. assert (G : forall m c', (m <= n)%nat -> c' n = a -> label_mean_from C q m c' (fun c => T (c n) (c j)) = label_mean_from C q m c' (fun c => T a (c j))).
      { induction m as [|m IHm]; intros c' Hm Hc; cbn [label_mean_from]; [now rewrite Hc|]. apply Rsum_ext. intros b Hb. f_equal.
        apply IHm; [lia|]. unfold set_label. destruct (Nat.eqb_spec n m); [lia|exact Hc]. }
      apply G; [lia|]. unfold set_label. now rewrite Nat.eqb_refl. }
    rewrite E, (@label_mean_one n _ j (T a)) by lia. rewrite <- Rsum_scal. apply Rsum_ext. intros; ring.
  - destruct (Nat.eq_dec j n) as [->|Hj'].
    + rewrite Rsum_swap. apply Rsum_ext. intros b Hb.
      assert (G : forall m c', (m <= n)%nat -> c' n = b -> label_mean_from C q m c' (fun c => T (c i) (c n)) = label_mean_from C q m c' (fun c => T (c i) b)).
      { induction m as [|m IHm]; intros c' Hm Hc; cbn [label_mean_from]; [now rewrite Hc|]. apply Rsum_ext. intros a Ha. f_equal.
        apply IHm; [lia|]. unfold set_label. destruct (Nat.eqb_spec n m); [lia|exact Hc]. }
      rewrite G by (try lia; unfold set_label; now rewrite Nat.eqb_refl).
      rewrite (@label_mean_one n _ i (fun a => T a b)) by lia. rewrite <- Rsum_scal. apply Rsum_ext. intros; ring.
    + rewrite (@Rsum_ext C _ (fun a => q n a * Rsum C (fun a => Rsum C (fun b => q i a * q j b * T a b)))).
      * transitivity (Rsum C (fun a => Rsum C (fun b => q i a * q j b * T a b)) * Rsum C (q n)); [|rewrite Hq by lia; ring].
        rewrite <- Rsum_scal. apply Rsum_ext. intros; ring.
      * intros a Ha. f_equal. apply IH; lia.
Qed.
End Labels.

(* ------------------------------------------------------------------ *)
(** ** C93 *)

(** The mean of a block table entry T(c_i, c_j) over the variational posterior of the labels. *)
Definition posterior_mean (s : sbm) (f : mfsbm) (T : mat) (i j : nat) : R :=
  label_mean (sb_C s) (mf_m f) (sb_K s) (fun c => T (c i) (c j)).

(** Between distinct nodes, expected_p, expected_v and the expected logarithms are exactly the posterior means of the
    beta/gamma means (or mean logarithms) of the block pair the two labels select.  On the diagonal the posterior mean
    is the sum over one label; the code's value is that only when there is one block (or no block table entry depends on
    the labels) or self-connections are disallowed for p. *)
Theorem C93_expectations_partial :
  forall psi s f i j, sb_fixed s = false -> (forall k, (k < sb_K s)%nat -> simplex (sb_C s) (mf_m f k)) ->
  (i < sb_K s)%nat -> (j < sb_K s)%nat -> (i <> j \/ sb_C s = 1%nat) -> (sb_allow s = true \/ i <> j) ->
  sbm_expected_p s f i j = posterior_mean s f (fun a b => mf_tau1 f a b / (mf_tau1 f a b + mf_tau0 f a b)) i j /\
  sbm_expected_v s f i j = posterior_mean s f (fun a b => mf_alpha f a b / mf_beta f a b) i j /\
  sbm_expected_log_v psi s f i j = posterior_mean s f (fun a b => psi (mf_alpha f a b) - ln (mf_beta f a b)) i j /\
  sbm_expected_log_p psi s f i j = Fin (posterior_mean s f (fun a b => psi (mf_tau1 f a b) - psi (mf_tau1 f a b + mf_tau0 f a b)) i j) /\
  sbm_expected_log_notp psi s f i j = Fin (posterior_mean s f (fun a b => psi (mf_tau0 f a b) - psi (mf_tau1 f a b + mf_tau0 f a b)) i j).
Proof.
  intros psi s f i j Hf Hm Hi Hj Hij Hal.
  assert (Hq : forall k, (k < sb_K s)%nat -> Rsum (sb_C s) (mf_m f k) = 1) by (intros k Hk; apply Hm; auto).
  assert (G : forall T, block_mean (sb_C s) (mf_m f) T i j = posterior_mean s f T i j).
  { intros T. unfold posterior_mean, label_mean, block_mean. destruct (Nat.eq_dec i j) as [->|Hne].
    - destruct Hij as [Hij|HC]; [congruence|].
      rewrite (@label_mean_one (sb_C s) (mf_m f) (sb_K s) Hq (sb_K s) _ j (fun a => T a a)) by lia.
      pose proof (Hq j Hj) as H1. rewrite HC in *. cbn [Rsum] in *. assert (E : mf_m f j 0%nat = 1) by lra. rewrite E. ring.
    - symmetry. apply (@label_mean_two (sb_C s) (mf_m f) (sb_K s) Hq); lia. }
  assert (Hd : (if negb (sb_allow s) then (i =? j)%nat else false) = false).
  { destruct (sb_allow s); [reflexivity|]. cbn [negb]. destruct (Nat.eqb_spec i j); [destruct Hal; congruence|reflexivity]. }
  assert (Hfd : forall (M : mat) x, (if negb (sb_allow s) then fill_diagonal M x else M) i j = M i j).
  { intros M x. unfold fill_diagonal. destruct (sb_allow s); cbn [negb] in *; [reflexivity|]. now rewrite Hd. }
  assert (Hefd : forall (M : nat -> nat -> er) x, (if negb (sb_allow s) then efill_diagonal M x else M) i j = M i j).
  { intros M x. unfold efill_diagonal. destruct (sb_allow s); cbn [negb] in *; [reflexivity|]. now rewrite Hd. }
  unfold sbm_expected_p, sbm_expected_v, sbm_expected_log_v, sbm_expected_log_p, sbm_expected_log_notp. rewrite Hf.
  rewrite Hfd, !Hefd, !G.
  assert (Gext : forall T T', (forall a b, T a b = T' a b) -> posterior_mean s f T i j = posterior_mean s f T' i j).
  { intros T T' H. rewrite <- !G. unfold block_mean. apply Rsum_ext. intros a _. apply Rsum_ext. intros b _. now rewrite H. }
  split; [|split; [reflexivity|split; [reflexivity|split]]].
  - apply Gext. intros. now rewrite Rplus_comm.
  - f_equal. apply Gext. intros. now rewrite (Rplus_comm (mf_tau0 f a b)).
  - f_equal. apply Gext. intros. now rewrite (Rplus_comm (mf_tau0 f a b)).
Qed.
Print Assumptions C93_expectations_partial.

(** The diagonal: the posterior mean of a self-connection's entry is the sum over its one label; the code averages over
    two independent labels, and the difference is a weighted sum of off-diagonal contrasts. *)
Theorem C93_diagonal_error :
  forall s f i, sb_fixed s = false -> (forall k, (k < sb_K s)%nat -> simplex (sb_C s) (mf_m f k)) -> (i < sb_K s)%nat ->
  let T := fun a b => mf_alpha f a b / mf_beta f a b in
  posterior_mean s f T i i = Rsum (sb_C s) (fun a => mf_m f i a * T a a) /\
  posterior_mean s f T i i - sbm_expected_v s f i i =
    Rsum (sb_C s) (fun a => Rsum (sb_C s) (fun b => mf_m f i a * mf_m f i b * (T a a - T a b))).
Proof.
  intros s f i Hf Hm Hi T.
  assert (Hq : forall k, (k < sb_K s)%nat -> Rsum (sb_C s) (mf_m f k) = 1) by (intros k Hk; apply Hm; auto).
  assert (E : posterior_mean s f T i i = Rsum (sb_C s) (fun a => mf_m f i a * T a a)).
  { apply (@label_mean_one (sb_C s) (mf_m f) (sb_K s) Hq (sb_K s) _ i (fun a => T a a)). lia. }
  split; [exact E|]. rewrite E. unfold sbm_expected_v. rewrite Hf. fold T. unfold block_mean.
  rewrite <- Rsum_minus. apply Rsum_ext. intros a Ha.
  rewrite (@Rsum_ext (sb_C s) (fun b => mf_m f i a * mf_m f i b * (T a a - T a b))
     (fun b => mf_m f i a * T a a * mf_m f i b - mf_m f i a * mf_m f i b * T a b)) by (intros; ring).
  rewrite Rsum_minus, Rsum_scal, (Hq i Hi). ring.
Qed.
Print Assumptions C93_diagonal_error.
Definition ex93 : sbm :=
  {| sb_K := 1; sb_C := 2; sb_pi := fun _ => 1; sb_tau0 := 1; sb_tau1 := 1; sb_kappa := 1; sb_alpha := 1; sb_beta := 1;
     sb_allow := true; sb_m := fun _ => 1/2; sb_c := fun _ => 0%nat; sb_p := fun _ _ => 1/2; sb_v := fun _ _ => 1; sb_fixed := false |}.
Definition ex93_f : mfsbm :=
  {| mf_pi := fun _ => 1; mf_m := fun _ _ => 1/2; mf_tau0 := fun a b => if Nat.eqb a b then 1 else 9;
     mf_tau1 := fun a b => if Nat.eqb a b then 9 else 1; mf_alpha := fun a b => if Nat.eqb a b then 4 else 1; mf_beta := fun _ _ => 1 |}.
Theorem C93_self_connection_refuted :
  exists s f, mf_valid s f /\ sb_fixed s = false /\ sb_allow s = true /\ (0 < sb_K s)%nat /\
  sbm_expected_p s f 0%nat 0%nat = 1/2 /\
  posterior_mean s f (fun a b => mf_tau1 f a b / (mf_tau1 f a b + mf_tau0 f a b)) 0%nat 0%nat = 9/10 /\
  sbm_expected_v s f 0%nat 0%nat = 5/2 /\
  posterior_mean s f (fun a b => mf_alpha f a b / mf_beta f a b) 0%nat 0%nat = 4.
Proof.
  exists ex93, ex93_f. split.
  { split; [intros k _; split; [intros; cbn; lra|cbn; lra]|]. split; [intros; cbn; lra|].
    intros a b _ _. cbn. destruct (Nat.eqb a b); lra. }
  split; [reflexivity|]. split; [reflexivity|]. split; [cbn; lia|].
  unfold sbm_expected_p, sbm_expected_v, posterior_mean, label_mean, block_mean. cbn. repeat split; field.
Qed.
Print Assumptions C93_self_connection_refuted.
Example C93_nonvacuous : sb_fixed (ex_sbm true) = false /\ mf_valid (ex_sbm true) (mf_init (ex_sbm true) (fun _ _ => 1/2)) /\ (1 < sb_K (ex_sbm true))%nat.
Proof. split; [reflexivity|]. split; [apply C34_nonvacuous|cbn; lia]. Qed.
