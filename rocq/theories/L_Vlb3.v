(** * L_Vlb3: the parameter blocks of the bound. *)
From Coq Require Import FunctionalExtensionality.
From Verif Require Import Prelude ExtReal Arrays Spec_Vlb M_Basis M_Parents M_Discrete M_Gibbs M_Dist M_Network M_MeanField M_Vlb
  L_Basis L_Discrete L_Parents L_Gibbs L_Network L_Vlb L_Vlb2 Props_Discrete Props_Parents Props_Gibbs Props_Network Props_MeanField.
Set Implicit Arguments.
Open Scope R_scope.

Section B.
Variables lgam psi : R -> R.
Hypothesis GF : gamma_functions lgam psi.

(* ---------------- background rates ---------------- *)
Lemma bias_block K alpha beta b (n0 : nat -> R) TT : (forall k, (k < K)%nat -> 0 < mb_beta b k) ->
  Rsum K (fun k => n0 k * expected_log_lambda0 psi b k - TT * expected_lambda0 b k) + bias_vlb lgam psi K alpha beta b
  = Rsum K (fun k => gJ lgam psi (alpha + n0 k) (beta + TT) (mb_alpha b k) (mb_beta b k)) + INR K * (alpha * ln beta - lgam alpha).
Proof.
  intros H. unfold bias_vlb. rewrite <- Rsum_const, <- Rsum_minus, <- !Rsum_plus. apply Rsum_ext; intros k Hk.
  unfold gJ, gamma_negentropy_with, expected_log_lambda0, expected_lambda0. specialize (H k Hk). field. lra.
Qed.

(* ---------------- impulse responses ---------------- *)
Lemma dir_neg_rows rows n G :
  dirichlet_negentropy lgam psi rows n G
  = Rsum rows (fun r => lgam (Rsum n (G r)) - Rsum n (fun b => lgam (G r b)) + Rsum n (fun b => (G r b - 1) * (psi (G r b) - psi (Rsum n (G r))))).
Proof.
  unfold dirichlet_negentropy, dirichlet_negentropy_with, dirichlet_mean_log.
  rewrite Rsum_plus, Rsum_minus. unfold Rminus at 3. f_equal. apply Rsum_ext; intros r Hr. apply Rsum_ext; intros b Hb.
  destruct (Nat.eqb_spec rows 1) as [->|]; [|reflexivity]. now replace r with 0%nat by lia.
Qed.
Lemma ir_block K B gamma mg (n : ten) :
  Rsum K (fun k1 => Rsum K (fun k2 => Rsum B (fun b => n k1 k2 b * expected_log_g psi B mg k1 k2 b))) + ir_vlb lgam psi K B gamma mg
  = Rsum K (fun k1 => Rsum K (fun k2 => dJ lgam psi B (fun b => gamma b + n k1 k2 b) (mg k1 k2))) + (lgam (Rsum B gamma) - Rsum B (fun b => lgam (gamma b))).
Proof.
  unfold ir_vlb. rewrite dir_neg_rows. unfold dirichlet_negentropy_with. cbn [Nat.eqb]. rewrite !Rsum_mul.
  change (Rsum 1 (fun _ => lgam (Rsum B gamma))) with (0 + lgam (Rsum B gamma)).
  change (Rsum 1 (fun _ => Rsum B (fun b => lgam (gamma b)))) with (0 + Rsum B (fun b => lgam (gamma b))).
  assert (E : Rsum K (fun k1 => Rsum K (fun k2 => Rsum B (fun b => n k1 k2 b * expected_log_g psi B mg k1 k2 b)))
     + Rsum K (fun k => Rsum K (fun b => Rsum B (fun b0 => (gamma b0 - 1) * flat3 K (expected_log_g psi B mg) (k * K + b)%nat b0)))
     - Rsum K (fun k => Rsum K (fun b => lgam (Rsum B (flat3 K mg (k * K + b)%nat)) - Rsum B (fun b0 => lgam (flat3 K mg (k * K + b)%nat b0))
          + Rsum B (fun b0 => (flat3 K mg (k * K + b)%nat b0 - 1) * (psi (flat3 K mg (k * K + b)%nat b0) - psi (Rsum B (flat3 K mg (k * K + b)%nat))))))
     = Rsum K (fun k1 => Rsum K (fun k2 => dJ lgam psi B (fun b => gamma b + n k1 k2 b) (mg k1 k2)))).
  { rewrite <- Rsum2_plus, <- Rsum_minus. apply Rsum_ext; intros k1 H1. rewrite <- Rsum_minus. apply Rsum_ext; intros k2 H2.
    unfold flat3. rewrite div_idx, mod_idx by auto. unfold dJ. f_equal. rewrite <- Rsum_plus. apply Rsum_ext; intros b Hb.
    unfold expected_log_g. change (Rsum B (fun b' : nat => mg k1 k2 b')) with (Rsum B (mg k1 k2)). ring. }
  rewrite <- E. ring.
Qed.

(* ---------------- weights ---------------- *)
(** One edge of the weight model's bound. *)
Definition edge_v (kappa0 nu0 : R) (lnp lnnotp kappa v lnv : R) (p k0 v0 k1 v1 : R) : R :=
  p * lnp + (1 - p) * lnnotp
  + p * gamma_negentropy_with lgam kappa (psi k1 - ln v1) (k1 / v1) v lnv
  + (1 - p) * gamma_negentropy_with lgam kappa0 (psi k0 - ln v0) (k0 / v0) nu0 (ln nu0)
  - (p * ln p + (1 - p) * ln (1 - p))
  - p * gamma_negentropy lgam psi k1 v1 - (1 - p) * gamma_negentropy lgam psi k0 v0.
Definition wv_R (K : nat) (kappa0 nu0 : R) (n : netexp) (w : mfw) : R :=
  Rsum K (fun i => Rsum K (fun j => edge_v kappa0 nu0 (fval (ne_lnp n i j)) (fval (ne_lnnotp n i j)) (ne_kappa n) (ne_v n i j) (ne_lnv n i j)
     (w_A w i j) (w_kappa0 w i j) (w_v0 w i j) (w_kappa1 w i j) (w_v1 w i j))).
Definition net_finite (K : nat) (n : netexp) : Prop :=
  forall i j, (i < K)%nat -> (j < K)%nat -> ne_lnp n i j = Fin (fval (ne_lnp n i j)) /\ ne_lnnotp n i j = Fin (fval (ne_lnnotp n i j)).
Lemma e2sum_fin K f g : (forall i j, (i < K)%nat -> (j < K)%nat -> f i j = Fin (g i j)) -> e2sum K f = Fin (Rsum K (fun i => Rsum K (g i))).
Proof. intros H. unfold e2sum. apply esum_fin. intros i Hi. apply esum_fin. auto. Qed.
Lemma EW1 w i j : expected_W_given_A w 1 i j = w_kappa1 w i j / w_v1 w i j.
Proof. unfold expected_W_given_A. ring. Qed.
Lemma EW0 w i j : expected_W_given_A w 0 i j = w_kappa0 w i j / w_v0 w i j.
Proof. unfold expected_W_given_A. ring. Qed.
Lemma ElnW1 w i j : expected_log_W_given_A psi w 1 i j = psi (w_kappa1 w i j) - ln (w_v1 w i j).
Proof. unfold expected_log_W_given_A. ring. Qed.
Lemma ElnW0 w i j : expected_log_W_given_A psi w 0 i j = psi (w_kappa0 w i j) - ln (w_v0 w i j).
Proof. unfold expected_log_W_given_A. ring. Qed.
Lemma weights_vlb_fin K kappa0 nu0 n w : w_ok K w -> net_finite K n ->
  weights_vlb lgam psi K kappa0 nu0 n w = Ok (Fin (wv_R K kappa0 nu0 n w)).
Proof.
  intros Hw Hn. unfold weights_vlb.
  assert (Hp : forall i j, (i < K)%nat -> (j < K)%nat -> w_p w i j = Fin (w_A w i j) /\ 0 < w_A w i j < 1).
  { intros i j Hi Hj. destruct (Hw i j Hi Hj) as (_ & _ & _ & _ & p & Ep & Hp). destruct p_lo_bounds as (? & ? & ?). unfold w_A. rewrite Ep. cbn. split; [reflexivity|lra]. }
  assert (G : forall_lt K (fun i => forall_lt K (fun j => p_in_01 (w_p w i j))) = true).
  { apply forall_lt_true. intros i Hi. apply forall_lt_true. intros j Hj. destruct (Hp i j Hi Hj) as [-> H]. cbn.
    apply andb_true_intro. split; apply Rleb_true; lra. }
  rewrite G. cbn [guard bindr].
  rewrite (@e2sum_fin K _ (fun i j => w_A w i j * fval (ne_lnp n i j) + (1 - w_A w i j) * fval (ne_lnnotp n i j))).
  2:{ intros i j Hi Hj. destruct (Hp i j Hi Hj) as [-> _]. destruct (Hn i j Hi Hj) as [-> ->]. reflexivity. }
  rewrite (@e2sum_fin K _ (fun i j => w_A w i j * gamma_negentropy_with lgam (ne_kappa n) (psi (w_kappa1 w i j) - ln (w_v1 w i j)) (w_kappa1 w i j / w_v1 w i j) (ne_v n i j) (ne_lnv n i j))).
  2:{ intros i j Hi Hj. destruct (Hp i j Hi Hj) as [-> _]. now rewrite EW1, ElnW1. }
  rewrite (@e2sum_fin K _ (fun i j => (1 - w_A w i j) * gamma_negentropy_with lgam kappa0 (psi (w_kappa0 w i j) - ln (w_v0 w i j)) (w_kappa0 w i j / w_v0 w i j) nu0 (ln nu0))).
  2:{ intros i j Hi Hj. destruct (Hp i j Hi Hj) as [-> _]. now rewrite EW0, ElnW0. }
  rewrite (@e2sum_fin K _ (fun i j => w_A w i j * ln (w_A w i j) + (1 - w_A w i j) * ln (1 - w_A w i j))).
  2:{ intros i j Hi Hj. destruct (Hp i j Hi Hj) as [-> H]. cbn [fval]. unfold bernoulli_negentropy, bernoulli_negentropy_with. rewrite !elog_fin by lra. reflexivity. }
  rewrite (@e2sum_fin K _ (fun i j => w_A w i j * gamma_negentropy lgam psi (w_kappa1 w i j) (w_v1 w i j))).
  2:{ intros i j Hi Hj. now destruct (Hp i j Hi Hj) as [-> _]. }
  rewrite (@e2sum_fin K _ (fun i j => (1 - w_A w i j) * gamma_negentropy lgam psi (w_kappa0 w i j) (w_v0 w i j))).
  2:{ intros i j Hi Hj. now destruct (Hp i j Hi Hj) as [-> _]. }
  cbn [eadd esub eopp]. do 2 f_equal. unfold wv_R, edge_v. rewrite Rplus_0_l. symmetry.
  rewrite (@Rsum2_ext K _ (fun i j => ((w_A w i j * fval (ne_lnp n i j) + (1 - w_A w i j) * fval (ne_lnnotp n i j)) + w_A w i j * gamma_negentropy_with lgam (ne_kappa n) (psi (w_kappa1 w i j) - ln (w_v1 w i j)) (w_kappa1 w i j / w_v1 w i j) (ne_v n i j) (ne_lnv n i j)
      + (1 - w_A w i j) * gamma_negentropy_with lgam kappa0 (psi (w_kappa0 w i j) - ln (w_v0 w i j)) (w_kappa0 w i j / w_v0 w i j) nu0 (ln nu0))
      + - (w_A w i j * ln (w_A w i j) + (1 - w_A w i j) * ln (1 - w_A w i j)) + - (w_A w i j * gamma_negentropy lgam psi (w_kappa1 w i j) (w_v1 w i j)) + - ((1 - w_A w i j) * gamma_negentropy lgam psi (w_kappa0 w i j) (w_v0 w i j))))
    by (intros; ring).
  assert (O : forall f, Rsum K (fun i => Rsum K (fun j => - f i j)) = - Rsum K (fun i => Rsum K (fun j => f i j))).
  { intros f. rewrite <- Rsum_opp. apply Rsum_ext. intros. apply Rsum_opp. }
  rewrite !Rsum2_plus, !O, !Rsum2_plus. ring.
Qed.

(** Together with what the parents say about it, an edge is a Bernoulli choice between two gamma blocks. *)
Lemma edge_block kappa0 nu0 lnp lnnotp kappa v lnv p k0 v0 k1 v1 n N : 0 < v0 -> 0 < v1 ->
  n * (p * (psi k1 - ln v1) + (1 - p) * (psi k0 - ln v0)) - N * (p * (k1 / v1) + (1 - p) * (k0 / v0))
  + edge_v kappa0 nu0 lnp lnnotp kappa v lnv p k0 v0 k1 v1
  = bJ (lnp + kappa * lnv - lgam kappa + gJ lgam psi (kappa + n) (v + N) k1 v1)
       (lnnotp + kappa0 * ln nu0 - lgam kappa0 + gJ lgam psi (kappa0 + n) (nu0 + N) k0 v0) p.
Proof. intros H0 H1. unfold edge_v, bJ, gJ, gamma_negentropy_with. ring. Qed.

Lemma bJ_mono a b a' b' p : 0 <= p <= 1 -> a <= a' -> b <= b' -> bJ a b p <= bJ a' b' p.
Proof. intros. unfold bJ. assert (p * a <= p * a') by (apply Rmult_le_compat_l; lra). assert ((1 - p) * b <= (1 - p) * b') by (apply Rmult_le_compat_l; lra). lra. Qed.
End B.
