(** * L_Vlb: lemmas for the variational bound: optimality of each conjugate block. *)
From Verif Require Import Prelude ExtReal Arrays Spec_Vlb M_Dist.
Set Implicit Arguments.
Open Scope R_scope.

(** A pair that meets the contract: the leading terms of Stirling's formula. *)
Definition st_lgam (x : R) : R := x * ln x - x.
Definition st_psi (x : R) : R := ln x.
Lemma gap_st x a : 0 < x -> 0 < a -> gap st_lgam st_psi x a = x * ln (x / a) - x + a.
Proof. intros Hx Ha. unfold gap, st_lgam, st_psi. rewrite ln_div by auto. ring. Qed.
Lemma log_sum x1 x2 a1 a2 : 0 < x1 -> 0 < x2 -> 0 < a1 -> 0 < a2 ->
  (x1 + x2) * ln ((x1 + x2) / (a1 + a2)) <= x1 * ln (x1 / a1) + x2 * ln (x2 / a2).
Proof.
  intros H1 H2 H3 H4.
  assert (G : forall x a, 0 < x -> 0 < a -> x * ln ((x1 + x2) / (a1 + a2)) - x * ln (x / a) <= a * ((x1 + x2) / (a1 + a2)) - x).
  { intros x a Hx Ha.
    assert (Hr : 0 < (x1 + x2) / (a1 + a2)) by (apply Rdiv_lt_0_compat; lra).
    assert (Hq : 0 < (x1 + x2) / (a1 + a2) / (x / a)) by (apply Rdiv_lt_0_compat; [exact Hr|apply Rdiv_lt_0_compat; auto]).
    pose proof (ln_le_sub1 Hq) as Hl. rewrite ln_div in Hl; [|exact Hr|apply Rdiv_lt_0_compat; auto].
    assert (Hm := Rmult_le_compat_l x _ _ (Rlt_le _ _ Hx) Hl).
    replace (x * ((x1 + x2) / (a1 + a2) / (x / a) - 1)) with (a * ((x1 + x2) / (a1 + a2)) - x) in Hm by (field; lra). lra. }
  pose proof (G x1 a1 H1 H3). pose proof (G x2 a2 H2 H4).
  assert (a1 * ((x1 + x2) / (a1 + a2)) + a2 * ((x1 + x2) / (a1 + a2)) = x1 + x2) by (field; lra). lra.
Qed.
Lemma st_functions : gamma_functions st_lgam st_psi.
Proof.
  constructor.
  - intros x a Hx Ha. rewrite gap_st by auto. lra.
  - intros x1 x2 a1 a2 H1 H2 H3 H4. rewrite !gap_st by lra. pose proof (log_sum H1 H2 H3 H4). lra.
Qed.

Section Blocks.
Variables lgam psi : R -> R.
Hypothesis GF : gamma_functions lgam psi.

(* ---------------- gamma ---------------- *)
(** What the bound says about one gamma-distributed quantity: expected log density of a (possibly unnormalised)
    gamma with shape ah and rate bh, minus the expected log density of the variational gamma (a, b). *)
Definition gJ (ah bh a b : R) : R := (ah - 1) * (psi a - ln b) - bh * (a / b) - gamma_negentropy lgam psi a b.
Lemma gJ_eq ah bh a b : 0 < b -> gJ ah bh a b = (ah - a) * psi a + lgam a + a - ah * ln b - bh * (a / b).
Proof. intros Hb. unfold gJ, gamma_negentropy, gamma_negentropy_with, gamma_mean_log, gamma_mean. field. lra. Qed.
Lemma gJ_at ah bh : 0 < bh -> gJ ah bh ah bh = lgam ah - ah * ln bh.
Proof. intros H. rewrite gJ_eq by auto. field. lra. Qed.
Lemma gJ_max ah bh a b : 0 < ah -> 0 < bh -> 0 < a -> 0 < b -> gJ ah bh a b <= gJ ah bh ah bh.
Proof.
  intros H1 H2 H3 H4. rewrite gJ_at, gJ_eq by auto.
  pose proof (gf_gamma GF H1 H3) as HG. unfold gap in HG.
  assert (Hr : 0 < a * bh / (ah * b)) by (apply Rdiv_lt_0_compat; apply Rmult_lt_0_compat; auto).
  pose proof (ln_le_sub1 Hr) as Hl.
  rewrite ln_div, !ln_mult in Hl by (try apply Rmult_lt_0_compat; auto). rewrite ln_div in HG by auto.
  assert (Hm := Rmult_le_compat_l ah _ _ (Rlt_le _ _ H1) Hl).
  replace (ah * (a * bh / (ah * b) - 1)) with (bh * (a / b) - ah) in Hm by (field; lra).
  lra.
Qed.
(** Away from the maximiser the rate alone already costs. *)
Lemma gJ_rate_strict ah bh b : 0 < ah -> 0 < bh -> 0 < b -> b <> bh -> gJ ah bh ah b < gJ ah bh ah bh.
Proof.
  intros H1 H2 H4 Hne. rewrite gJ_at, gJ_eq by auto.
  assert (Hr : 0 < bh / b) by (apply Rdiv_lt_0_compat; auto).
  assert (Hl : ln (bh / b) < bh / b - 1).
  { assert (Hn : ln (bh / b) <> 0).
    { rewrite ln_div by auto. intros E. apply Hne. apply ln_inv; auto. lra. }
    pose proof (exp_ineq1 _ Hn) as HE. rewrite exp_ln in HE by auto. lra. }
  rewrite ln_div in Hl by auto.
  assert (Hm := Rmult_lt_compat_l ah _ _ H1 Hl).
  replace (ah * (bh / b - 1)) with (bh * (ah / b) - ah) in Hm by (field; lra). lra.
Qed.

(* ---------------- Dirichlet ---------------- *)
Definition dJ (n : nat) (gh g : nat -> R) : R :=
  Rsum n (fun b => (gh b - 1) * (psi (g b) - psi (Rsum n g)))
  - (lgam (Rsum n g) - Rsum n (fun b => lgam (g b)) + Rsum n (fun b => (g b - 1) * (psi (g b) - psi (Rsum n g)))).
Lemma gap_sum n (gh g : nat -> R) : (0 < n)%nat -> (forall b, (b < n)%nat -> 0 < gh b /\ 0 < g b) ->
  gap lgam psi (Rsum n gh) (Rsum n g) <= Rsum n (fun b => gap lgam psi (gh b) (g b)).
Proof.
  induction n as [|n IH]; intros Hn H; [lia|]. cbn [Rsum]. destruct n as [|n].
  - cbn [Rsum]. right. now rewrite !Rplus_0_l.
  - assert (IH' := IH ltac:(lia) ltac:(intros; apply H; lia)).
    destruct (H (S n) ltac:(lia)) as [G1 G2].
    assert (0 < Rsum (S n) gh) by (apply Rsum_pos; [lia|intros; apply H; lia]).
    assert (0 < Rsum (S n) g) by (apply Rsum_pos; [lia|intros; apply H; lia]).
    pose proof (@gf_beta _ _ GF (Rsum (S n) gh) (gh (S n)) (Rsum (S n) g) (g (S n))) as HB.
    eapply Rle_trans; [apply HB; auto|]. apply Rplus_le_compat_r. exact IH'.
Qed.
Lemma dJ_max n gh g : (0 < n)%nat -> (forall b, (b < n)%nat -> 0 < gh b /\ 0 < g b) -> dJ n gh g <= dJ n gh gh.
Proof.
  intros Hn H. pose proof (gap_sum gh g Hn H) as HG.
  assert (E : Rsum n (fun b => gap lgam psi (gh b) (g b))
     = Rsum n (fun b => lgam (gh b)) - Rsum n (fun b => lgam (g b)) - Rsum n (fun b => (gh b - 1) * psi (g b)) + Rsum n (fun b => (g b - 1) * psi (g b))).
  { rewrite <- !Rsum_minus, <- Rsum_plus. apply Rsum_ext. intros. unfold gap. ring. }
  rewrite E in HG. unfold gap in HG. unfold dJ.
  assert (L : forall (x y : nat -> R) c, Rsum n (fun b => (x b - 1) * (y b - c)) = Rsum n (fun b => (x b - 1) * y b) - c * (Rsum n x - INR n)).
  { intros x y c. replace (INR n) with (Rsum n (fun _ => 1)) by (rewrite Rsum_const; ring). rewrite <- (Rsum_minus n x (fun _ => 1)), <- Rsum_scal, <- Rsum_minus.
    apply Rsum_ext. intros. ring. }
  rewrite (L gh (fun b => psi (g b))), (L g (fun b => psi (g b))), (L gh (fun b => psi (gh b))).
  set (A := Rsum n (fun b => (gh b - 1) * psi (g b))) in *. set (B := Rsum n (fun b => (g b - 1) * psi (g b))) in *.
  set (C := Rsum n (fun b => (gh b - 1) * psi (gh b))) in *. lra.
Qed.

(* ---------------- Bernoulli ---------------- *)
Definition bJ (a b p : R) : R := p * a + (1 - p) * b - (p * ln p + (1 - p) * ln (1 - p)).
(** tangent inequality of the entropy *)
Lemma bJ_tangent a b p q : 0 < p < 1 -> 0 < q < 1 ->
  bJ a b p <= bJ a b q + (p - q) * ((a - b) - (ln q - ln (1 - q))).
Proof.
  intros Hp Hq. unfold bJ.
  assert (G : forall x y, 0 < x -> 0 < y -> x * ln y - x * ln x <= y - x).
  { intros x y Hx Hy. assert (Hr : 0 < y / x) by (apply Rdiv_lt_0_compat; auto). pose proof (ln_le_sub1 Hr) as Hl.
    rewrite ln_div in Hl by auto. assert (Hm := Rmult_le_compat_l x _ _ (Rlt_le _ _ Hx) Hl).
    replace (x * (y / x - 1)) with (y - x) in Hm by (field; lra). lra. }
  pose proof (G p q ltac:(lra) ltac:(lra)). pose proof (G (1 - p) (1 - q) ltac:(lra) ltac:(lra)). lra.
Qed.
(** The clipped logistic function of a - b maximises over [lo, hi]. *)
Lemma bJ_max a b lo hi p : 0 < lo -> lo <= hi -> hi < 1 -> lo <= p <= hi ->
  bJ a b p <= bJ a b (Rmin (Rmax (1 / (1 + exp (- (a - b)))) lo) hi).
Proof.
  intros H1 H2 H3 Hp. set (s := 1 / (1 + exp (- (a - b)))). set (q := Rmin (Rmax s lo) hi).
  assert (Hs : 0 < s < 1).
  { unfold s. pose proof (exp_pos (- (a - b))). split; [apply Rdiv_lt_0_compat; lra|].
    apply Rmult_lt_reg_r with (1 + exp (- (a - b))); [lra|]. unfold Rdiv. rewrite Rmult_assoc, Rinv_l by lra. lra. }
  assert (Hlog : ln s - ln (1 - s) = a - b).
  { rewrite <- ln_div by lra. unfold s. pose proof (exp_pos (- (a - b))) as He.
    replace (1 / (1 + exp (- (a - b))) / (1 - 1 / (1 + exp (- (a - b))))) with (/ exp (- (a - b))) by (field; split; lra).
    rewrite <- exp_Ropp, Ropp_involutive. apply ln_exp. }
  assert (Hq : lo <= q <= hi). { unfold q, Rmin, Rmax. destruct (Rle_dec s lo); destruct (Rle_dec _ hi); lra. }
  assert (Hmono : forall x y, 0 < x < 1 -> 0 < y < 1 -> x <= y -> ln x - ln (1 - x) <= ln y - ln (1 - y)).
  { intros x y Hx Hy Hxy. assert (ln x <= ln y) by (apply ln_le_mono; lra). assert (ln (1 - y) <= ln (1 - x)) by (apply ln_le_mono; lra). lra. }
  pose proof (@bJ_tangent a b p q ltac:(lra) ltac:(lra)) as HT.
  assert (HD : (p - q) * (a - b - (ln q - ln (1 - q))) <= 0).
  { destruct (Rle_dec s lo) as [C1|C1]; [|destruct (Rle_dec s hi) as [C2|C2]].
    - assert (E : q = lo). { unfold q, Rmin, Rmax. destruct (Rle_dec s lo); destruct (Rle_dec _ hi); lra. }
      rewrite E. pose proof (Hmono s lo Hs ltac:(lra) C1). assert (0 <= p - lo) by lra. nra.
    - assert (E : q = s). { unfold q, Rmin, Rmax. destruct (Rle_dec s lo); destruct (Rle_dec _ hi); lra. }
      rewrite E, Hlog. lra.
    - assert (E : q = hi). { unfold q, Rmin, Rmax. destruct (Rle_dec s lo); destruct (Rle_dec _ hi); lra. }
      rewrite E. pose proof (Hmono hi s ltac:(lra) Hs ltac:(lra)). assert (p - hi <= 0) by lra. nra. }
  lra.
Qed.
End Blocks.
