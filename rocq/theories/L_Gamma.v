(** * L_Gamma: log-gamma and digamma exist and meet the contract the variational theorems use. *)
From Coquelicot Require Import Coquelicot.
From Verif Require Import Prelude Spec_Gamma Spec_Vlb.
Set Implicit Arguments.
Open Scope R_scope.

Lemma ln_ge_inv x : 0 < x -> 1 - / x <= ln x.
Proof. intros H. pose proof (ln_le_sub1 (Rinv_0_lt_compat _ H)) as G. rewrite ln_Rinv in G by auto. lra. Qed.
Lemma INR_pos n : 0 <= INR n.
Proof. apply pos_INR. Qed.

(** ** A convergence test *)
Lemma conv_test (u : nat -> R) C :
  (forall N, Rabs (u (S N) - u N) <= C / ((INR N + 1) * (INR N + 2))) -> ex_finite_lim_seq u.
Proof.
  intros H.
  assert (E : forall N, C / ((INR N + 1) * (INR N + 2)) = C / (INR N + 1) - C / (INR (S N) + 1)).
  { intros N. rewrite S_INR. pose proof (INR_pos N). field. lra. }
  assert (HC : 0 <= C).
  { pose proof (H 0%nat) as H0. pose proof (Rabs_pos (u 1%nat - u 0%nat)). cbn in H0. 
    replace (C / ((0 + 1) * (0 + 2))) with (C / 2) in H0 by field. lra. }
  assert (Hv : ex_finite_lim_seq (fun N => u N - C / (INR N + 1))).
  { apply ex_finite_lim_seq_incr with (M := u 0%nat + C).
    - intros N. pose proof (H N) as HN. rewrite E in HN. apply Rabs_le_between in HN. lra.
    - intros N. assert (G : u N + C / (INR N + 1) <= u 0%nat + C).
      { induction N as [|N IH]; [cbn; right; field|]. pose proof (H N) as HN. rewrite E in HN. apply Rabs_le_between in HN. lra. }
      assert (0 <= C / (INR N + 1)) by (apply Rdiv_le_0_compat; [auto|pose proof (INR_pos N); lra]). lra. }
  assert (Hw : ex_finite_lim_seq (fun N => C / (INR N + 1))).
  { exists 0. evar_last.
    - apply is_lim_seq_div with (l1 := C) (l2 := p_infty).
      + apply is_lim_seq_const.
      + eapply is_lim_seq_plus; [apply is_lim_seq_INR|apply is_lim_seq_const|]. exact eq_refl.
      + discriminate.
      + unfold is_Rbar_div, is_Rbar_mult; cbn. rewrite Rmult_0_r. reflexivity.
    - reflexivity. }
  destruct Hv as [l1 H1], Hw as [l2 H2]. exists (l1 + l2).
  apply is_lim_seq_ext with (fun N => (u N - C / (INR N + 1)) + C / (INR N + 1)); [intros; ring|].
  now apply is_lim_seq_plus'.
Qed.
Lemma lim_inv_0 C a : is_lim_seq (fun N => C / (a + INR N)) 0.
Proof.
  evar_last.
  - apply is_lim_seq_div with (l1 := C) (l2 := p_infty).
    + apply is_lim_seq_const.
    + eapply is_lim_seq_plus; [apply is_lim_seq_const|apply is_lim_seq_INR|]. exact eq_refl.
    + discriminate.
    + unfold is_Rbar_div, is_Rbar_mult; cbn. rewrite Rmult_0_r. reflexivity.
  - reflexivity.
Qed.

(** ** Both limits exist *)
Lemma frac_bound x N : 0 < x -> / (x + INR (S N)) <= (1 + / x) / (INR N + 2).
Proof.
  intros H. pose proof (INR_pos N). rewrite S_INR.
  apply Rmult_le_reg_r with (x + (INR N + 1)); [lra|]. rewrite Rinv_l by lra.
  apply Rmult_le_reg_r with (INR N + 2); [lra|].
  replace ((1 + / x) / (INR N + 2) * (x + (INR N + 1)) * (INR N + 2)) with (x + INR N + 2 + (INR N + 1) / x) by (field; lra).
  assert (0 <= (INR N + 1) / x) by (apply Rdiv_le_0_compat; lra). lra.
Qed.
Lemma psi_conv x : 0 < x -> ex_finite_lim_seq (fun N => gauss_psi N x).
Proof.
  intros Hx. apply conv_test with (C := (x + 1) * (1 + / x)). intros N.
  unfold gauss_psi. cbn [Rsum]. pose proof (INR_pos N) as HN.
  assert (P1 : 0 < INR (S N)) by (rewrite S_INR; lra). assert (P2 : 0 < INR (S (S N))) by (rewrite !S_INR; lra).
  assert (Hd : 0 < INR (S (S N)) / INR (S N)) by (apply Rdiv_lt_0_compat; auto).
  pose proof (ln_le_sub1 Hd) as U. pose proof (ln_ge_inv Hd) as L. rewrite ln_div in U, L by auto.
  replace (INR (S (S N)) / INR (S N) - 1) with (/ (INR N + 1)) in U by (rewrite !S_INR; field; lra).
  replace (1 - / (INR (S (S N)) / INR (S N))) with (/ (INR N + 2)) in L by (rewrite !S_INR; field; lra).
  pose proof (@frac_bound x N Hx) as F.
  assert (B : (x + 1) * (1 + / x) / ((INR N + 1) * (INR N + 2)) >= (x + 1) / (INR N + 1) * / (x + INR (S N))).
  { replace ((x + 1) * (1 + / x) / ((INR N + 1) * (INR N + 2))) with ((x + 1) / (INR N + 1) * ((1 + / x) / (INR N + 2))) by (field; lra).
    apply Rle_ge, Rmult_le_compat_l; [apply Rdiv_le_0_compat; lra|exact F]. }
  apply Rabs_le. split.
  - apply Rle_trans with (/ (INR N + 2) - / (x + INR (S N))); [|lra].
    apply Rle_trans with (- ((x + 1) / (INR N + 1) * / (x + INR (S N)))); [lra|].
    apply Rmult_le_reg_r with (x + INR (S N)); [lra|].
    replace (- ((x + 1) / (INR N + 1) * / (x + INR (S N))) * (x + INR (S N))) with (- ((x + 1) / (INR N + 1))) by (field; lra).
    replace ((/ (INR N + 2) - / (x + INR (S N))) * (x + INR (S N))) with ((x - 1) / (INR N + 2)) by (rewrite S_INR; field; rewrite S_INR in *; lra).
    apply Rmult_le_reg_r with ((INR N + 1) * (INR N + 2)); [apply Rmult_lt_0_compat; lra|].
    replace (- ((x + 1) / (INR N + 1)) * ((INR N + 1) * (INR N + 2))) with (- ((x + 1) * (INR N + 2))) by (field; lra).
    replace ((x - 1) / (INR N + 2) * ((INR N + 1) * (INR N + 2))) with ((x - 1) * (INR N + 1)) by (field; lra). nra.
  - apply Rle_trans with (/ (INR N + 1) - / (x + INR (S N))); [lra|].
    apply Rle_trans with ((x + 1) / (INR N + 1) * / (x + INR (S N))); [|lra].
    apply Rmult_le_reg_r with ((INR N + 1) * (x + INR (S N))); [apply Rmult_lt_0_compat; lra|].
    replace ((x + 1) / (INR N + 1) * / (x + INR (S N)) * ((INR N + 1) * (x + INR (S N)))) with (x + 1) by (field; lra).
    replace ((/ (INR N + 1) - / (x + INR (S N))) * ((INR N + 1) * (x + INR (S N)))) with (x + INR (S N) - (INR N + 1)) by (field; lra).
    rewrite S_INR. lra.
Qed.
Lemma psi_lim x : 0 < x -> is_lim_seq (fun N => gauss_psi N x) (digamma x).
Proof. intros Hx. apply Lim_seq_correct'. now apply psi_conv. Qed.

(** One term of the gap. *)
Definition gterm (x a : R) (n : nat) : R := (x - a) / (a + INR n) - ln (x + INR n) + ln (a + INR n).
Lemma gterm_bounds x a n : 0 < x -> 0 < a -> 0 <= gterm x a n <= (x - a) ^ 2 / ((a + INR n) * (x + INR n)).
Proof.
  intros Hx Ha. unfold gterm. pose proof (INR_pos n) as Hn.
  assert (Hd : 0 < (x + INR n) / (a + INR n)) by (apply Rdiv_lt_0_compat; lra).
  pose proof (ln_le_sub1 Hd) as U. pose proof (ln_ge_inv Hd) as L. rewrite ln_div in U, L by lra.
  replace ((x + INR n) / (a + INR n) - 1) with ((x - a) / (a + INR n)) in U by (field; lra).
  split; [lra|].
  replace (1 - / ((x + INR n) / (a + INR n))) with ((x - a) / (x + INR n)) in L by (field; lra).
  replace ((x - a) ^ 2 / ((a + INR n) * (x + INR n))) with ((x - a) / (a + INR n) - (x - a) / (x + INR n)) by (field; lra). lra.
Qed.
Lemma gauss_gap N x a : gauss_lgam N x - gauss_lgam N a - gauss_psi N a * (x - a) = Rsum (S N) (gterm x a).
Proof.
  unfold gauss_lgam, gauss_psi, gterm. rewrite Rsum_plus, Rsum_minus.
  rewrite (@Rsum_ext (S N) (fun i => (x - a) / (a + INR i)) (fun i => (x - a) * / (a + INR i))) by (intros; reflexivity).
  rewrite Rsum_scal. ring.
Qed.
Lemma gterm_conv x a : 0 < x -> 0 < a -> ex_finite_lim_seq (fun N => Rsum (S N) (gterm x a)).
Proof.
  intros Hx Ha. apply conv_test with (C := (x - a) ^ 2 * (1 + / a)). intros N.
  replace (Rsum (S (S N)) (gterm x a) - Rsum (S N) (gterm x a)) with (gterm x a (S N)) by (cbn [Rsum]; ring).
  destruct (@gterm_bounds x a (S N) Hx Ha) as [L U]. rewrite Rabs_pos_eq by auto.
  eapply Rle_trans; [exact U|]. pose proof (@frac_bound a N Ha) as F. pose proof (INR_pos N).
  assert (0 < INR (S N)) by (rewrite S_INR; lra).
  assert (P := pow2_ge_0 (x - a)).
  replace ((x - a) ^ 2 / ((a + INR (S N)) * (x + INR (S N)))) with ((x - a) ^ 2 * (/ (a + INR (S N)) * / (x + INR (S N)))) by (field; lra).
  replace ((x - a) ^ 2 * (1 + / a) / ((INR N + 1) * (INR N + 2))) with ((x - a) ^ 2 * ((1 + / a) / (INR N + 2) * / (INR N + 1))) by (field; lra).
  apply Rmult_le_compat_l; [lra|]. apply Rmult_le_compat; [left; apply Rinv_0_lt_compat; lra|left; apply Rinv_0_lt_compat; lra|exact F|].
  apply Rinv_le_contravar; [lra|]. rewrite S_INR. lra.
Qed.
Lemma lgam_1 N : gauss_lgam N 1 = 0.
Proof.
  unfold gauss_lgam.
  assert (E : forall n, Rsum n (fun i => ln (1 + INR i)) = ln (INR (fact n))).
  { induction n as [|n IH]; [cbn; now rewrite ln_1|]. cbn [Rsum]. rewrite IH.
    change (fact (S n)) with (S n * fact n)%nat. rewrite mult_INR, ln_mult, S_INR; [|rewrite S_INR; pose proof (INR_pos n); lra|apply INR_fact_lt_0].
    rewrite (Rplus_comm 1 (INR n)). ring. }
  rewrite E. change (fact (S N)) with (S N * fact N)%nat. rewrite mult_INR, ln_mult; [ring|rewrite S_INR; pose proof (INR_pos N); lra|apply INR_fact_lt_0].
Qed.
Lemma lgam_conv x : 0 < x -> ex_finite_lim_seq (fun N => gauss_lgam N x).
Proof.
  intros Hx. destruct (@gterm_conv x 1 Hx Rlt_0_1) as [l1 H1]. destruct (@psi_conv 1 Rlt_0_1) as [l2 H2].
  exists (l1 + l2 * (x - 1)).
  apply is_lim_seq_ext with (fun N => Rsum (S N) (gterm x 1) + gauss_psi N 1 * (x - 1)).
  { intros N. rewrite <- gauss_gap, lgam_1. ring. }
  apply is_lim_seq_plus'; [exact H1|]. apply is_lim_seq_mult'; [exact H2|apply is_lim_seq_const].
Qed.
Lemma lgam_lim x : 0 < x -> is_lim_seq (fun N => gauss_lgam N x) (log_gamma x).
Proof. intros Hx. apply Lim_seq_correct'. now apply lgam_conv. Qed.
Lemma gap_lim x a : 0 < x -> 0 < a -> is_lim_seq (fun N => Rsum (S N) (gterm x a)) (gap log_gamma digamma x a).
Proof.
  intros Hx Ha. unfold gap.
  apply is_lim_seq_ext with (fun N => (gauss_lgam N x - gauss_lgam N a) - gauss_psi N a * (x - a)); [intros; apply gauss_gap|].
  apply is_lim_seq_minus'; [apply is_lim_seq_minus'; now apply lgam_lim|].
  apply is_lim_seq_mult'; [now apply psi_lim|apply is_lim_seq_const].
Qed.

(** ** The gamma half of the contract *)
Definition hterm (x a : R) (n : nat) : R := (x + INR n) * ln ((x + INR n) / (a + INR n)) - (x - a).
Lemma hterm_le x a n : 0 < x -> 0 < a -> hterm x a n <= (x - a) ^ 2 / (a + INR n).
Proof.
  intros Hx Ha. unfold hterm. pose proof (INR_pos n) as Hn.
  assert (Hd : 0 < (x + INR n) / (a + INR n)) by (apply Rdiv_lt_0_compat; lra).
  pose proof (ln_le_sub1 Hd) as U. assert (G := Rmult_le_compat_l (x + INR n) _ _ ltac:(lra) U).
  replace ((x - a) ^ 2 / (a + INR n)) with ((x + INR n) * ((x + INR n) / (a + INR n) - 1) - (x - a)) by (field; lra). lra.
Qed.
Lemma hterm_ge x a n : 0 < x -> 0 < a -> 0 <= hterm x a n.
Proof.
  intros Hx Ha. unfold hterm. pose proof (INR_pos n) as Hn.
  assert (Hd : 0 < (x + INR n) / (a + INR n)) by (apply Rdiv_lt_0_compat; lra).
  pose proof (ln_ge_inv Hd) as U. assert (G := Rmult_le_compat_l (x + INR n) _ _ ltac:(lra) U).
  replace ((x + INR n) * (1 - / ((x + INR n) / (a + INR n)))) with (x - a) in G by (field; lra). lra.
Qed.
Lemma hterm_step x a n : 0 < x -> 0 < a -> hterm x a n - hterm x a (S n) <= gterm x a n.
Proof.
  intros Hx Ha. unfold hterm, gterm. rewrite S_INR. pose proof (INR_pos n) as Hn.
  set (y := x + INR n). set (b := a + INR n). assert (Hy : 0 < y) by (unfold y; lra). assert (Hb : 0 < b) by (unfold b; lra).
  replace (x + (INR n + 1)) with (y + 1) by (unfold y; ring). replace (a + (INR n + 1)) with (b + 1) by (unfold b; ring).
  replace (x - a) with (y - b) by (unfold y, b; ring). clearbody y b.
  assert (Hd : 0 < y * (b + 1) / (b * (y + 1))) by (apply Rdiv_lt_0_compat; apply Rmult_lt_0_compat; lra).
  pose proof (ln_le_sub1 Hd) as U. rewrite ln_div, !ln_mult in U by (try apply Rmult_lt_0_compat; lra).
  rewrite !ln_div by lra.
  assert (G := Rmult_le_compat_l (y + 1) _ _ ltac:(lra) U).
  replace ((y + 1) * (y * (b + 1) / (b * (y + 1)) - 1)) with ((y - b) / b) in G by (field; lra). lra.
Qed.
Lemma gsum_h x a N : 0 < x -> 0 < a -> hterm x a 0 - hterm x a N <= Rsum N (gterm x a).
Proof. intros Hx Ha. induction N as [|N IH]; [cbn; lra|]. cbn [Rsum]. pose proof (@hterm_step x a N Hx Ha). lra. Qed.
Lemma hterm_lim x a : 0 < x -> 0 < a -> is_lim_seq (hterm x a) 0.
Proof.
  intros Hx Ha. apply is_lim_seq_le_le with (fun _ => 0) (fun n => (x - a) ^ 2 / (a + INR n)).
  - intros n. split; [now apply hterm_ge|now apply hterm_le].
  - apply is_lim_seq_const.
  - apply lim_inv_0.
Qed.
Lemma true_gamma x a : 0 < x -> 0 < a -> x * ln (x / a) - x + a <= gap log_gamma digamma x a.
Proof.
  intros Hx Ha.
  assert (H : Rbar_le (Finite (hterm x a 0 - 0)) (Finite (gap log_gamma digamma x a))).
  { apply is_lim_seq_le with (fun N => hterm x a 0 - hterm x a (S N)) (fun N => Rsum (S N) (gterm x a)).
    - intros N. now apply gsum_h.
    - apply is_lim_seq_minus'; [apply is_lim_seq_const|]. now apply (is_lim_seq_incr_1 (hterm x a)), hterm_lim.
    - now apply gap_lim. }
  cbn in H. unfold hterm in H. cbn [INR] in H. rewrite !Rplus_0_r in H. lra.
Qed.

(** ** The beta half: the second derivative of a finite approximation *)
(** [eN N] approximates log Gamma up to a linear function; [eN1], [eN2] are its first two derivatives. *)
Definition eN (N : nat) (x : R) : R := (x + INR N) * ln (x + INR N) - x - Rsum N (fun n => ln (x + INR n)).
Definition eN1 (N : nat) (x : R) : R := ln (x + INR N) - Rsum N (fun n => / (x + INR n)).
Definition eN2 (N : nat) (x : R) : R := / (x + INR N) + Rsum N (fun n => / (x + INR n) ^ 2).
Lemma Rsum_derive N (f df : R -> nat -> R) x : (forall n, (n < N)%nat -> is_derive (fun y => f y n) x (df x n)) ->
  is_derive (fun y => Rsum N (f y)) x (Rsum N (df x)).
Proof.
  induction N as [|N IH]; intros H.
  - cbn. apply (@is_derive_const R_AbsRing).
  - cbn [Rsum]. apply (@is_derive_plus R_AbsRing); [apply IH; intros; apply H; lia|apply H; lia].
Qed.
Lemma eN_d N x : 0 < x -> is_derive (eN N) x (eN1 N x).
Proof.
  intros Hx. unfold eN, eN1. pose proof (INR_pos N).
  apply (@is_derive_minus R_AbsRing _ (fun x => (x + INR N) * ln (x + INR N) - x) (fun x => Rsum N (fun n => ln (x + INR n)))).
  - auto_derive; [lra|]. field. lra.
  - apply (@Rsum_derive N (fun y n => ln (y + INR n)) (fun y n => / (y + INR n))). intros n _. pose proof (INR_pos n). auto_derive; [lra|]. field. lra.
Qed.
Lemma eN1_d N x : 0 < x -> is_derive (eN1 N) x (eN2 N x).
Proof.
  intros Hx. unfold eN1, eN2. pose proof (INR_pos N).
  replace (/ (x + INR N) + Rsum N (fun n => / (x + INR n) ^ 2)) with (/ (x + INR N) - Rsum N (fun n => - / (x + INR n) ^ 2)) by (rewrite Rsum_opp; ring).
  apply (@is_derive_minus R_AbsRing _ (fun x => ln (x + INR N)) (fun x => Rsum N (fun n => / (x + INR n)))).
  - auto_derive; [lra|]. field. lra.
  - apply (@Rsum_derive N (fun y n => / (y + INR n)) (fun y n => - / (y + INR n) ^ 2)). intros n _. pose proof (INR_pos n). auto_derive; [lra|]. field. lra.
Qed.
Definition cterm (y : R) : R := / (y ^ 2 * (y + 1)).
Lemma eN2_c N x : 0 < x -> eN2 N x = / x + Rsum N (fun n => cterm (x + INR n)).
Proof.
  intros Hx. unfold eN2. induction N as [|N IH]; [cbn; rewrite !Rplus_0_r; reflexivity|].
  cbn [Rsum]. apply (f_equal (fun t => t + cterm (x + INR N))) in IH. rewrite Rplus_assoc in IH. rewrite Rplus_assoc in IH.
  rewrite <- IH. rewrite S_INR. unfold cterm. pose proof (INR_pos N).
  generalize (Rsum N (fun n => / (x + INR n) ^ 2)). intros Q. field. lra.
Qed.
Definition dc (y : R) : R := (3 * y + 2) / (y ^ 3 * (y + 1) ^ 2).
Lemma cterm_d y : 0 < y -> is_derive cterm y (- dc y).
Proof. intros H. unfold cterm, dc. auto_derive; [assert (0 < y * y) by nra; nra|]. field. lra. Qed.
Definition U0 (y : R) : R := / (2 * y ^ 2) + / (6 * y ^ 3).
Lemma U0_step y : 0 < y -> cterm y <= U0 y - U0 (y + 1).
Proof.
  intros H. unfold cterm, U0.
  assert (E : / (2 * y ^ 2) + / (6 * y ^ 3) - (/ (2 * (y + 1) ^ 2) + / (6 * (y + 1) ^ 3)) - / (y ^ 2 * (y + 1)) = / (6 * y ^ 3 * (y + 1) ^ 3)) by (field; lra).
  assert (0 < / (6 * y ^ 3 * (y + 1) ^ 3)).
  { apply Rinv_0_lt_compat. repeat apply Rmult_lt_0_compat; try apply pow_lt; lra. }
  lra.
Qed.
Lemma L0_step y : 0 < y -> / y ^ 3 - / (y + 1) ^ 3 <= dc y.
Proof.
  intros H. unfold dc.
  assert (E : (3 * y + 2) / (y ^ 3 * (y + 1) ^ 2) - (/ y ^ 3 - / (y + 1) ^ 3) = (2 * y + 1) / (y ^ 3 * (y + 1) ^ 3)) by (field; lra).
  assert (0 < (2 * y + 1) / (y ^ 3 * (y + 1) ^ 3)).
  { apply Rdiv_lt_0_compat; [lra|]. apply Rmult_lt_0_compat; apply pow_lt; lra. }
  lra.
Qed.
Lemma csum_U N y : 0 < y -> Rsum N (fun n => cterm (y + INR n)) <= U0 y - U0 (y + INR N).
Proof.
  intros H. induction N as [|N IH]; [cbn; rewrite Rplus_0_r; lra|]. cbn [Rsum]. pose proof (INR_pos N).
  pose proof (@U0_step (y + INR N) ltac:(lra)) as G. rewrite S_INR. replace (y + (INR N + 1)) with (y + INR N + 1) by ring. lra.
Qed.
Lemma dsum_L N y : 0 < y -> / y ^ 3 - / (y + INR N) ^ 3 <= Rsum N (fun n => dc (y + INR n)).
Proof.
  intros H. induction N as [|N IH]; [cbn; rewrite Rplus_0_r; lra|]. cbn [Rsum]. pose proof (INR_pos N).
  pose proof (@L0_step (y + INR N) ltac:(lra)) as G. rewrite S_INR. replace (y + (INR N + 1)) with (y + INR N + 1) by ring. lra.
Qed.
Lemma xr_decreasing N x : 0 < x -> Rsum N (fun n => cterm (x + INR n)) - x * Rsum N (fun n => dc (x + INR n)) <= 0.
Proof.
  intros Hx. destruct N as [|N]; [cbn; lra|]. rewrite !Rsum_S_l. change (INR 0) with 0. rewrite Rplus_0_r.
  assert (S1 : Rsum N (fun i => cterm (x + INR (S i))) <= U0 (x + 1) - U0 (x + 1 + INR N)).
  { rewrite (@Rsum_ext N _ (fun i => cterm (x + 1 + INR i))) by (intros; rewrite S_INR; f_equal; ring). apply csum_U. lra. }
  assert (S2 : / (x + 1) ^ 3 - / (x + 1 + INR N) ^ 3 <= Rsum N (fun i => dc (x + INR (S i)))).
  { rewrite (@Rsum_ext N (fun i => dc (x + INR (S i))) (fun i => dc (x + 1 + INR i))) by (intros; rewrite S_INR; f_equal; ring). apply dsum_L. lra. }
  apply (Rmult_le_compat_l x) in S2; [|lra].
  set (A := Rsum N (fun i => cterm (x + INR (S i)))) in *. set (D := Rsum N (fun i => dc (x + INR (S i)))) in *.
  pose proof (INR_pos N) as HN. set (M := INR N) in *. clearbody A D M.
  assert (K1 : cterm x + U0 (x + 1) - x * dc x - x * / (x + 1) ^ 3 = - ((x ^ 3 / 2 + 4 / 3 * x ^ 2 + 3 * x + 1) / (x ^ 2 * (x + 1) ^ 3))).
  { unfold cterm, U0, dc. field. lra. }
  assert (K2 : x * / (x + 1 + M) ^ 3 - U0 (x + 1 + M) <= (x ^ 3 / 2) / (x ^ 2 * (x + 1) ^ 3)).
  { unfold U0. replace (x ^ 3 / 2 / (x ^ 2 * (x + 1) ^ 3)) with (x / 2 * / (x + 1) ^ 3) by (field; lra).
    replace (x * / (x + 1 + M) ^ 3 - (/ (2 * (x + 1 + M) ^ 2) + / (6 * (x + 1 + M) ^ 3)))
      with ((x / 2 - (1 + M) / 2 - / 6) * / (x + 1 + M) ^ 3) by (field; lra).
    assert (P1 : 0 < / (x + 1 + M) ^ 3) by (apply Rinv_0_lt_compat, pow_lt; lra).
    assert (P2 : / (x + 1 + M) ^ 3 <= / (x + 1) ^ 3) by (apply Rinv_le_contravar; [apply pow_lt; lra|apply pow_incr; lra]).
    apply Rle_trans with (x / 2 * / (x + 1 + M) ^ 3); [apply Rmult_le_compat_r; lra|apply Rmult_le_compat_l; lra]. }
  assert (K3 : (x ^ 3 / 2) / (x ^ 2 * (x + 1) ^ 3) <= (x ^ 3 / 2 + 4 / 3 * x ^ 2 + 3 * x + 1) / (x ^ 2 * (x + 1) ^ 3)).
  { apply Rmult_le_compat_r; [left; apply Rinv_0_lt_compat, Rmult_lt_0_compat; apply pow_lt; lra|]. nra. }
  set (q1 := x ^ 3 / 2 / (x ^ 2 * (x + 1) ^ 3)) in *.
  set (q2 := (x ^ 3 / 2 + 4 / 3 * x ^ 2 + 3 * x + 1) / (x ^ 2 * (x + 1) ^ 3)) in *. clearbody q1 q2.
  rewrite Rmult_minus_distr_l in S2. lra.
Qed.
Lemma xe2_antitone N x y : 0 < x -> x <= y -> y * eN2 N y <= x * eN2 N x.
Proof.
  intros Hx Hxy. destruct Hxy as [Hlt|<-]; [|lra].
  set (q := fun t => t * Rsum N (fun n => cterm (t + INR n))).
  assert (Q : forall t, 0 < t -> t * eN2 N t = 1 + q t).
  { intros t Ht. rewrite eN2_c by auto. unfold q. field. lra. }
  rewrite !Q by lra.
  set (dq := fun t => Rsum N (fun n => cterm (t + INR n)) - t * Rsum N (fun n => dc (t + INR n))).
  assert (Dq : forall t, 0 < t -> is_derive q t (dq t)).
  { intros t Ht. unfold q, dq.
    evar_last; [apply (@is_derive_mult R_AbsRing (fun t => t) (fun t => Rsum N (fun n => cterm (t + INR n)))); [apply (@is_derive_id R_AbsRing)| |intros; apply Rmult_comm]|].
    - apply (@Rsum_derive N (fun y n => cterm (y + INR n)) (fun y n => - dc (y + INR n))). intros n _. pose proof (INR_pos n).
      evar_last; [apply (@is_derive_comp R_AbsRing R_NormedModule cterm (fun y => y + INR n)); [apply cterm_d; lra|auto_derive; [exact I|reflexivity]]|].
      unfold scal; cbn; unfold mult; cbn. ring.
    - cbn. unfold plus, mult, one; cbn. rewrite Rsum_opp. ring. }
  destruct (MVT_gen q x y dq) as (c & Hc & E).
  - intros z Hz. rewrite Rmin_left, Rmax_right in Hz by lra. apply Dq. lra.
  - intros z Hz. rewrite Rmin_left, Rmax_right in Hz by lra. apply continuity_pt_filterlim. apply (@ex_derive_continuous R_AbsRing). eexists. apply Dq. lra.
  - rewrite Rmin_left, Rmax_right in Hc by lra.
    assert (dq c <= 0) by (apply xr_decreasing; lra). nra.
Qed.
Lemma e2_sub N x1 x2 d1 d2 : 0 < x1 -> 0 < x2 -> eN2 N (x1 + x2) * (d1 + d2) ^ 2 <= eN2 N x1 * d1 ^ 2 + eN2 N x2 * d2 ^ 2.
Proof.
  intros H1 H2.
  assert (P : forall x, 0 < x -> 0 < eN2 N x).
  { intros x Hx. unfold eN2. pose proof (INR_pos N).
    assert (0 < / (x + INR N)) by (apply Rinv_0_lt_compat; lra).
    assert (0 <= Rsum N (fun n => / (x + INR n) ^ 2)) by (apply Rsum_nonneg; intros n _; left; apply Rinv_0_lt_compat, pow_lt; pose proof (INR_pos n); lra). lra. }
  pose proof (@xe2_antitone N x1 (x1 + x2) H1 ltac:(lra)) as A1. pose proof (@xe2_antitone N x2 (x1 + x2) H2 ltac:(lra)) as A2.
  set (q := (x1 + x2) * eN2 N (x1 + x2)) in *.
  assert (Hq : 0 < q) by (unfold q; apply Rmult_lt_0_compat; [lra|apply P; lra]).
  replace (eN2 N (x1 + x2)) with (q / (x1 + x2)) by (unfold q; field; lra).
  assert (B : (d1 + d2) ^ 2 / (x1 + x2) <= d1 ^ 2 / x1 + d2 ^ 2 / x2).
  { assert (E : d1 ^ 2 / x1 + d2 ^ 2 / x2 - (d1 + d2) ^ 2 / (x1 + x2) = (d1 * x2 - d2 * x1) ^ 2 / (x1 * x2 * (x1 + x2))) by (field; lra).
    assert (0 <= (d1 * x2 - d2 * x1) ^ 2 / (x1 * x2 * (x1 + x2))).
    { apply Rdiv_le_0_compat; [apply pow2_ge_0|]. repeat apply Rmult_lt_0_compat; lra. }
    lra. }
  apply Rle_trans with (q * (d1 ^ 2 / x1 + d2 ^ 2 / x2)).
  - replace (q / (x1 + x2) * (d1 + d2) ^ 2) with (q * ((d1 + d2) ^ 2 / (x1 + x2))) by (field; lra). apply Rmult_le_compat_l; lra.
  - assert (0 <= d1 ^ 2 / x1) by (apply Rdiv_le_0_compat; [apply pow2_ge_0|lra]).
    assert (0 <= d2 ^ 2 / x2) by (apply Rdiv_le_0_compat; [apply pow2_ge_0|lra]).
    replace (eN2 N x1 * d1 ^ 2) with (x1 * eN2 N x1 * (d1 ^ 2 / x1)) by (field; lra).
    replace (eN2 N x2 * d2 ^ 2) with (x2 * eN2 N x2 * (d2 ^ 2 / x2)) by (field; lra).
    rewrite Rmult_plus_distr_l. apply Rplus_le_compat; apply Rmult_le_compat_r; lra.
Qed.
Lemma eN_gap N x a : 0 < x -> 0 < a -> gap (eN N) (eN1 N) x a = Rsum N (gterm x a) + hterm x a N.
Proof.
  intros Hx Ha. unfold gap, eN, eN1, gterm, hterm. pose proof (INR_pos N). rewrite ln_div by lra. rewrite Rsum_plus, Rsum_minus.
  rewrite (@Rsum_ext N (fun i => (x - a) / (a + INR i)) (fun i => (x - a) * / (a + INR i))) by (intros; reflexivity).
  rewrite Rsum_scal. ring.
Qed.
Lemma eN_beta N x1 x2 a1 a2 : 0 < x1 -> 0 < x2 -> 0 < a1 -> 0 < a2 ->
  gap (eN N) (eN1 N) (x1 + x2) (a1 + a2) <= gap (eN N) (eN1 N) x1 a1 + gap (eN N) (eN1 N) x2 a2.
Proof.
  intros H1 H2 H3 H4.
  set (d1 := x1 - a1). set (d2 := x2 - a2).
  set (F := fun s => eN N (a1 + s * d1) + eN N (a2 + s * d2) - eN N (a1 + a2 + s * (d1 + d2))).
  set (F1 := fun s => d1 * eN1 N (a1 + s * d1) + d2 * eN1 N (a2 + s * d2) - (d1 + d2) * eN1 N (a1 + a2 + s * (d1 + d2))).
  set (F2 := fun s => d1 ^ 2 * eN2 N (a1 + s * d1) + d2 ^ 2 * eN2 N (a2 + s * d2) - (d1 + d2) ^ 2 * eN2 N (a1 + a2 + s * (d1 + d2))).
  assert (Pos : forall s, 0 <= s <= 1 -> 0 < a1 + s * d1 /\ 0 < a2 + s * d2).
  { intros s Hs. unfold d1, d2. split; nra. }
  assert (Lin : forall f f' a d s, is_derive f (a + s * d) f' -> is_derive (fun t => f (a + t * d)) s (d * f')).
  { intros f f' a d s Hd. evar_last; [apply (@is_derive_comp R_AbsRing R_NormedModule f (fun t => a + t * d)); [exact Hd|auto_derive; [exact I|reflexivity]]|].
    unfold scal; cbn; unfold mult; cbn. ring. }
  assert (D1 : forall s, 0 <= s <= 1 -> is_derive F s (F1 s)).
  { intros s Hs. destruct (Pos s Hs) as [P1 P2]. unfold F, F1.
    apply (@is_derive_minus R_AbsRing _ (fun s => eN N (a1 + s * d1) + eN N (a2 + s * d2)) (fun s => eN N (a1 + a2 + s * (d1 + d2)))).
    - apply (@is_derive_plus R_AbsRing _ (fun s => eN N (a1 + s * d1)) (fun s => eN N (a2 + s * d2))); apply Lin; now apply eN_d.
    - apply Lin. apply eN_d. lra. }
  assert (D2 : forall s, 0 <= s <= 1 -> is_derive F1 s (F2 s)).
  { intros s Hs. destruct (Pos s Hs) as [P1 P2]. unfold F1, F2.
    assert (Sc : forall c f f', is_derive f s (c * f') -> is_derive (fun s => c * f s) s (c ^ 2 * f')).
    { intros c f f' Hd. replace (c ^ 2 * f') with (c * (c * f')) by ring. now apply is_derive_scal. }
    apply (@is_derive_minus R_AbsRing _ (fun s => d1 * eN1 N (a1 + s * d1) + d2 * eN1 N (a2 + s * d2)) (fun s => (d1 + d2) * eN1 N (a1 + a2 + s * (d1 + d2)))).
    - apply (@is_derive_plus R_AbsRing _ (fun s => d1 * eN1 N (a1 + s * d1)) (fun s => d2 * eN1 N (a2 + s * d2))); apply Sc; apply Lin; now apply eN1_d.
    - apply Sc. apply Lin. apply eN1_d. lra. }
  assert (Pos2 : forall s, 0 <= s <= 1 -> 0 <= F2 s).
  { intros s Hs. destruct (Pos s Hs) as [P1 P2]. unfold F2.
    pose proof (@e2_sub N _ _ d1 d2 P1 P2) as E. replace (a1 + s * d1 + (a2 + s * d2)) with (a1 + a2 + s * (d1 + d2)) in E by ring. lra. }
  assert (C : forall f f' s, is_derive f s f' -> continuity_pt f s).
  { intros f f' s Hd. apply continuity_pt_filterlim. apply (@ex_derive_continuous R_AbsRing). eexists. exact Hd. }
  destruct (MVT_gen F 0 1 F1) as (c & Hc & E).
  { intros z Hz. rewrite Rmin_left, Rmax_right in Hz by lra. apply D1. lra. }
  { intros z Hz. rewrite Rmin_left, Rmax_right in Hz by lra. eapply C. apply D1. lra. }
  rewrite Rmin_left, Rmax_right in Hc by lra.
  destruct (MVT_gen F1 0 c F2) as (c' & Hc' & E').
  { intros z Hz. rewrite Rmin_left, Rmax_right in Hz by lra. apply D2. lra. }
  { intros z Hz. rewrite Rmin_left, Rmax_right in Hz by lra. eapply C. apply D2. lra. }
  rewrite Rmin_left, Rmax_right in Hc' by lra.
  assert (Pc : 0 <= F2 c') by (apply Pos2; lra).
  assert (G : F1 0 <= F 1 - F 0) by nra.
  unfold F, F1 in G. rewrite !Rmult_0_l, !Rmult_1_l, !Rplus_0_r in G. unfold gap. fold d1 d2.
  replace (x1 + x2 - (a1 + a2)) with (d1 + d2) by (unfold d1, d2; ring).
  replace (a1 + d1) with x1 in G by (unfold d1; ring). replace (a2 + d2) with x2 in G by (unfold d2; ring).
  replace (a1 + a2 + (d1 + d2)) with (x1 + x2) in G by (unfold d1, d2; ring). lra.
Qed.
Lemma eN_gap_lim x a : 0 < x -> 0 < a -> is_lim_seq (fun N => gap (eN (S N)) (eN1 (S N)) x a) (gap log_gamma digamma x a).
Proof.
  intros Hx Ha. apply is_lim_seq_ext with (fun N => Rsum (S N) (gterm x a) + hterm x a (S N)); [intros; symmetry; now apply eN_gap|].
  replace (gap log_gamma digamma x a) with (gap log_gamma digamma x a + 0) by ring.
  apply is_lim_seq_plus'; [now apply gap_lim|]. now apply (is_lim_seq_incr_1 (hterm x a)), hterm_lim.
Qed.
Lemma true_beta x1 x2 a1 a2 : 0 < x1 -> 0 < x2 -> 0 < a1 -> 0 < a2 ->
  gap log_gamma digamma (x1 + x2) (a1 + a2) <= gap log_gamma digamma x1 a1 + gap log_gamma digamma x2 a2.
Proof.
  intros H1 H2 H3 H4.
  assert (H : Rbar_le (Finite (gap log_gamma digamma (x1 + x2) (a1 + a2))) (Finite (gap log_gamma digamma x1 a1 + gap log_gamma digamma x2 a2))).
  { apply is_lim_seq_le with (fun N => gap (eN (S N)) (eN1 (S N)) (x1 + x2) (a1 + a2)) (fun N => gap (eN (S N)) (eN1 (S N)) x1 a1 + gap (eN (S N)) (eN1 (S N)) x2 a2).
    - intros N. now apply eN_beta.
    - apply eN_gap_lim; lra.
    - apply is_lim_seq_plus'; now apply eN_gap_lim. }
  exact H.
Qed.
Theorem true_gamma_functions : gamma_functions log_gamma digamma.
Proof. constructor; [exact true_gamma|exact true_beta]. Qed.

(** ** These are Euler's functions *)
Lemma gsum_le x a N : 0 < x -> 0 < a -> Rsum N (gterm x a) <= (x - a) ^ 2 * (/ (a * x) + 2).
Proof.
  intros Hx Ha. assert (P := pow2_ge_0 (x - a)).
  assert (Pax : 0 < / (a * x)) by (apply Rinv_0_lt_compat, Rmult_lt_0_compat; lra).
  destruct N as [|N]; [cbn; apply Rmult_le_pos; lra|].
  assert (G : Rsum (S N) (gterm x a) <= (x - a) ^ 2 * (/ (a * x) + 2 - 2 / INR (S N))).
  2:{ eapply Rle_trans; [exact G|]. apply Rmult_le_compat_l; [lra|].
      assert (0 < 2 / INR (S N)) by (apply Rdiv_lt_0_compat; [lra|rewrite S_INR; pose proof (INR_pos N); lra]). lra. }
  induction N as [|N IH].
  - cbn [Rsum]. destruct (@gterm_bounds x a 0 Hx Ha) as [_ U]. change (INR 0) with 0 in U. change (INR 1) with 1.
    rewrite !Rplus_0_r in U. replace (/ (a * x) + 2 - 2 / 1) with (/ (a * x)) by (field; lra).
    unfold Rdiv in U. rewrite Rplus_0_l. exact U.
  - change (Rsum (S (S N)) (gterm x a)) with (Rsum (S N) (gterm x a) + gterm x a (S N)).
    destruct (@gterm_bounds x a (S N) Hx Ha) as [_ U]. pose proof (INR_pos N).
    assert (E : (x - a) ^ 2 / ((a + INR (S N)) * (x + INR (S N))) <= (x - a) ^ 2 * (2 / INR (S N) - 2 / INR (S (S N)))).
    { unfold Rdiv at 1. apply Rmult_le_compat_l; [lra|].
      replace (2 / INR (S N) - 2 / INR (S (S N))) with (/ (INR (S N) * INR (S (S N)) / 2)) by (rewrite !S_INR; field; lra).
      apply Rinv_le_contravar; rewrite !S_INR; nra. }
    lra.
Qed.
Lemma gap_bounds x a : 0 < x -> 0 < a -> 0 <= gap log_gamma digamma x a <= (x - a) ^ 2 * (/ (a * x) + 2).
Proof.
  intros Hx Ha. split.
  - assert (H : Rbar_le (Finite 0) (Finite (gap log_gamma digamma x a))); [|exact H].
    apply is_lim_seq_le with (fun _ => 0) (fun N => Rsum (S N) (gterm x a)); [|apply is_lim_seq_const|now apply gap_lim].
    intros N. apply Rsum_nonneg. intros n _. now apply gterm_bounds.
  - assert (H : Rbar_le (Finite (gap log_gamma digamma x a)) (Finite ((x - a) ^ 2 * (/ (a * x) + 2)))); [|exact H].
    apply is_lim_seq_le with (fun N => Rsum (S N) (gterm x a)) (fun _ => (x - a) ^ 2 * (/ (a * x) + 2)); [|now apply gap_lim|apply is_lim_seq_const].
    intros N. now apply gsum_le.
Qed.
(** psi is the derivative of gammaln. *)
Lemma log_gamma_derive a : 0 < a -> derivable_pt_lim log_gamma a (digamma a).
Proof.
  intros Ha eps He.
  set (C := / (a * (a / 2)) + 2). assert (HC : 0 < C).
  { unfold C. assert (0 < / (a * (a / 2))) by (apply Rinv_0_lt_compat, Rmult_lt_0_compat; lra). lra. }
  assert (Hd : 0 < Rmin (a / 2) (eps / C)).
  { apply Rmin_glb_lt; [lra|apply Rdiv_lt_0_compat; auto]. }
  exists (mkposreal _ Hd). intros h Hh Hlt. cbn [pos] in Hlt.
  pose proof (Rlt_le_trans _ _ _ Hlt (Rmin_l _ _)) as L1. pose proof (Rlt_le_trans _ _ _ Hlt (Rmin_r _ _)) as L2.
  apply Rabs_lt_between in L1.
  destruct (@gap_bounds (a + h) a ltac:(lra) Ha) as [B1 B2]. unfold gap in B1, B2. replace (a + h - a) with h in * by ring.
  assert (B3 : / (a * (a + h)) + 2 <= C).
  { unfold C. apply Rplus_le_compat_r, Rinv_le_contravar; [apply Rmult_lt_0_compat; lra|apply Rmult_le_compat_l; lra]. }
  replace ((log_gamma (a + h) - log_gamma a) / h - digamma a) with ((log_gamma (a + h) - log_gamma a - digamma a * h) / h) by (field; auto).
  rewrite Rabs_div by auto. rewrite (Rabs_pos_eq _ B1).
  assert (Hp : 0 < Rabs h) by now apply Rabs_pos_lt.
  apply Rmult_lt_reg_r with (Rabs h); [auto|]. unfold Rdiv. rewrite Rmult_assoc, Rinv_l, Rmult_1_r by lra.
  apply Rle_lt_trans with (h ^ 2 * C); [eapply Rle_trans; [exact B2|apply Rmult_le_compat_l; [apply pow2_ge_0|exact B3]]|].
  replace (h ^ 2) with (Rabs h * Rabs h) by (rewrite <- Rabs_mult, Rabs_pos_eq by nra; ring).
  rewrite Rmult_assoc, (Rmult_comm (eps)). apply Rmult_lt_compat_l; [auto|].
  apply Rmult_lt_reg_r with (/ C); [now apply Rinv_0_lt_compat|]. rewrite Rmult_assoc, Rinv_r, Rmult_1_r by lra. exact L2.
Qed.
Lemma log_gamma_1 : log_gamma 1 = 0.
Proof.
  pose proof (@lgam_lim 1 Rlt_0_1) as H. apply is_lim_seq_unique in H.
  rewrite (Lim_seq_ext _ (fun _ => 0)) in H by (intros; apply lgam_1). rewrite Lim_seq_const in H. now inversion H.
Qed.
Lemma ln_ratio_lim x : 0 < x -> is_lim_seq (fun N => ln (INR (S N)) - ln (x + INR (S N))) 0.
Proof.
  intros Hx. apply is_lim_seq_le_le with (fun N => - x / (1 + INR N)) (fun _ => 0); [|apply lim_inv_0|apply is_lim_seq_const].
  intros N. pose proof (INR_pos N) as HN. assert (H1 : 0 < INR (S N)) by (rewrite S_INR; lra).
  assert (Hd : 0 < INR (S N) / (x + INR (S N))) by (apply Rdiv_lt_0_compat; lra).
  pose proof (ln_le_sub1 Hd) as U. pose proof (ln_ge_inv Hd) as L. rewrite ln_div in U, L by lra.
  replace (1 - / (INR (S N) / (x + INR (S N)))) with (- x / (1 + INR N)) in L by (rewrite !S_INR; field; rewrite S_INR in *; lra).
  assert (INR (S N) / (x + INR (S N)) <= 1).
  { apply Rmult_le_reg_r with (x + INR (S N)); [lra|]. unfold Rdiv. rewrite Rmult_assoc, Rinv_l, !Rmult_1_r by lra. lra. }
  lra.
Qed.
Lemma gauss_step N x : 0 < x -> gauss_lgam N (x + 1) = gauss_lgam N x + ln x + (ln (INR (S N)) - ln (x + INR (S N))).
Proof.
  intros Hx. unfold gauss_lgam.
  rewrite (@Rsum_ext (S N) (fun n => ln (x + 1 + INR n)) (fun n => ln (x + INR (S n)))) by (intros; rewrite S_INR; f_equal; ring).
  pose proof (Rsum_S_l (S N) (fun n => ln (x + INR n))) as E. cbv beta in E. change (INR 0) with 0 in E. rewrite Rplus_0_r in E.
  change (Rsum (S (S N)) (fun n => ln (x + INR n))) with (Rsum (S N) (fun n => ln (x + INR n)) + ln (x + INR (S N))) in E.
  set (s1 := Rsum (S N) (fun n => ln (x + INR n))) in *. set (s2 := Rsum (S N) (fun i => ln (x + INR (S i)))) in *. clearbody s1 s2. lra.
Qed.
Lemma log_gamma_step x : 0 < x -> log_gamma (x + 1) = log_gamma x + ln x.
Proof.
  intros Hx. pose proof (@lgam_lim (x + 1) ltac:(lra)) as H. apply is_lim_seq_unique in H.
  assert (G : is_lim_seq (fun N => gauss_lgam N (x + 1)) (log_gamma x + ln x + 0)).
  { apply is_lim_seq_ext with (fun N => gauss_lgam N x + ln x + (ln (INR (S N)) - ln (x + INR (S N)))); [intros; symmetry; now apply gauss_step|].
    apply is_lim_seq_plus'; [|now apply ln_ratio_lim]. apply is_lim_seq_plus'; [now apply lgam_lim|apply is_lim_seq_const]. }
  apply is_lim_seq_unique in G. rewrite H in G. inversion G. lra.
Qed.
Lemma log_gamma_fact n : log_gamma (INR n + 1) = ln (INR (fact n)).
Proof.
  induction n as [|n IH].
  - cbn. rewrite Rplus_0_l, log_gamma_1, ln_1. reflexivity.
  - rewrite S_INR, log_gamma_step, IH by (pose proof (INR_pos n); lra).
    change (fact (S n)) with (S n * fact n)%nat. rewrite mult_INR, ln_mult, S_INR; [ring|rewrite S_INR; pose proof (INR_pos n); lra|apply INR_fact_lt_0].
Qed.
Lemma digamma_step x : 0 < x -> digamma (x + 1) = digamma x + / x.
Proof.
  intros Hx. pose proof (@psi_lim (x + 1) ltac:(lra)) as H. apply is_lim_seq_unique in H.
  assert (G : is_lim_seq (fun N => gauss_psi N (x + 1)) (digamma x + / x - 0)).
  { apply is_lim_seq_ext with (fun N => gauss_psi N x + / x - 1 / ((x + 1) + INR N)).
    - intros N. unfold gauss_psi.
      rewrite (@Rsum_ext (S N) (fun n => / (x + 1 + INR n)) (fun n => / (x + INR (S n)))) by (intros; rewrite S_INR; f_equal; ring).
      pose proof (Rsum_S_l (S N) (fun n => / (x + INR n))) as E. cbv beta in E. change (INR 0) with 0 in E. rewrite Rplus_0_r in E.
      change (Rsum (S (S N)) (fun n => / (x + INR n))) with (Rsum (S N) (fun n => / (x + INR n)) + / (x + INR (S N))) in E.
      replace (1 / (x + 1 + INR N)) with (/ (x + INR (S N))) by (rewrite S_INR; pose proof (INR_pos N); field; lra).
      set (s1 := Rsum (S N) (fun n => / (x + INR n))) in *. set (s2 := Rsum (S N) (fun i => / (x + INR (S i)))) in *. clearbody s1 s2. lra.
    - apply is_lim_seq_minus'; [|apply lim_inv_0]. apply is_lim_seq_plus'; [now apply psi_lim|apply is_lim_seq_const]. }
  apply is_lim_seq_unique in G. rewrite H in G. inversion G. lra.
Qed.

(** Convex on the positive half line, by chords. *)
Definition convex_pos (f : R -> R) : Prop :=
  forall x y z, 0 < x -> x < y -> y < z -> f y * (z - x) <= f x * (z - y) + f z * (y - x).
Lemma log_gamma_convex : convex_pos log_gamma.
Proof.
  intros x y z Hx Hxy Hyz.
  destruct (@gap_bounds x y ltac:(lra) ltac:(lra)) as [A _]. destruct (@gap_bounds z y ltac:(lra) ltac:(lra)) as [B _]. unfold gap in A, B.
  assert (A' := Rmult_le_compat_r (z - y) _ _ ltac:(lra) A). assert (B' := Rmult_le_compat_r (y - x) _ _ ltac:(lra) B). lra.
Qed.
Lemma bohr_mollerup f : convex_pos f -> f 1 = 0 -> (forall x, 0 < x -> f (x + 1) = f x + ln x) -> forall x, 0 < x -> f x = log_gamma x.
Proof.
  intros Hc H1 Hs.
  assert (Hf : forall n, f (INR n + 1) = ln (INR (fact n))).
  { induction n as [|n IH]; [cbn; rewrite Rplus_0_l, H1, ln_1; reflexivity|].
    rewrite S_INR, Hs, IH by (pose proof (INR_pos n); lra). change (fact (S n)) with (S n * fact n)%nat.
    rewrite mult_INR, ln_mult, S_INR; [ring|rewrite S_INR; pose proof (INR_pos n); lra|apply INR_fact_lt_0]. }
  assert (Hsum : forall n x, 0 < x -> f (x + INR n) = f x + Rsum n (fun i => ln (x + INR i))).
  { induction n as [|n IH]; intros x Hx; [cbn; rewrite !Rplus_0_r; reflexivity|].
    cbn [Rsum]. rewrite S_INR. replace (x + (INR n + 1)) with (x + INR n + 1) by ring.
    rewrite Hs by (pose proof (INR_pos n); lra). rewrite IH by auto. ring. }
  assert (Hsm : forall x, 0 < x -> x < 1 -> f x = log_gamma x).
  { intros x Hx Hx1.
    assert (Hn : forall n, gauss_lgam (S n) x + x * (ln (INR (S n)) - ln (1 + INR (S n))) <= f x <= gauss_lgam (S n) x).
    { intros n. pose proof (INR_pos n) as Pn.
      pose proof (Hf n) as F0. pose proof (Hf (S n)) as F1. pose proof (Hf (S (S n))) as F2.
      assert (L1 : ln (INR (fact (S n))) = ln (INR (S n)) + ln (INR (fact n))).
      { change (fact (S n)) with (S n * fact n)%nat. rewrite mult_INR, ln_mult; [ring|rewrite S_INR; lra|apply INR_fact_lt_0]. }
      assert (L2 : ln (INR (fact (S (S n)))) = ln (INR (S (S n))) + ln (INR (fact (S n)))).
      { change (fact (S (S n))) with (S (S n) * fact (S n))%nat. rewrite mult_INR, ln_mult; [ring|rewrite !S_INR; lra|apply INR_fact_lt_0]. }
      pose proof (@Hsum (S (S n)) x Hx) as S1.
      pose proof (Hc (INR n + 1) (INR (S n) + 1) (x + INR (S (S n))) ltac:(lra) ltac:(rewrite S_INR; lra) ltac:(rewrite !S_INR; lra)) as C1.
      pose proof (Hc (INR (S n) + 1) (x + INR (S (S n))) (INR (S (S n)) + 1) ltac:(rewrite S_INR; lra) ltac:(rewrite !S_INR; lra) ltac:(rewrite !S_INR; lra)) as C2.
      rewrite F0, F1, S1, L1 in C1. rewrite F1, F2, S1, L2 in C2.
      unfold gauss_lgam. rewrite L1 in *.
      replace (1 + INR (S n)) with (INR (S (S n))) by (rewrite (S_INR (S n)); ring).
      set (Q := Rsum (S (S n)) (fun i => ln (x + INR i))) in *.
      set (l1 := ln (INR (S n))) in *. set (l2 := ln (INR (S (S n)))) in *. set (l0 := ln (INR (fact n))) in *.
      replace (x + INR (S (S n)) - (INR n + 1)) with (x + 1) in C1 by (rewrite !S_INR; ring).
      replace (x + INR (S (S n)) - (INR (S n) + 1)) with x in C1, C2 by (rewrite !S_INR; ring).
      replace (INR (S n) + 1 - (INR n + 1)) with 1 in C1 by (rewrite !S_INR; ring).
      replace (INR (S (S n)) + 1 - (INR (S n) + 1)) with 1 in C2 by (rewrite !S_INR; ring).
      replace (INR (S (S n)) + 1 - (x + INR (S (S n)))) with (1 - x) in C2 by ring.
      clearbody Q l0 l1 l2. split; lra. }
    assert (A : is_lim_seq (fun n => gauss_lgam (S n) x) (log_gamma x)) by (apply (is_lim_seq_incr_1 (fun n => gauss_lgam n x)); now apply lgam_lim).
    assert (B : is_lim_seq (fun n => gauss_lgam (S n) x + x * (ln (INR (S n)) - ln (1 + INR (S n)))) (log_gamma x + x * 0)).
    { apply is_lim_seq_plus'; [exact A|]. apply is_lim_seq_mult'; [apply is_lim_seq_const|apply ln_ratio_lim; lra]. }
    rewrite Rmult_0_r, Rplus_0_r in B.
    assert (G : is_lim_seq (fun _ : nat => f x) (log_gamma x)) by (eapply is_lim_seq_le_le; [exact Hn|exact B|exact A]).
    apply is_lim_seq_unique in G. rewrite Lim_seq_const in G. now inversion G. }
  assert (Hk : forall k x, 0 < x -> x < INR (S k) -> f x = log_gamma x).
  { induction k as [|k IH]; intros x Hx Hlt; [apply Hsm; [auto|exact Hlt]|].
    rewrite S_INR in Hlt. destruct (Rlt_or_le x 1) as [Hl|Hl]; [now apply Hsm|].
    destruct Hl as [Hl|<-]; [|rewrite H1, log_gamma_1; reflexivity].
    replace x with (x - 1 + 1) by ring. rewrite Hs, log_gamma_step, IH by lra. reflexivity. }
  intros x Hx. destruct (nfloor_ex x ltac:(lra)) as [k [_ Hkx]]. apply (Hk k); [auto|]. rewrite S_INR. lra.
Qed.
