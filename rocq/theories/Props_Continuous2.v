(** * Props_Continuous2: C61, C68, C79: the impulse response as a density, logit and logistic. *)
From Coq Require Import Permutation FunctionalExtensionality Machin Ratan AltSeries.
From Coquelicot Require Import Coquelicot.
From Verif Require Import Prelude ExtReal Arrays Spec_Continuous M_Continuous L_Continuous L_Gauss.
Set Implicit Arguments.
Open Scope R_scope.

(* ================= C68 ================= *)
Lemma logistic_alt m x : logistic m x = m / (1 + exp (- x)).
Proof. unfold logistic. pose proof (exp_pos (- x)). field. lra. Qed.

Theorem C68_logistic_range_and_monotone :
  forall m x y, 0 < m -> 0 < logistic m x < m /\ (x < y -> logistic m x < logistic m y).
Proof.
  intros m x y Hm. rewrite !logistic_alt. pose proof (exp_pos (- x)). pose proof (exp_pos (- y)). split; [split|].
  - apply Rdiv_lt_0_compat; lra.
  - apply Rmult_lt_reg_r with (1 + exp (- x)); [lra|]. unfold Rdiv. rewrite Rmult_assoc, Rinv_l by lra. nra.
  - intros Hxy. assert (exp (- y) < exp (- x)) by (apply exp_increasing; lra).
    unfold Rdiv. apply Rmult_lt_compat_l; [exact Hm|]. apply Rinv_lt_contravar; [|lra]. apply Rmult_lt_0_compat; lra.
Qed.
Theorem C68_logit_inverts_logistic : forall m x, 0 < m -> logit m (logistic m x) = x.
Proof.
  intros m x Hm. unfold logit. rewrite logistic_alt. pose proof (exp_pos (- x)).
  replace (m / (1 + exp (- x)) / m) with (/ (1 + exp (- x))) by (field; lra).
  replace (1 - / (1 + exp (- x))) with (exp (- x) * / (1 + exp (- x))) by (field; lra).
  rewrite ln_mult; [|lra|apply Rinv_0_lt_compat; lra]. rewrite ln_exp. lra.
Qed.
Theorem C68_logistic_inverts_logit : forall m y, 0 < y < m -> logistic m (logit m y) = y.
Proof.
  intros m y Hy. rewrite logistic_alt. unfold logit.
  assert (0 < y / m) by (apply Rdiv_lt_0_compat; lra).
  assert (y / m < 1) by (apply Rmult_lt_reg_r with m; [lra|]; unfold Rdiv; rewrite Rmult_assoc, Rinv_l by lra; lra).
  replace (- (ln (y / m) - ln (1 - y / m))) with (ln (1 - y / m) - ln (y / m)) by ring.
  unfold Rminus at 1. rewrite exp_plus, exp_Ropp, !exp_ln by lra. field. lra.
Qed.
Example C68_nonvacuous : 0 < logistic 3 1 < 3 /\ logistic 3 (logit 3 1) = 1 /\ logistic 1 0 = 1 / 2.
Proof.
  split; [apply C68_logistic_range_and_monotone; [exact 0|lra]|]. split; [apply C68_logistic_inverts_logit; lra|].
  rewrite logistic_alt, Ropp_0, exp_0. lra.
Qed.

(* ================= C61 ================= *)
Lemma to_line_logit D dt : 0 < dt < D -> to_line D dt = logit D dt.
Proof.
  intros H. unfold to_line, logit. replace (1 - dt / D) with ((D - dt) / D) by (field; lra). rewrite !ln_div by lra. ring.
Qed.
(** The transformed delay is an increasing bijection of (0, D) onto the line with the stated derivative, and
    D * logistic is its inverse. *)
Theorem C61_transform :
  forall D dt x, 0 < dt < D ->
    derivable_pt_lim (to_line D) dt (D / (dt * (D - dt))) /\ 0 < D / (dt * (D - dt)) /\
    D * logistic 1 (to_line D dt) = dt /\ 0 < D * logistic 1 x < D /\ to_line D (D * logistic 1 x) = x /\
    (D * logistic 1 x <= dt <-> x <= to_line D dt).
Proof.
  intros D dt x H. assert (EL : forall y, D * logistic 1 y = logistic D y).
  { intros y. rewrite !logistic_alt. pose proof (exp_pos (- y)). field. lra. }
  rewrite !EL. split.
  { apply is_derive_Reals. unfold to_line. auto_derive.
    - repeat split; try (apply Rdiv_lt_0_compat; lra); auto; try lra.
    - field. lra. }
  split; [apply Rdiv_lt_0_compat; [lra|apply Rmult_lt_0_compat; lra]|].
  assert (E1 : logistic D (to_line D dt) = dt) by (rewrite to_line_logit by exact H; apply C68_logistic_inverts_logit; exact H).
  destruct (@C68_logistic_range_and_monotone D x x ltac:(lra)) as [R1 _].
  assert (E2 : to_line D (logistic D x) = x) by (rewrite to_line_logit by exact R1; apply C68_logit_inverts_logistic; lra).
  split; [exact E1|]. split; [exact R1|]. split; [exact E2|]. split; intros Hle.
  - destruct (Rle_dec x (to_line D dt)); [assumption|].
    destruct (@C68_logistic_range_and_monotone D (to_line D dt) x ltac:(lra)) as [_ M]. specialize (M ltac:(lra)). rewrite E1 in M. lra.
  - destruct Hle as [Hlt| ->]; [|lra]. destruct (@C68_logistic_range_and_monotone D x (to_line D dt) ltac:(lra)) as [_ M].
    specialize (M Hlt). rewrite E1 in M. lra.
Qed.

(** The Python impulse is the density of D * sigmoid(Normal(mu, precision tau)). *)
Theorem C61_impulse_is_density :
  forall D dt mu tau, 0 < dt < D -> 0 < tau -> py_impulse D dt mu tau = Fin (delay_pdf D mu tau dt).
Proof.
  intros D dt mu tau H Ht. unfold py_impulse. pose proof PI_RGT_0 as HPI.
  rewrite (@ediv_fin dt D) by lra. assert (Hq : 0 < dt / D) by (apply Rdiv_lt_0_compat; lra).
  rewrite esub_fin. replace (1 - dt / D) with ((D - dt) / D) by (field; lra).
  rewrite !elog_fin by (apply Rdiv_lt_0_compat; lra). rewrite !esub_fin. rewrite !emul_fin. cbn [eexp].
  set (Z := dt * (D - dt) / D * sqrt (2 * PI / tau)).
  assert (Hs : 0 < sqrt (2 * PI / tau)) by (apply sqrt_lt_R0, Rdiv_lt_0_compat; lra).
  assert (HZ : 0 < Z). { unfold Z. apply Rmult_lt_0_compat; [apply Rdiv_lt_0_compat; [apply Rmult_lt_0_compat; lra|lra]|exact Hs]. }
  rewrite ediv_fin by lra. rewrite emul_fin. f_equal. unfold delay_pdf, normal_pdf.
  replace (ln (dt / D) - ln ((D - dt) / D)) with (to_line D dt) by (unfold to_line; rewrite !ln_div by lra; ring).
  replace (- tau / 2 * ((to_line D dt - mu) * (to_line D dt - mu))) with (- (tau / 2) * (to_line D dt - mu) ^ 2) by field.
  replace (tau / (2 * PI)) with (/ (2 * PI / tau)) by (field; lra). rewrite sqrt_inv by (left; apply Rdiv_lt_0_compat; lra).
  unfold Z. field. repeat split; lra.
Qed.

(** Change of variables, in integral form: the probability of a delay in [a, b] is the Normal probability of the
    transformed interval. *)
Lemma cont_normal mu tau x : continuous (normal_pdf mu tau) x.
Proof. apply (ex_derive_continuous (normal_pdf mu tau)). unfold normal_pdf. auto_derive. auto. Qed.
Theorem C61_interval_probabilities :
  forall D mu tau a b, 0 < a -> a <= b -> b < D ->
    RInt (delay_pdf D mu tau) a b = RInt (normal_pdf mu tau) (to_line D a) (to_line D b).
Proof.
  intros D mu tau a b Ha Hab Hb.
  rewrite <- (RInt_comp (V := R_CompleteNormedModule) (normal_pdf mu tau) (to_line D) (fun dt => D / (dt * (D - dt))) a b).
  - apply RInt_ext. intros x _. unfold delay_pdf. rewrite Rmult_comm. reflexivity.
  - intros x _. apply cont_normal.
  - intros x Hx. rewrite Rmin_left, Rmax_right in Hx by lra. split.
    + apply is_derive_Reals. apply (@C61_transform D x 0). lra.
    + apply (ex_derive_continuous (fun dt => D / (dt * (D - dt)))). assert (0 < x * (D - x)) by (apply Rmult_lt_0_compat; lra).
      auto_derive. repeat split; lra.
Qed.

(** Distribution function of the Normal, and total mass 1. *)
Definition Phi (mu tau x : R) : R := gI (sqrt (tau / 2) * (x - mu)) / sqrt PI.
Lemma Phi_derive mu tau x : 0 < tau -> is_derive (Phi mu tau) x (normal_pdf mu tau x).
Proof.
  intros Ht. unfold Phi. pose proof PI_RGT_0 as HPI. assert (HS : 0 < sqrt PI) by (apply sqrt_lt_R0; lra).
  assert (E : normal_pdf mu tau x = sqrt (tau / 2) * exp (- (sqrt (tau / 2) * (x - mu) * (sqrt (tau / 2) * (x - mu)))) / sqrt PI).
  { unfold normal_pdf. replace (tau / (2 * PI)) with (tau / 2 / PI) by (field; lra). rewrite sqrt_div by lra.
    assert (Hq : sqrt (tau / 2) * sqrt (tau / 2) = tau / 2) by (apply sqrt_sqrt; lra).
    replace (sqrt (tau / 2) * (x - mu) * (sqrt (tau / 2) * (x - mu))) with (sqrt (tau / 2) * sqrt (tau / 2) * ((x - mu) ^ 2)) by ring.
    rewrite Hq. replace (- (tau / 2 * (x - mu) ^ 2)) with (- (tau / 2) * (x - mu) ^ 2) by ring. field. lra. }
  rewrite E. apply (is_derive_ext (fun y => scal (/ sqrt PI) (gI (sqrt (tau / 2) * (y - mu))))).
  { intros y. change (/ sqrt PI * gI (sqrt (tau / 2) * (y - mu)) = gI (sqrt (tau / 2) * (y - mu)) / sqrt PI). field. lra. }
  match goal with |- is_derive _ _ ?v => replace v with (scal (/ sqrt PI) (scal (sqrt (tau / 2)) (exp (- (sqrt (tau / 2) * (x - mu) * (sqrt (tau / 2) * (x - mu))))))) end.
  2:{ change (/ sqrt PI * (sqrt (tau / 2) * exp (- (sqrt (tau / 2) * (x - mu) * (sqrt (tau / 2) * (x - mu)))) ) =
       sqrt (tau / 2) * exp (- (sqrt (tau / 2) * (x - mu) * (sqrt (tau / 2) * (x - mu)))) / sqrt PI). field. lra. }
  apply is_derive_scal. apply (is_derive_comp gI (fun y => sqrt (tau / 2) * (y - mu))).
  - apply gI_derive.
  - auto_derive; [auto|ring].
Qed.

Lemma affine_limit c mu : 0 < c -> is_lim (fun x => c * (x - mu)) p_infty p_infty /\ is_lim (fun x => c * (x - mu)) m_infty m_infty.
Proof.
  intros Hc. split.
  - intros P [M HM]. exists (M / c + mu). intros x Hx. apply HM.
    apply Rmult_lt_reg_r with (/ c); [now apply Rinv_0_lt_compat|]. replace (c * (x - mu) * / c) with (x - mu) by (field; lra).
    unfold Rdiv in Hx. lra.
  - intros P [M HM]. exists (M / c + mu). intros x Hx. apply HM.
    apply Rmult_lt_reg_r with (/ c); [now apply Rinv_0_lt_compat|]. replace (c * (x - mu) * / c) with (x - mu) by (field; lra).
    unfold Rdiv in Hx. lra.
Qed.
Lemma Phi_limits mu tau : 0 < tau -> is_lim (Phi mu tau) p_infty (1 / 2) /\ is_lim (Phi mu tau) m_infty (- (1 / 2)).
Proof.
  intros Ht. pose proof PI_RGT_0 as HPI. assert (HS : 0 < sqrt PI) by (apply sqrt_lt_R0; lra).
  assert (Hc : 0 < sqrt (tau / 2)) by (apply sqrt_lt_R0; lra). destruct (affine_limit mu Hc) as [A1 A2]. split.
  - apply is_lim_ext with (f := fun x => / sqrt PI * gI (sqrt (tau / 2) * (x - mu))).
    { intros y. unfold Phi. field. lra. }
    replace (Finite (1 / 2)) with (Rbar_mult (/ sqrt PI) (sqrt PI / 2)) by (cbn; f_equal; field; lra).
    apply (is_lim_scal_l (fun x => gI (sqrt (tau / 2) * (x - mu)))).
    apply (is_lim_comp gI (fun x => sqrt (tau / 2) * (x - mu)) p_infty (sqrt PI / 2) p_infty gI_limit A1).
    exists 0. intros; discriminate.
  - apply is_lim_ext with (f := fun x => / sqrt PI * gI (sqrt (tau / 2) * (x - mu))).
    { intros y. unfold Phi. field. lra. }
    replace (Finite (- (1 / 2))) with (Rbar_mult (/ sqrt PI) (- (sqrt PI / 2))) by (cbn; f_equal; field; lra).
    apply (is_lim_scal_l (fun x => gI (sqrt (tau / 2) * (x - mu)))).
    apply (is_lim_comp gI (fun x => sqrt (tau / 2) * (x - mu)) m_infty (- (sqrt PI / 2)) m_infty gI_limit_m A2).
    exists 0. intros; discriminate.
Qed.

Lemma to_line_small D M : 0 < D -> exists d, 0 < d < D /\ forall x, 0 < x < d -> to_line D x < M.
Proof.
  intros HD. exists (logistic D M). destruct (@C68_logistic_range_and_monotone D M M HD) as [R _]. split; [exact R|].
  intros x Hx. destruct (Rlt_le_dec (to_line D x) M) as [|H]; [assumption|].
  assert (Hx' : 0 < x < D) by lra. destruct (@C61_transform D x M Hx') as (_ & _ & _ & _ & _ & Heq).
  assert (E : D * logistic 1 M = logistic D M) by (rewrite !logistic_alt; pose proof (exp_pos (- M)); field; lra).
  rewrite E in Heq. apply Heq in H. lra.
Qed.
Lemma to_line_large D M : 0 < D -> exists d, 0 < d < D /\ forall x, d < x < D -> M < to_line D x.
Proof.
  intros HD. exists (logistic D M). destruct (@C68_logistic_range_and_monotone D M M HD) as [R _]. split; [exact R|].
  intros x Hx. destruct (@C68_logistic_range_and_monotone D (to_line D x) M HD) as [_ Mo].
  assert (Hx' : 0 < x < D) by lra. assert (E1 : logistic D (to_line D x) = x) by (rewrite to_line_logit by exact Hx'; now apply C68_logistic_inverts_logit).
  destruct (Rlt_le_dec M (to_line D x)) as [|[H|H]]; [assumption| |].
  - specialize (Mo H). lra.
  - rewrite <- H in Hx. rewrite E1 in Hx. lra.
Qed.

Theorem C61_total_mass_one :
  forall D mu tau, 0 < D -> 0 < tau -> is_RInt_gen (delay_pdf D mu tau) (at_right 0) (at_left D) 1.
Proof.
  intros D mu tau HD Ht. set (G := fun x => Phi mu tau (to_line D x)).
  assert (HG : forall x, 0 < x < D -> is_derive G x (delay_pdf D mu tau x)).
  { intros x Hx. unfold delay_pdf. rewrite Rmult_comm.
    apply (is_derive_comp (Phi mu tau) (to_line D)); [now apply Phi_derive|]. apply is_derive_Reals. now apply (@C61_transform D x 0). }
  assert (Hin : filter_prod (at_right 0) (at_left D) (fun ab => 0 < fst ab /\ fst ab < D /\ 0 < snd ab /\ snd ab < D)).
  { apply Filter_prod with (fun a => 0 < a < D) (fun b => 0 < b < D).
    - exists (mkposreal D HD). intros y Hy H0. unfold ball in Hy. cbn in Hy. unfold AbsRing_ball, abs, minus, plus, opp in Hy. cbn in Hy.
      rewrite Rabs_pos_eq in Hy by lra. lra.
    - exists (mkposreal D HD). intros y Hy H0. unfold ball in Hy. cbn in Hy. unfold AbsRing_ball, abs, minus, plus, opp in Hy. cbn in Hy.
      rewrite Rabs_left in Hy by lra. lra.
    - intros a b Ha Hb. cbn. lra. }
  replace 1 with (1 / 2 - - (1 / 2)) by lra.
  apply (is_RInt_gen_ext (Derive G)).
  { apply filter_imp with (2 := Hin). intros [a b] (H1 & H2 & H3 & H4) x Hx. cbn [fst snd] in *.
    apply is_derive_unique, HG. unfold Rmin, Rmax in Hx. destruct (Rle_dec a b); lra. }
  apply is_RInt_gen_Derive.
  - apply filter_imp with (2 := Hin). intros [a b] (H1 & H2 & H3 & H4) x Hx. cbn [fst snd] in *.
    eexists. apply HG. unfold Rmin, Rmax in Hx. destruct (Rle_dec a b); lra.
  - apply filter_imp with (2 := Hin). intros [a b] (H1 & H2 & H3 & H4) x Hx. cbn [fst snd] in *.
    assert (Hx' : 0 < x < D) by (unfold Rmin, Rmax in Hx; destruct (Rle_dec a b); lra).
    apply continuous_ext_loc with (g := delay_pdf D mu tau).
    + assert (He : 0 < Rmin x (D - x)) by (apply Rmin_pos; lra). exists (mkposreal _ He). intros y Hy. symmetry. apply is_derive_unique, HG.
      unfold ball in Hy. cbn in Hy. unfold AbsRing_ball, abs, minus, plus, opp in Hy. cbn in Hy.
      pose proof (Rmin_l x (D - x)). pose proof (Rmin_r x (D - x)). apply Rabs_def2 in Hy. lra.
    + apply (ex_derive_continuous (delay_pdf D mu tau)). unfold delay_pdf, normal_pdf, to_line.
      assert (0 < x * (D - x)) by (apply Rmult_lt_0_compat; lra). auto_derive. repeat split; try lra. apply Rdiv_lt_0_compat; lra.
  - destruct (Phi_limits mu Ht) as [_ L]. intros P HP. destruct (L P HP) as [M HM].
    destruct (@to_line_small D M HD) as (d & Hd & Hs). unfold filtermap, at_right, within, locally.
    exists (mkposreal d (proj1 Hd)). intros y Hy H0. unfold ball in Hy. cbn in Hy. unfold AbsRing_ball, abs, minus, plus, opp in Hy. cbn in Hy.
    rewrite Rabs_pos_eq in Hy by lra. apply HM, Hs. lra.
  - destruct (Phi_limits mu Ht) as [L _]. intros P HP. destruct (L P HP) as [M HM].
    destruct (@to_line_large D M HD) as (d & Hd & Hs). unfold filtermap, at_left, within, locally.
    assert (Hpos : 0 < D - d) by lra.
    exists (mkposreal (D - d) Hpos). intros y Hy H0. unfold ball in Hy. cbn in Hy. unfold AbsRing_ball, abs, minus, plus, opp in Hy. cbn in Hy.
    rewrite Rabs_left in Hy by lra. apply HM, Hs. lra.
Qed.

(* ---------------- the constant compiled into the helpers ---------------- *)
Lemma PI_bounds : 314159265358979323 / 10 ^ 17 < PI < 314159265358979324 / 10 ^ 17.
Proof.
  assert (L := proj1 (PI_2_3_7_ineq 9)). assert (U := proj2 (PI_2_3_7_ineq 9)).
  cbn [Nat.mul Nat.add] in L, U.
  unfold tg_alt, PI_2_3_7_tg, Ratan_seq in L, U. cbn [sum_f_R0 Nat.mul Nat.add] in L, U.
  repeat rewrite INR_IZR_INZ in L. repeat rewrite INR_IZR_INZ in U. cbn [Z.of_nat Pos.of_succ_nat Pos.succ] in L, U.
  split; lra.
Qed.
(** The literal 2.5066282746310002 agrees with sqrt(2 pi) to one part in 10^15. *)
Theorem C61_compiled_constant : Rabs (kappa_c - 1) < / 10 ^ 15.
Proof.
  destruct PI_bounds as [L U]. unfold kappa_c. pose proof SQRT_2PI_pos as HS. pose proof PI_RGT_0 as HPI.
  assert (H1 : SQRT_2PI * (1 - / 10 ^ 15) < sqrt (2 * PI)).
  { apply Rsqr_incrst_0; [|unfold SQRT_2PI; lra|apply sqrt_pos]. rewrite Rsqr_sqrt by lra. unfold Rsqr, SQRT_2PI. lra. }
  assert (H2 : sqrt (2 * PI) < SQRT_2PI * (1 + / 10 ^ 15)).
  { apply Rsqr_incrst_0; [|apply sqrt_pos|unfold SQRT_2PI; lra]. rewrite Rsqr_sqrt by lra. unfold Rsqr, SQRT_2PI. lra. }
  apply Rabs_def1.
  - apply Rmult_lt_reg_r with SQRT_2PI; [exact HS|]. replace ((sqrt (2 * PI) / SQRT_2PI - 1) * SQRT_2PI) with (sqrt (2 * PI) - SQRT_2PI) by (field; lra). lra.
  - apply Rmult_lt_reg_r with SQRT_2PI; [exact HS|]. replace ((sqrt (2 * PI) / SQRT_2PI - 1) * SQRT_2PI) with (sqrt (2 * PI) - SQRT_2PI) by (field; lra). lra.
Qed.

(** The compiled impulse equals the density, up to that constant, except within 1e-8 of the ends, where it is cut to 0. *)
Theorem C61_compiled_impulse :
  forall D dt mu tau, 0 < tau ->
    (eps <= dt <= D - eps -> ln_impulse dt mu tau D = kappa_c * delay_pdf D mu tau dt) /\
    ((dt < eps \/ D - eps < dt) -> ln_impulse dt mu tau D = 0) /\ eps = 1 / 100000000.
Proof.
  intros D dt mu tau Ht. split; [intros H; apply ln_impulse_pdf; lra|]. split; [|unfold eps; lra].
  intros H. unfold ln_impulse. destruct (Rltb dt eps) eqn:E1; [reflexivity|]. apply Rltb_false in E1.
  replace (Rltb (D - dt) eps) with true; [reflexivity|]. symmetry. apply Rltb_true. lra.
Qed.
Example C61_nonvacuous : py_impulse 2 1 0 1 = Fin (delay_pdf 2 0 1 1) /\ 0 < delay_pdf 2 0 1 1 /\ ln_impulse 1 0 1 2 = kappa_c * delay_pdf 2 0 1 1.
Proof.
  split; [apply C61_impulse_is_density; lra|]. split; [apply delay_pdf_pos; lra|].
  apply C61_compiled_impulse; [lra|unfold eps; lra].
Qed.

(* ================= C79 ================= *)
Lemma einf_neg a b : a < 0 -> einf_sign a b = if b then NInf else PInf.
Proof.
  intros. unfold einf_sign. replace (Rltb 0 a) with false by (symmetry; apply Rltb_false; lra).
  now replace (Rltb a 0) with true by (symmetry; apply Rltb_true; lra).
Qed.
Lemma einf_0 b : einf_sign 0 b = NaN.
Proof.
  unfold einf_sign. replace (Rltb 0 0) with false by (symmetry; apply Rltb_false; lra). reflexivity.
Qed.
Lemma einf_pos a b : 0 < a -> einf_sign a b = if b then PInf else NInf.
Proof. intros. unfold einf_sign. now replace (Rltb 0 a) with true by (symmetry; apply Rltb_true; lra). Qed.
Lemma ediv_1_0 : ediv (Fin 1) (Fin 0) = PInf.
Proof. cbn [ediv]. replace (Reqb 0 0) with true by (symmetry; now apply Reqb_true). apply einf_pos. lra. Qed.

Lemma impulse_ends D mu tau : 0 < D -> 0 < tau -> py_impulse D 0 mu tau = NaN /\ py_impulse D D mu tau = NaN.
Proof.
  intros HD Ht. unfold py_impulse. assert (Hn : - tau / 2 < 0) by lra.
  split.
  - rewrite (@ediv_fin 0 D) by lra. replace (0 / D) with 0 by (field; lra). rewrite elog_0.
    rewrite (@esub_fin 1 0), elog_fin by lra.
    replace (0 * (D - 0) / D * sqrt (2 * PI / tau)) with 0 by (field; lra).
    cbv zeta. rewrite ediv_1_0. unfold esub. cbn [eopp eadd emul]. rewrite einf_neg by lra. cbn [eexp emul]. apply einf_0.
  - rewrite (@ediv_fin D D) by lra. replace (D / D) with 1 by (field; lra). rewrite elog_fin by lra.
    rewrite (@esub_fin 1 1). replace (1 - 1) with 0 by lra. rewrite elog_0.
    replace (D * (D - D) / D * sqrt (2 * PI / tau)) with 0 by (field; lra).
    cbv zeta. rewrite ediv_1_0. unfold esub. cbn [eopp eadd emul]. rewrite einf_neg by lra. cbn [eexp emul]. apply einf_0.
Qed.

(** The first and last of the 50 values of [impulses] are NaN, whatever the parameters; so are the first and last values of
    compute_impulses. *)
Theorem C79_impulse_grid_is_density_refuted :
  forall m dt k1 k2, 0 < cm_dtmax m -> 0 < dt -> 0 < cm_tau m k1 k2 ->
    ct_impulses m 0 k1 k2 = NaN /\ ct_impulses m 49 k1 k2 = NaN /\
    ct_compute_impulses m dt 0 k1 k2 = NaN /\ ct_compute_impulses m dt (arange_len (cm_dtmax m) dt) k1 k2 = NaN.
Proof.
  intros m dt k1 k2 HD Hdt Ht. destruct (@impulse_ends (cm_dtmax m) (cm_mu m k1 k2) (cm_tau m k1 k2) HD Ht) as [E0 E1].
  unfold ct_impulses, linspace50, ct_compute_impulses, ct_impulse_grid. cbn [Nat.eqb INR].
  assert (HL := arange_len_pos HD Hdt).
  replace (0 <? arange_len (cm_dtmax m) dt)%nat with true by (symmetry; now apply Nat.ltb_lt).
  rewrite Nat.ltb_irrefl. rewrite !Rmult_0_l. cbn [INR]. rewrite ?Rmult_0_l. auto.
Qed.
(** Every other value is the density at its grid point. *)
Theorem C79_interior_partial :
  forall m dt k1 k2 j, 0 < cm_dtmax m -> 0 < dt -> 0 < cm_tau m k1 k2 -> (0 < j)%nat ->
    ((j < 49)%nat -> ct_impulses m j k1 k2 = Fin (delay_pdf (cm_dtmax m) (cm_mu m k1 k2) (cm_tau m k1 k2) (INR j * (cm_dtmax m / 49)))) /\
    ((j < arange_len (cm_dtmax m) dt)%nat -> ct_compute_impulses m dt j k1 k2 = Fin (delay_pdf (cm_dtmax m) (cm_mu m k1 k2) (cm_tau m k1 k2) (INR j * dt))).
Proof.
  intros m dt k1 k2 j HD Hdt Ht Hj. assert (Hj1 : 1 <= INR j) by (apply (le_INR 1); lia). split; intros Hlt.
  - unfold ct_impulses, linspace50. replace (j =? 49)%nat with false by (symmetry; apply Nat.eqb_neq; lia).
    apply C61_impulse_is_density; [|exact Ht]. assert (INR j <= 48) by (replace 48 with (INR 48) by (cbn; lra); apply le_INR; lia). nra.
  - unfold ct_compute_impulses, ct_impulse_grid. replace (j <? arange_len (cm_dtmax m) dt)%nat with true by (symmetry; now apply Nat.ltb_lt).
    apply C61_impulse_is_density; [|exact Ht]. split; [nra|]. unfold arange_len in Hlt.
    pose proof (ceilZ_spec (cm_dtmax m / dt)) as HC. assert (Hz : (Z.of_nat j + 1 <= ceilZ (cm_dtmax m / dt))%Z) by lia.
    apply IZR_le in Hz. rewrite plus_IZR, <- INR_IZR_INZ in Hz.
    assert (INR j < cm_dtmax m / dt) by lra. apply Rmult_lt_compat_r with (r := dt) in H; [|exact Hdt].
    unfold Rdiv in H. rewrite Rmult_assoc, Rinv_l in H by lra. lra.
Qed.
