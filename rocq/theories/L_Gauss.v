(** * L_Gauss: the Gaussian integral (Coquelicot has none), for "the impulse response is a probability density". *)
From Coq Require Import Reals Lra Lia.
From Coquelicot Require Import Coquelicot.
Open Scope R_scope.

Definition gI (x : R) : R := RInt (fun t => exp (- (t * t))) 0 x.
Definition gf (x t : R) : R := exp (- (x * x * (1 + t * t))) / (1 + t * t).
Definition gJ (x : R) : R := RInt (fun t => gf x t) 0 1.

Lemma cont_gauss t : continuous (fun t => exp (- (t * t))) t.
Proof. apply (ex_derive_continuous (fun t => exp (- (t * t)))). auto_derive. auto. Qed.
Lemma ex_gauss a b : ex_RInt (fun t => exp (- (t * t))) a b.
Proof. apply (ex_RInt_continuous (fun t => exp (- (t * t)))). intros; apply cont_gauss. Qed.

Lemma gI_derive x : is_derive gI x (exp (- (x * x))).
Proof.
  unfold gI. apply (is_derive_RInt (fun t => exp (- (t * t))) gI 0 x); [|apply cont_gauss].
  exists (mkposreal 1 Rlt_0_1). intros y _. unfold gI. apply (RInt_correct (fun t => exp (- (t * t)))). apply ex_gauss.
Qed.

Lemma one_sq t : 0 < 1 + t * t. Proof. nra. Qed.

Lemma gf_derive x t : is_derive (fun u => gf u t) x (- 2 * x * exp (- (x * x * (1 + t * t)))).
Proof. unfold gf. pose proof (one_sq t). auto_derive; [lra|]. field. lra. Qed.
Lemma ex_gf x a b : ex_RInt (fun t => gf x t) a b.
Proof.
  apply (ex_RInt_continuous (fun t => gf x t)). intros t _. apply (ex_derive_continuous (fun t => gf x t)).
  unfold gf. pose proof (one_sq t). auto_derive. lra.
Qed.

Lemma gJ_derive x : is_derive gJ x (- 2 * exp (- (x * x)) * gI x).
Proof.
  assert (E : is_derive gJ x (RInt (fun t => Derive (fun u => gf u t) x) 0 1)).
  { apply is_derive_RInt_param.
    - exists (mkposreal 1 Rlt_0_1). intros y _ t _. eexists. apply gf_derive.
    - intros t _. apply continuity_2d_pt_ext with (f := fun u v => - 2 * u * exp (- (u * u * (1 + v * v)))).
      + intros u v. symmetry. apply is_derive_unique, gf_derive.
      + apply continuity_2d_pt_mult.
        * apply continuity_2d_pt_mult; [apply continuity_2d_pt_const|apply continuity_2d_pt_id1].
        * apply (continuity_1d_2d_pt_comp exp).
          -- apply derivable_continuous_pt, derivable_pt_exp.
          -- apply continuity_2d_pt_opp. apply continuity_2d_pt_mult.
             ++ apply continuity_2d_pt_mult; apply continuity_2d_pt_id1.
             ++ apply continuity_2d_pt_plus; [apply continuity_2d_pt_const|].
                apply continuity_2d_pt_mult; apply continuity_2d_pt_id2.
    - exists (mkposreal 1 Rlt_0_1). intros y _. apply ex_gf. }
  replace (- 2 * exp (- (x * x)) * gI x) with (RInt (fun t => Derive (fun u => gf u t) x) 0 1); [exact E|]. clear E.
  rewrite (RInt_ext _ (fun t => scal (- 2 * exp (- (x * x))) (scal x (exp (- ((x * t) * (x * t))))))).
  - rewrite (RInt_scal (V := R_CompleteNormedModule) (fun t => scal x (exp (- ((x * t) * (x * t)))))).
    + change scal with Rmult. f_equal. unfold gI.
      transitivity (RInt (fun y => exp (- (y * y))) (x * 0) (x * 1)); [|f_equal; ring].
      apply (RInt_comp (V := R_CompleteNormedModule) (fun y => exp (- (y * y))) (fun t => x * t) (fun _ => x) 0 1).
      * intros t _. apply cont_gauss.
      * intros t _. split; [auto_derive; [auto|ring]|apply continuous_const].
    + apply (ex_RInt_continuous (V := R_CompleteNormedModule)). intros t _. apply (ex_derive_continuous (fun t => x * exp (- ((x * t) * (x * t))))).
      auto_derive. auto.
  - intros t _. transitivity (- 2 * x * exp (- (x * x * (1 + t * t)))); [exact (is_derive_unique _ _ _ (gf_derive x t))|].
    change (- 2 * x * exp (- (x * x * (1 + t * t))) = - 2 * exp (- (x * x)) * (x * exp (- (x * t * (x * t))))).
    replace (- (x * x * (1 + t * t))) with (- (x * x) + - (x * t * (x * t))) by ring. rewrite exp_plus. ring.
Qed.

Lemma gJ_0 : gJ 0 = PI / 4.
Proof.
  unfold gJ. rewrite (RInt_ext _ (fun t => / (1 + t ^ 2))).
  - rewrite (is_RInt_unique _ 0 1 (minus (atan 1) (atan 0))).
    + rewrite atan_1, atan_0. unfold minus, plus, opp. cbn. lra.
    + apply (is_RInt_derive atan (fun t => / (1 + t ^ 2))).
      * intros t _. replace (/ (1 + t ^ 2)) with (/ (1 + t²)) by (unfold Rsqr; f_equal; ring). apply is_derive_atan.
      * intros t _. apply (ex_derive_continuous (fun t => / (1 + t ^ 2))). auto_derive. nra.
  - intros t _. unfold gf. assert (E0 : - (0 * 0 * (1 + t * t)) = 0) by ring. rewrite E0, exp_0. pose proof (one_sq t).
    assert (E1 : 1 + t ^ 2 = 1 + t * t) by ring. rewrite E1. unfold Rdiv. apply Rmult_1_l.
Qed.

Lemma gauss_identity x : 0 <= x -> gI x * gI x + gJ x = PI / 4.
Proof.
  intros Hx. destruct (Req_dec x 0) as [->|Hne].
  - assert (E0 : gI 0 = 0) by exact (RInt_point (V := R_CompleteNormedModule) 0 (fun t => exp (- (t * t)))). rewrite E0, gJ_0. lra.
  - assert (H : (fun x => gI x * gI x + gJ x) 0 = (fun x => gI x * gI x + gJ x) x).
    { apply (eq_is_derive (fun x => gI x * gI x + gJ x)); [|lra]. intros t _.
      apply is_derive_ext_loc with (f := fun y => plus (mult (gI y) (gI y)) (gJ y)).
      { exists (mkposreal 1 Rlt_0_1). intros; reflexivity. }
      match goal with |- is_derive _ _ ?z => replace z with (plus (plus (mult (exp (- (t * t))) (gI t)) (mult (gI t) (exp (- (t * t))))) (- 2 * exp (- (t * t)) * gI t)) end.
      2:{ change (exp (- (t * t)) * gI t + gI t * exp (- (t * t)) + - 2 * exp (- (t * t)) * gI t = 0). ring. }
      apply (is_derive_plus (fun y => mult (gI y) (gI y)) gJ).
      - apply (is_derive_mult gI gI); [apply gI_derive|apply gI_derive|]. intros n m. apply Rmult_comm.
      - apply gJ_derive. }
    cbv beta in H. rewrite <- H. assert (E0 : gI 0 = 0) by exact (RInt_point (V := R_CompleteNormedModule) 0 (fun t => exp (- (t * t)))). rewrite E0, gJ_0. lra.
Qed.

Lemma gJ_bound x : 0 <= gJ x <= exp (- (x * x)).
Proof.
  unfold gJ. split.
  - apply RInt_ge_0; [lra|apply ex_gf|]. intros t _. unfold gf. pose proof (one_sq t). left. apply Rdiv_lt_0_compat; [apply exp_pos|lra].
  - replace (exp (- (x * x))) with (RInt (fun _ => exp (- (x * x))) 0 1).
    2:{ rewrite RInt_const. change scal with Rmult. cbn. lra. }
    apply RInt_le; [lra|apply ex_gf|apply ex_RInt_const|]. intros t _. unfold gf. pose proof (one_sq t).
    apply Rle_trans with (exp (- (x * x * (1 + t * t)))).
    + unfold Rdiv. rewrite <- (Rmult_1_r (exp _)) at 2. apply Rmult_le_compat_l; [left; apply exp_pos|].
      rewrite <- Rinv_1. apply Rinv_le_contravar; nra.
    + assert (H0 : - (x * x * (1 + t * t)) <= - (x * x)) by nra. destruct H0 as [H0|H0]; [left; now apply exp_increasing|rewrite H0; lra].
Qed.

Lemma gI_nonneg x : 0 <= x -> 0 <= gI x.
Proof. intros. unfold gI. apply RInt_ge_0; [auto|apply ex_gauss|]. intros; left; apply exp_pos. Qed.
Lemma gI_odd x : gI (- x) = - gI x.
Proof.
  unfold gI. assert (H := RInt_comp (V := R_CompleteNormedModule) (fun y => exp (- (y * y))) (fun t => - t) (fun _ => - 1) 0 x).
  cbn beta in H. rewrite Ropp_0 in H. rewrite <- H; clear H.
  - rewrite (RInt_ext _ (fun t => scal (-1) (exp (- (t * t))))).
    + rewrite (RInt_scal (V := R_CompleteNormedModule)) by apply ex_gauss. change scal with Rmult. cbn. lra.
    + intros t _. change scal with Rmult. cbn. f_equal. f_equal. ring.
  - intros t _. apply cont_gauss.
  - intros t _. split; [auto_derive; [auto|ring]|apply continuous_const].
Qed.

(** 0 <= sqrt(pi)/2 - I(x) <= 2 exp(-x^2) / sqrt(pi), hence convergence; we only need the squeeze. *)
Lemma exp_le_1 y : 0 <= y -> exp (- y) <= / (1 + y).
Proof.
  intros H. rewrite exp_Ropp. apply Rinv_le_contravar; [lra|]. pose proof (exp_ineq1_le y). lra.
Qed.
Lemma gI_limit : is_lim gI p_infty (sqrt PI / 2).
Proof.
  pose proof PI_RGT_0 as HPI.
  assert (HS : 0 < sqrt PI) by (apply sqrt_lt_R0; lra).
  apply is_lim_le_le_loc with (f := fun x => sqrt PI / 2 - 2 / sqrt PI * exp (- (x * x))) (g := fun x => sqrt PI / 2).
  - exists 0. intros x Hx. pose proof (gauss_identity x ltac:(lra)) as E. pose proof (gJ_bound x) as HJ. pose proof (gI_nonneg x ltac:(lra)) as HI.
    assert (Hsq : (sqrt PI / 2) * (sqrt PI / 2) = PI / 4) by (pose proof (sqrt_sqrt PI ltac:(lra)); nra).
    split.
    + assert ((sqrt PI / 2 - gI x) * (sqrt PI / 2 + gI x) = gJ x) by nra.
      assert (Hd : (sqrt PI / 2 - gI x) * (sqrt PI / 2) <= exp (- (x * x))).
      { destruct (Rle_dec 0 (sqrt PI / 2 - gI x)); [nra|]. pose proof (exp_pos (- (x * x))). nra. }
      assert (Hd2 : sqrt PI / 2 - gI x <= 2 / sqrt PI * exp (- (x * x))); [|lra].
      apply Rmult_le_reg_r with (sqrt PI / 2); [lra|]. replace (2 / sqrt PI * exp (- (x * x)) * (sqrt PI / 2)) with (exp (- (x * x))) by (field; lra).
      exact Hd.
    + destruct (Rle_dec (gI x) (sqrt PI / 2)); [auto|]. nra.
  - replace (Finite (sqrt PI / 2)) with (Finite (sqrt PI / 2 - 2 / sqrt PI * 0)) by (f_equal; ring).
    apply (is_lim_minus' (fun _ => sqrt PI / 2) (fun x => 2 / sqrt PI * exp (- (x * x)))); [apply is_lim_const|].
    apply (is_lim_scal_l (fun x => exp (- (x * x))) (2 / sqrt PI) p_infty 0).
    apply is_lim_le_le_loc with (f := fun _ => 0) (g := fun x => / x).
    + exists 1. intros x Hx. split; [left; apply exp_pos|]. apply Rle_trans with (/ (1 + x * x)); [apply exp_le_1; nra|].
      apply Rinv_le_contravar; nra.
    + apply is_lim_const.
    + replace (Finite 0) with (Rbar_inv p_infty) by reflexivity. apply (is_lim_inv (fun x => x)); [apply is_lim_id|discriminate].
  - apply is_lim_const.
Qed.
Lemma gI_limit_m : is_lim gI m_infty (- (sqrt PI / 2)).
Proof.
  apply is_lim_ext with (f := fun x => - gI (- x)).
  - intros y. rewrite gI_odd. ring.
  - apply (is_lim_opp (fun x => gI (- x)) m_infty (sqrt PI / 2)). 
    apply (is_lim_comp gI (fun x => - x) m_infty (sqrt PI / 2) p_infty).
    + apply gI_limit.
    + apply (is_lim_opp (fun x => x) m_infty m_infty). apply is_lim_id.
    + exists 0. intros; discriminate.
Qed.
