(** * L_Moments: means of 1, x, ln x (and ln (1-x)) under the gamma and beta densities, as improper integrals. *)
From Coquelicot Require Import Coquelicot.
From Verif Require Import Prelude Spec_Gibbs Spec_Gamma Spec_Moments L_Gamma L_Euler.
Set Implicit Arguments.
Open Scope R_scope.

Section Moment.
Variable Hi : R -> Prop.
Hypothesis Hdown : forall x y, Hi y -> x <= y -> Hi x.
Variable Fb : (R -> Prop) -> Prop.
Hypothesis FF : ProperFilter Fb.
Hypothesis HF : forall y, 0 < y -> Hi y -> Fb (fun z => y <= z /\ Hi z).
Variable x0 : R.
Hypothesis Hx0 : 0 < x0 /\ Hi x0.
Variable w : R -> R.
Hypothesis Hnice : forall a, 0 < a -> nice Hi (kern_of w a).
Variable T : R -> R.
Hypothesis HT : forall a, 0 < a -> total Hi (kern_of w a) (T a).

Lemma near_window : filter_prod (at_right 0) Fb (fun ab => forall x, Rmin (fst ab) (snd ab) < x < Rmax (fst ab) (snd ab) -> 0 < x).
Proof.
  destruct Hx0 as (Hp & Hh). apply Filter_prod with (fun x => 0 < x) (fun y => x0 <= y /\ Hi y).
  - exists posreal_one. intros y _ Hy. exact Hy.
  - now apply HF.
  - intros a b Ha (Hb & _) x Hx. cbn [fst snd] in Hx. assert (0 < b) by lra. apply Rlt_trans with (Rmin a b); [apply Rmin_glb_lt; auto|apply Hx].
Qed.

Lemma gen_nonneg f l : is_RInt_gen f (at_right 0) Fb l -> (forall x, 0 < x -> Hi x -> 0 <= f x) -> 0 <= l.
Proof.
  intros H Hf. destruct (Rle_lt_dec 0 l) as [|Hl]; [auto|]. exfalso.
  assert (Hp : 0 < - l) by lra. destruct (H (fun v => Rabs (v - l) < - l)) as [P Q HP HQ HPQ].
  { exists (mkposreal _ Hp). intros v Hv. exact Hv. }
  destruct Hx0 as (H0 & Hh). assert (HP' : at_right 0 (fun x => P x /\ 0 < x <= x0)).
  { apply filter_and; [exact HP|]. exists (mkposreal x0 H0). intros y Hy Hy0. unfold ball in Hy. cbn in Hy. unfold AbsRing_ball, abs, minus, plus, opp in Hy. cbn in Hy. rewrite Rabs_pos_eq in Hy by lra. lra. }
  assert (HQ' : Fb (fun y => Q y /\ (x0 <= y /\ Hi y))) by (apply filter_and; [exact HQ|now apply HF]).
  destruct (@filter_ex _ (at_right 0) (at_right_proper_filter 0) _ HP') as (x & Hx & Hx').
  destruct (@filter_ex _ Fb FF _ HQ') as (y & Hy & Hy').
  destruct (HPQ x y Hx Hy) as (v & Hv & Hb). cbn [fst snd] in Hv. assert (0 <= v).
  { apply (is_RInt_ge_0 f x y v); [lra|exact Hv|]. intros z Hz. apply Hf; [lra|]. apply Hdown with y; [tauto|lra]. }
  apply Rabs_def2 in Hb. lra.
Qed.

(** The integral of ln x against the kernel is the derivative of the total in the exponent. *)
Lemma log_moment a d : 0 < a -> derivable_pt_lim T a d -> is_RInt_gen (fun x => ln x * kern_of w a x) (at_right 0) Fb d.
Proof.
  intros Ha Hd.
  assert (Hk : forall h x, kern_of w (a + h) x = kern_of w a x * exp (h * ln x)) by (intros h x; unfold kern_of; rewrite <- exp_plus; f_equal; ring).
  assert (Hexp : forall u, 1 + u <= exp u) by (intros u; destruct (Req_dec u 0) as [->|Hu]; [rewrite exp_0; lra|apply Rlt_le; now apply exp_ineq1]).
  set (phi := fun h x => (kern_of w (a + h) x - kern_of w a x) / h - ln x * kern_of w a x + kern_of w a x).
  assert (Hphi : forall h x, 0 < h < a -> 0 < x -> Hi x -> 0 < phi h x /\
     phi h x <= (kern_of w (a + h) x - 2 * kern_of w a x + kern_of w (a - h) x) / h + kern_of w a x).
  { intros h x Hh Hx HHx. destruct (Hnice Ha Hx HHx) as (_ & Hp). unfold phi, Rminus at 6. rewrite !Hk. fold (a - h).
    set (k := kern_of w a x) in *. set (u := h * ln x).
    assert (El : ln x = u / h) by (unfold u; field; lra).
    assert (H1 : 0 <= (exp u - 1 - u) / h) by (apply Rmult_le_pos; [specialize (Hexp u); lra|apply Rlt_le, Rinv_0_lt_compat; lra]).
    assert (H2 : 0 <= (exp (- u) - 1 + u) / h) by (apply Rmult_le_pos; [specialize (Hexp (- u)); lra|apply Rlt_le, Rinv_0_lt_compat; lra]).
    rewrite El. replace (- h * (u / h)) with (- u) by (field; lra). replace (h * (u / h)) with u by (field; lra). split.
    - replace ((k * exp u - k) / h - u / h * k + k) with (k * ((exp u - 1 - u) / h) + k) by (field; lra).
      assert (0 <= k * ((exp u - 1 - u) / h)) by (apply Rmult_le_pos; lra). lra.
    - assert (0 <= k * ((exp (- u) - 1 + u) / h)) by (apply Rmult_le_pos; lra).
      replace ((k * exp u - 2 * k + k * exp (- u)) / h + k) with (((k * exp u - k) / h - u / h * k + k) + k * ((exp (- u) - 1 + u) / h)) by (field; lra). lra. }
  assert (Hni : forall h, 0 < h < a -> nice Hi (phi h)).
  { intros h Hh x Hx HHx. split; [|now apply Hphi]. unfold phi.
    destruct (Hnice Ha Hx HHx) as (C1 & _). destruct (@Hnice (a + h) ltac:(lra) x Hx HHx) as (C2 & _).
    apply (continuous_plus (V := R_NormedModule)); [|exact C1]. apply (continuous_minus (V := R_NormedModule)).
    - unfold Rdiv. apply (continuous_mult (K := R_AbsRing) (fun y => kern_of w (a + h) y - kern_of w a y) (fun _ => / h)); [|apply continuous_const].
      apply (continuous_minus (V := R_NormedModule)); assumption.
    - apply (continuous_mult (K := R_AbsRing) ln); [|exact C1]. apply (ex_derive_continuous ln). auto_derive. lra. }
  assert (Hint : forall f x y, nice Hi f -> 0 < x -> x <= y -> Hi y -> is_RInt f x y (RInt f x y)).
  { intros f x y Hf Hx Hxy Hy. apply (RInt_correct (V := R_CompleteNormedModule)). eapply nice_int; eauto. }
  set (up := fun h => (T (a + h) - T a) / h). set (dn := fun h => (T a - T (a - h)) / h).
  assert (Hval : forall h, 0 < h < a -> exists D, is_RInt_gen (fun x => ln x * kern_of w a x) (at_right 0) Fb D /\ D <= up h).
  { intros h Hh. destruct (@total_exists Hi (phi h) ((T (a + h) + T (a - h)) / h + T a) x0 (Hni h Hh)) as (l & Hl); try tauto.
    { intros x y Hx Hxy Hy.
      apply Rle_trans with ((RInt (kern_of w (a + h)) x y - 2 * RInt (kern_of w a) x y + RInt (kern_of w (a - h)) x y) / h + RInt (kern_of w a) x y).
      - apply (@is_RInt_le (phi h) (fun x => (kern_of w (a + h) x - 2 * kern_of w a x + kern_of w (a - h) x) / h + kern_of w a x) x y); auto.
        + apply (is_RInt_plus (V := R_NormedModule)); [|apply Hint; auto]. unfold Rdiv. 
          apply (is_RInt_ext (V := R_NormedModule) (fun x => / h * (kern_of w (a + h) x - 2 * kern_of w a x + kern_of w (a - h) x))); [intros; apply Rmult_comm|].
          rewrite Rmult_comm. apply (is_RInt_scal (V := R_NormedModule)). apply (is_RInt_plus (V := R_NormedModule)); [apply (is_RInt_minus (V := R_NormedModule)); [|apply (is_RInt_scal (V := R_NormedModule))]|];
          apply Hint; auto; apply Hnice; lra.
        + intros z Hz. apply Hphi; auto; [lra|]. apply Hdown with y; auto; lra.
      - pose proof (@total_ge Hi _ _ x y (@HT (a + h) ltac:(lra)) Hx Hxy Hy). pose proof (@total_ge Hi _ _ x y (@HT (a - h) ltac:(lra)) Hx Hxy Hy). pose proof (@total_ge Hi _ _ x y (@HT a Ha) Hx Hxy Hy).
        assert (0 <= RInt (kern_of w a) x y). { apply RInt_ge_0; [auto|eapply nice_int; eauto|]. intros z Hz. apply Rlt_le, Hnice; [auto|lra|]. apply Hdown with y; auto; lra. }
        apply Rplus_le_compat; [|auto]. apply Rmult_le_compat_r; [apply Rlt_le, Rinv_0_lt_compat; lra|]. lra. }
    exists (up h - (l - T a)). split.
    - pose proof (@total_gen Hi Hdown Fb FF _ _ HF (Hni h Hh) Hl) as G1. pose proof (@total_gen Hi Hdown Fb FF _ _ HF (@Hnice a Ha) (@HT a Ha)) as G2.
      pose proof (@total_gen Hi Hdown Fb FF _ _ HF (@Hnice (a + h) ltac:(lra)) (@HT (a + h) ltac:(lra))) as G3.
      pose proof (is_RInt_gen_minus (V := R_NormedModule) _ _ _ _ G3 G2) as G4. apply (is_RInt_gen_scal (V := R_NormedModule) _ (/ h)) in G4.
      pose proof (is_RInt_gen_minus (V := R_NormedModule) _ _ _ _ G4 (is_RInt_gen_minus (V := R_NormedModule) _ _ _ _ G1 G2)) as G5.
      match type of G5 with is_RInt_gen _ _ _ ?v => assert (Ev : v = up h - (l - T a)) end.
      { change (/ h * (T (a + h) - T a) - (l - T a) = up h - (l - T a)). unfold up, Rdiv. ring. }
      rewrite <- Ev. refine (is_RInt_gen_ext (V := R_NormedModule) _ _ _ _ G5). apply filter_forall. intros ab x Hx.
      change (/ h * (kern_of w (a + h) x - kern_of w a x) - (phi h x - kern_of w a x) = ln x * kern_of w a x). unfold phi, Rdiv. ring.
    - assert (T a <= l); [|lra]. apply total_le with (1 := HT Ha). intros x y Hx Hxy Hy. apply Rle_trans with (2 := @total_ge Hi _ _ x y Hl Hx Hxy Hy).
      apply (@is_RInt_le (kern_of w a) (phi h) x y); auto.
      intros z Hz. assert (HHz : Hi z) by (apply Hdown with y; auto; lra). destruct (Hnice Ha (x := z) ltac:(lra) HHz) as (_ & Hp). unfold phi. rewrite Hk.
      set (k := kern_of w a z) in *. set (u := h * ln z). replace (ln z) with (u / h) by (unfold u; field; lra).
      assert (H1 : 0 <= (exp u - 1 - u) / h) by (apply Rmult_le_pos; [specialize (Hexp u); lra|apply Rlt_le, Rinv_0_lt_compat; lra]).
      assert (0 <= k * ((exp u - 1 - u) / h)) by (apply Rmult_le_pos; lra).
      replace ((k * exp u - k) / h - u / h * k + k) with (k * ((exp u - 1 - u) / h) + k) by (field; lra). lra. }
  destruct (Hval (a / 2) ltac:(lra)) as (D & HD & _).
  assert (Hup : forall h, 0 < h < a -> D <= up h).
  { intros h Hh. destruct (Hval h Hh) as (D' & HD' & Hle). now rewrite (@gen_unique Fb FF _ _ _ HD HD'). }
  assert (Hdn : forall h, 0 < h < a -> dn h <= D).
  { intros h Hh. pose proof (@total_gen Hi Hdown Fb FF _ _ HF (@Hnice a Ha) (@HT a Ha)) as G2.
    pose proof (@total_gen Hi Hdown Fb FF _ _ HF (@Hnice (a - h) ltac:(lra)) (@HT (a - h) ltac:(lra))) as G3.
    pose proof (is_RInt_gen_minus (V := R_NormedModule) _ _ _ _ G2 G3) as G4. apply (is_RInt_gen_scal (V := R_NormedModule) _ (/ h)) in G4.
    pose proof (is_RInt_gen_minus (V := R_NormedModule) _ _ _ _ HD G4) as G5. apply gen_nonneg in G5.
    - change (0 <= D - / h * (T a - T (a - h))) in G5. unfold dn, Rdiv. lra.
    - intros x Hx HHx. change (0 <= ln x * kern_of w a x - / h * (kern_of w a x - kern_of w (a + - h) x)). rewrite Hk. destruct (Hnice Ha Hx HHx) as (_ & Hp).
      set (k := kern_of w a x) in *. replace (- h * ln x) with (- (h * ln x)) by ring. set (u := h * ln x). replace (ln x) with (u / h) by (unfold u; field; lra).
      replace (u / h * k - / h * (k - k * exp (- u))) with (k * ((exp (- u) - 1 + u) / h)) by (field; lra).
      apply Rmult_le_pos; [lra|]. apply Rmult_le_pos; [specialize (Hexp (- u)); lra|apply Rlt_le, Rinv_0_lt_compat; lra]. }
  assert (E : D = d); [|now rewrite <- E].
  apply cond_eq. intros eps He. destruct (Hd eps He) as (del & Hdel). pose proof (cond_pos del).
  set (h := Rmin (a / 2) (del / 2)). assert (Hh : 0 < h) by (apply Rmin_pos; lra). pose proof (Rmin_l (a / 2) (del / 2)) as M1. pose proof (Rmin_r (a / 2) (del / 2)) as M2. fold h in M1, M2.
  pose proof (Hdel h ltac:(lra) ltac:(rewrite Rabs_pos_eq; lra)) as B1. pose proof (Hdel (- h) ltac:(lra) ltac:(rewrite Rabs_left; lra)) as B2.
  pose proof (Hup h ltac:(lra)) as U. pose proof (Hdn h ltac:(lra)) as W. unfold up, dn in *. fold (a - h) in B2.
  replace ((T (a - h) - T a) / - h) with ((T a - T (a - h)) / h) in B2 by (field; lra). apply Rabs_def2 in B1. apply Rabs_def2 in B2. apply Rabs_def1; lra.
Qed.
End Moment.

(** ** Linear algebra of improper integrals *)
Lemma gen_lin (Fa Fb : (R -> Prop) -> Prop) {FFa : Filter Fa} {FFb : Filter Fb} (f g : R -> R) (lf lg c d : R) :
  is_RInt_gen f Fa Fb lf -> is_RInt_gen g Fa Fb lg -> is_RInt_gen (fun x => c * f x + d * g x) Fa Fb (c * lf + d * lg).
Proof.
  intros Hf Hg. apply (is_RInt_gen_plus (V := R_NormedModule) (fun x => c * f x) (fun x => d * g x) (c * lf) (d * lg));
  [exact (is_RInt_gen_scal (V := R_NormedModule) f c lf Hf)|exact (is_RInt_gen_scal (V := R_NormedModule) g d lg Hg)].
Qed.
Lemma total_scal (Hi : R -> Prop) (f : R -> R) (l c : R) : 0 < c -> (forall x y, 0 < x -> x <= y -> Hi y -> ex_RInt f x y) -> total Hi f l -> total Hi (fun x => c * f x) (c * l).
Proof.
  intros Hc Hex (H1 & H2).
  assert (E : forall x y, 0 < x -> x <= y -> Hi y -> RInt (fun x => c * f x) x y = c * RInt f x y).
  { intros x y Hx Hxy Hy. apply (@is_RInt_unique R_CompleteNormedModule). apply (is_RInt_scal (V := R_NormedModule)). apply (RInt_correct (V := R_CompleteNormedModule)). auto. }
  split.
  - intros v (x & y & Hx & Hxy & Hy & ->). rewrite E by auto. apply Rmult_le_compat_l; [lra|]. apply H1. now exists x, y.
  - intros B HB. apply Rmult_le_reg_l with (/ c); [now apply Rinv_0_lt_compat|]. rewrite <- Rmult_assoc, Rinv_l, Rmult_1_l by lra. apply H2. intros v (x & y & Hx & Hxy & Hy & ->).
    apply Rmult_le_reg_l with c; [auto|]. rewrite <- (Rmult_assoc c), Rinv_r, Rmult_1_l, <- E by (auto; lra). apply HB. now exists x, y.
Qed.

(** ** Gamma *)
Definition gw (b x : R) : R := - (b * x).
Definition gT (b a : R) : R := exp (log_gamma a - a * ln b).
Lemma gw_kern a b x : kern_of (gw b) a x = gT b a * exp (gamma_lpdf log_gamma a b x).
Proof. unfold kern_of, gT, gw, gamma_lpdf. rewrite <- exp_plus. f_equal. ring. Qed.
Lemma gw_nice b a : 0 < a -> nice everywhere (kern_of (gw b) a).
Proof. intros _ x Hx _. split; [|apply exp_pos]. apply (ex_derive_continuous (kern_of (gw b) a)). unfold kern_of, gw. auto_derive. lra. Qed.
Lemma gw_total b a : 0 < b -> 0 < a -> total everywhere (kern_of (gw b) a) (gT b a).
Proof.
  intros Hb Ha. destruct (@gamma_density_total a b Ha Hb) as (Hn & Ht).
  assert (H : total everywhere (fun x => gT b a * exp (gamma_lpdf log_gamma a b x)) (gT b a * 1)).
  { apply total_scal; [apply exp_pos| |exact Ht]. intros x y Hx Hxy Hy. exact (@nice_int everywhere everywhere_down _ x y Hn Hx Hxy Hy). }
  rewrite Rmult_1_r in H. destruct H as (H1 & H2).
  assert (E : forall x y, RInt (kern_of (gw b) a) x y = RInt (fun x => gT b a * exp (gamma_lpdf log_gamma a b x)) x y) by (intros x y; apply RInt_ext; intros z _; apply gw_kern).
  split.
  - intros v (x & y & Hx & Hxy & Hy & ->). apply H1. exists x, y. auto.
  - intros B HB. apply H2. intros v (x & y & Hx & Hxy & Hy & ->). apply HB. exists x, y. auto.
Qed.
Lemma gT_d b a : 0 < a -> derivable_pt_lim (gT b) a (gT b a * (digamma a - ln b)).
Proof.
  intros Ha. apply is_derive_Reals. unfold gT. rewrite Rmult_comm.
  apply (is_derive_comp exp (fun a => log_gamma a - a * ln b)); [apply is_derive_Reals, derivable_pt_lim_exp|].
  apply (is_derive_minus (V := R_NormedModule)); [apply is_derive_Reals; now apply log_gamma_derive|]. auto_derive; [auto|ring].
Qed.
Theorem gamma_law_log a b : 0 < a -> 0 < b -> gamma_law a b ln (digamma a - ln b).
Proof.
  intros Ha Hb.
  pose proof (@log_moment everywhere everywhere_down (Rbar_locally p_infty) (Rbar_locally_filter p_infty) everywhere_lim 1 (conj Rlt_0_1 I) (gw b) (@gw_nice b) (gT b) (fun a => @gw_total b a Hb) a _ Ha (@gT_d b a Ha)) as H.
  apply (is_RInt_gen_scal (V := R_NormedModule)) with (k := / gT b a) in H. unfold gamma_law. assert (Hp : 0 < gT b a) by apply exp_pos.
  match type of H with is_RInt_gen _ _ _ ?v => assert (E1 : v = digamma a - ln b) end.
  { change (/ gT b a * (gT b a * (digamma a - ln b)) = digamma a - ln b). field. lra. }
  rewrite E1 in H. refine (is_RInt_gen_ext (V := R_NormedModule) _ _ _ _ H). apply filter_forall. intros ab x _.
  change (/ gT b a * (ln x * kern_of (gw b) a x) = exp (gamma_lpdf log_gamma a b x) * ln x). rewrite gw_kern. field. lra.
Qed.
Theorem gamma_law_one a b : 0 < a -> 0 < b -> gamma_law a b (fun _ => 1) 1.
Proof.
  intros Ha Hb. refine (is_RInt_gen_ext (V := R_NormedModule) _ _ _ _ (@gamma_density_normalised a b Ha Hb)). apply filter_forall. intros ab x _. cbv beta. symmetry. apply Rmult_1_r.
Qed.
Theorem gamma_law_id a b : 0 < a -> 0 < b -> gamma_law a b (fun x => x) (a / b).
Proof.
  intros Ha Hb. pose proof (@gamma_density_normalised (a + 1) b ltac:(lra) Hb) as H.
  apply (is_RInt_gen_scal (V := R_NormedModule)) with (k := a / b) in H.
  match type of H with is_RInt_gen _ _ _ ?v => assert (E1 : v = a / b) by (apply Rmult_1_r) end.
  rewrite E1 in H. refine (is_RInt_gen_ext (V := R_NormedModule) _ _ _ _ H). apply filter_imp with (2 := near_pos). intros (x, y) (Hx & Hy) z Hz. cbn [fst snd] in *.
  assert (Hz' : 0 < z) by (apply Rlt_trans with (Rmin x y); [apply Rmin_glb_lt; auto|apply Hz]).
  change (a / b * exp (gamma_lpdf log_gamma (a + 1) b z) = exp (gamma_lpdf log_gamma a b z) * z).
  rewrite <- (exp_ln (a / b)) by (apply Rdiv_lt_0_compat; auto). rewrite <- (exp_ln z Hz') at 3. rewrite <- !exp_plus. f_equal. unfold gamma_lpdf. rewrite log_gamma_step, ln_div by auto. ring.
Qed.
(** Every log-linear statistic. *)
Theorem gamma_law_loglinear a b c0 c1 c2 f : 0 < a -> 0 < b -> (forall x, 0 < x -> f x = c0 + c1 * ln x + c2 * x) ->
  gamma_law a b f (c0 + c1 * (digamma a - ln b) + c2 * (a / b)).
Proof.
  intros Ha Hb Hf. unfold gamma_law.
  pose proof (@gen_lin _ _ _ _ _ _ _ _ c0 c1 (@gamma_law_one a b Ha Hb) (@gamma_law_log a b Ha Hb)) as H1.
  pose proof (@gen_lin _ _ _ _ _ _ _ _ 1 c2 H1 (@gamma_law_id a b Ha Hb)) as H2.
  match type of H2 with is_RInt_gen _ _ _ ?v => replace (c0 + c1 * (digamma a - ln b) + c2 * (a / b)) with v by ring end.
  refine (is_RInt_gen_ext (V := R_NormedModule) _ _ _ _ H2). apply filter_imp with (2 := near_pos). intros (x, y) (Hx & Hy) z Hz. cbn [fst snd] in *.
  rewrite Hf; [match goal with |- @eq _ ?s ?t => change (@eq R s t) end; ring|]. apply Rlt_trans with (Rmin x y); [apply Rmin_glb_lt; auto|apply Hz].
Qed.

(** ** Beta *)
Definition bT (b a : R) : R := exp (log_gamma a + log_gamma b - log_gamma (a + b)).
Lemma bw_kern a b x : bk b a x = bT b a * exp (beta_lpdf log_gamma a b x).
Proof. unfold bk, kern_of, bT, beta_lpdf. rewrite <- exp_plus. f_equal. ring. Qed.
Lemma bw_total b a : 0 < b -> 0 < a -> total below1 (bk b a) (bT b a).
Proof. intros Hb Ha. unfold bT. rewrite <- bval_log, exp_ln by auto using bval_pos. now apply bval_total. Qed.
Lemma bT_d b a : 0 < b -> 0 < a -> derivable_pt_lim (bT b) a (bT b a * (digamma a - digamma (a + b))).
Proof.
  intros Hb Ha. apply is_derive_Reals. unfold bT. rewrite Rmult_comm.
  apply (is_derive_comp exp (fun a => log_gamma a + log_gamma b - log_gamma (a + b))); [apply is_derive_Reals, derivable_pt_lim_exp|].
  apply (is_derive_minus (V := R_NormedModule)).
  - replace (digamma a) with (plus (digamma a) zero) by apply plus_zero_r. apply (is_derive_plus (V := R_NormedModule)); [apply is_derive_Reals; now apply log_gamma_derive|apply @is_derive_const].
  - replace (digamma (a + b)) with (1 * digamma (a + b)) by ring. apply (is_derive_comp log_gamma (fun a => a + b)); [apply is_derive_Reals; apply log_gamma_derive; lra|]. auto_derive; [auto|ring].
Qed.
Lemma half_below : 0 < 1 / 2 /\ below1 (1 / 2).
Proof. unfold below1. lra. Qed.
Theorem beta_law_log a b : 0 < a -> 0 < b -> beta_law a b ln (digamma a - digamma (a + b)).
Proof.
  intros Ha Hb.
  pose proof (@log_moment below1 below1_down (at_left 1) (at_left_proper_filter 1) below1_lim (1/2) half_below (fun x => (b - 1) * ln (1 - x)) (fun a _ => @bk_nice b a) (bT b) (fun a => @bw_total b a Hb) a _ Ha (@bT_d b a Hb Ha)) as H.
  apply (is_RInt_gen_scal (V := R_NormedModule)) with (k := / bT b a) in H. unfold beta_law. assert (Hp : 0 < bT b a) by apply exp_pos.
  match type of H with is_RInt_gen _ _ _ ?v => assert (E1 : v = digamma a - digamma (a + b)) end.
  { change (/ bT b a * (bT b a * (digamma a - digamma (a + b))) = digamma a - digamma (a + b)). field. lra. }
  rewrite E1 in H. refine (is_RInt_gen_ext (V := R_NormedModule) _ _ _ _ H). apply filter_forall. intros ab x _.
  change (/ bT b a * (ln x * bk b a x) = exp (beta_lpdf log_gamma a b x) * ln x). rewrite bw_kern. field. lra.
Qed.
Lemma gen_flip (f : R -> R) (l : R) : is_RInt_gen f (at_right 0) (at_left 1) l -> is_RInt_gen (fun x => f (1 - x)) (at_right 0) (at_left 1) l.
Proof.
  intros H S HS. destruct (H S HS) as [P Q HP HQ HPQ]. apply Filter_prod with (fun x => Q (1 - x)) (fun y => P (1 - y)).
  - destruct HQ as (e & He). exists e. intros y Hy H0. apply He; [|lra]. unfold ball in *. cbn in *. unfold AbsRing_ball, abs, minus, plus, opp in *. cbn in *.
    replace (1 - y + - (1)) with (- (y + - 0)) by ring. now rewrite Rabs_Ropp.
  - destruct HP as (e & He). exists e. intros y Hy H0. apply He; [|lra]. unfold ball in *. cbn in *. unfold AbsRing_ball, abs, minus, plus, opp in *. cbn in *.
    replace (1 - y + - 0) with (- (y + - (1))) by ring. now rewrite Rabs_Ropp.
  - intros x y Hx Hy. destruct (HPQ _ _ Hy Hx) as (v & Hv & Hs). exists v. split; [|exact Hs]. cbn [fst snd] in *.
    apply (is_RInt_swap (V := R_NormedModule)) in Hv. replace (1 - x) with (-1 * x + 1) in Hv by ring. replace (1 - y) with (-1 * y + 1) in Hv by ring.
    apply (is_RInt_comp_lin (V := R_NormedModule)) in Hv. apply (is_RInt_opp (V := R_NormedModule)) in Hv. rewrite opp_opp in Hv.
    refine (is_RInt_ext (V := R_NormedModule) _ _ _ _ _ _ Hv). intros z _. change (- (-1 * f (-1 * z + 1)) = f (1 - z)). replace (-1 * z + 1) with (1 - z) by ring. ring.
Qed.
Theorem beta_law_log1m a b : 0 < a -> 0 < b -> beta_law a b (fun x => ln (1 - x)) (digamma b - digamma (a + b)).
Proof.
  intros Ha Hb. pose proof (gen_flip (@beta_law_log b a Hb Ha)) as H. rewrite (Rplus_comm b a) in H.
  refine (is_RInt_gen_ext (V := R_NormedModule) _ _ _ _ H). apply filter_forall. intros ab x _. f_equal. f_equal. unfold beta_lpdf.
  replace (1 - (1 - x)) with x by ring. rewrite (Rplus_comm b a). ring.
Qed.
Theorem beta_law_one a b : 0 < a -> 0 < b -> beta_law a b (fun _ => 1) 1.
Proof.
  intros Ha Hb. refine (is_RInt_gen_ext (V := R_NormedModule) _ _ _ _ (@beta_density_normalised a b Ha Hb)). apply filter_forall. intros ab x _. cbv beta. symmetry. apply Rmult_1_r.
Qed.
Theorem beta_law_id a b : 0 < a -> 0 < b -> beta_law a b (fun x => x) (a / (a + b)).
Proof.
  intros Ha Hb. pose proof (@beta_density_normalised (a + 1) b ltac:(lra) Hb) as H.
  apply (is_RInt_gen_scal (V := R_NormedModule)) with (k := a / (a + b)) in H.
  match type of H with is_RInt_gen _ _ _ ?v => assert (E1 : v = a / (a + b)) by (apply Rmult_1_r) end.
  rewrite E1 in H. refine (is_RInt_gen_ext (V := R_NormedModule) _ _ _ _ H). apply filter_imp with (2 := near_unit). intros (x, y) (Hx & Hy) z Hz. cbn [fst snd] in *.
  assert (Hz' : 0 < z < 1) by (unfold Rmin, Rmax in Hz; destruct (Rle_dec x y); lra).
  change (a / (a + b) * exp (beta_lpdf log_gamma (a + 1) b z) = exp (beta_lpdf log_gamma a b z) * z).
  rewrite <- (exp_ln (a / (a + b))) by (apply Rdiv_lt_0_compat; lra). rewrite <- (exp_ln z) at 3 by lra. rewrite <- !exp_plus. f_equal. unfold beta_lpdf.
  replace (a + 1 + b) with (a + b + 1) by ring. rewrite !log_gamma_step, ln_div by lra. ring.
Qed.
Theorem beta_law_loglinear a b c0 c1 c2 f : 0 < a -> 0 < b -> (forall x, 0 < x < 1 -> f x = c0 + c1 * ln x + c2 * ln (1 - x)) ->
  beta_law a b f (c0 + c1 * (digamma a - digamma (a + b)) + c2 * (digamma b - digamma (a + b))).
Proof.
  intros Ha Hb Hf. unfold beta_law.
  pose proof (@gen_lin _ _ _ _ _ _ _ _ c0 c1 (@beta_law_one a b Ha Hb) (@beta_law_log a b Ha Hb)) as H1.
  pose proof (@gen_lin _ _ _ _ _ _ _ _ 1 c2 H1 (@beta_law_log1m a b Ha Hb)) as H2.
  match type of H2 with is_RInt_gen _ _ _ ?v => replace (c0 + c1 * (digamma a - digamma (a + b)) + c2 * (digamma b - digamma (a + b))) with v by ring end.
  refine (is_RInt_gen_ext (V := R_NormedModule) _ _ _ _ H2). apply filter_imp with (2 := near_unit). intros (x, y) (Hx & Hy) z Hz. cbn [fst snd] in *.
  rewrite Hf; [match goal with |- @eq _ ?s ?t => change (@eq R s t) end; ring|]. unfold Rmin, Rmax in Hz; destruct (Rle_dec x y); lra.
Qed.

Lemma gamma_law_ext a b f g v : (forall x, 0 < x -> f x = g x) -> gamma_law a b f v -> gamma_law a b g v.
Proof.
  intros H. apply (is_RInt_gen_ext (V := R_NormedModule)). apply filter_imp with (2 := near_pos). intros (x, y) (Hx & Hy) z Hz. cbn [fst snd] in *.
  rewrite H; [reflexivity|]. apply Rlt_trans with (Rmin x y); [apply Rmin_glb_lt; auto|apply Hz].
Qed.
Lemma gamma_law_opp a b f v : gamma_law a b f v -> gamma_law a b (fun x => - f x) (- v).
Proof.
  intros H. unfold gamma_law in *. apply (is_RInt_gen_opp (V := R_NormedModule)) in H. refine (is_RInt_gen_ext (V := R_NormedModule) _ _ _ _ H).
  apply filter_forall. intros ab x _. match goal with |- @eq _ (opp ?s) ?t => change (@eq R (- s) t) end. ring.
Qed.
