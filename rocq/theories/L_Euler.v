(** * L_Euler: Euler's integrals.  The improper integrals of x^(a-1) e^(-x) over (0,oo) and of x^(a-1) (1-x)^(b-1) over (0,1)
    exist and equal Gamma(a) and Gamma(a) Gamma(b) / Gamma(a+b), by the Bohr-Mollerup characterisation of [L_Gamma]; hence
    the gamma and beta densities of [Spec_Gibbs] are normalised. *)
From Coquelicot Require Import Coquelicot.
From Verif Require Import Prelude Spec_Gibbs Spec_Gamma L_Gamma.
Set Implicit Arguments.
Open Scope R_scope.

(** ** Integrals of nonnegative functions over (0, end), the end given by the set Hi of points below it *)
Section Total.
Variable Hi : R -> Prop.
Hypothesis Hdown : forall x y, Hi y -> x <= y -> Hi x.

Definition nice (f : R -> R) : Prop := forall x, 0 < x -> Hi x -> continuous f x /\ 0 < f x.
Definition total (f : R -> R) (l : R) : Prop := is_lub (fun v => exists x y, 0 < x /\ x <= y /\ Hi y /\ v = RInt f x y) l.

Lemma nice_int f x y : nice f -> 0 < x -> x <= y -> Hi y -> ex_RInt f x y.
Proof.
  intros Hn Hx Hxy Hy. apply (ex_RInt_continuous (V := R_CompleteNormedModule)). rewrite Rmin_left, Rmax_right by lra. intros z Hz. apply Hn; [lra|]. apply Hdown with y; [auto|lra].
Qed.
Lemma nice_mono f x y x' y' : nice f -> 0 < x' -> x' <= x -> x <= y -> y <= y' -> Hi y' -> RInt f x y <= RInt f x' y'.
Proof.
  intros Hn H0 H1 H2 H3 H4.
  assert (Hp : forall u v, 0 < u -> u <= v -> Hi v -> 0 <= RInt f u v).
  { intros u v Hu Huv Hv. apply RInt_ge_0; [auto|now apply nice_int|]. intros z Hz. apply Rlt_le, Hn; [lra|]. apply Hdown with v; [auto|lra]. }
  assert (Hy : Hi y) by (apply Hdown with y'; auto). assert (Hx : Hi x) by (apply Hdown with y; auto).
  pose proof (@nice_int f x' x Hn H0 H1 Hx) as I1. pose proof (@nice_int f x y Hn ltac:(lra) H2 Hy) as I2. pose proof (@nice_int f y y' Hn ltac:(lra) H3 H4) as I3.
  pose proof (RInt_Chasles f x' x y I1 I2) as C1. pose proof (RInt_Chasles f x' y y' (ex_RInt_Chasles _ _ _ _ I1 I2) I3) as C2.
  change (RInt f x' x + RInt f x y = RInt f x' y) in C1. change (RInt f x' y + RInt f y y' = RInt f x' y') in C2. pose proof (Hp x' x H0 H1 Hx). pose proof (Hp y y' ltac:(lra) H3 H4). lra.
Qed.
Lemma total_exists f B x0 : nice f -> 0 < x0 -> Hi x0 -> (forall x y, 0 < x -> x <= y -> Hi y -> RInt f x y <= B) -> exists l, total f l.
Proof.
  intros Hn Hx0 Hi0 HB. destruct (completeness (fun v => exists x y, 0 < x /\ x <= y /\ Hi y /\ v = RInt f x y)) as (l & Hl).
  - exists B. intros v (x & y & H1 & H2 & H3 & ->). now apply HB.
  - exists (RInt f x0 x0), x0, x0. repeat split; auto; lra.
  - now exists l.
Qed.
Lemma total_ge f l x y : total f l -> 0 < x -> x <= y -> Hi y -> RInt f x y <= l.
Proof. intros (H & _) Hx Hxy Hy. apply H. now exists x, y. Qed.
Lemma total_le f l B : total f l -> (forall x y, 0 < x -> x <= y -> Hi y -> RInt f x y <= B) -> l <= B.
Proof. intros (_ & H) HB. apply H. intros v (x & y & H1 & H2 & H3 & ->). now apply HB. Qed.
Lemma total_pos f l x y : nice f -> total f l -> 0 < x -> x < y -> Hi y -> 0 < l.
Proof.
  intros Hn Ht Hx Hxy Hy. apply Rlt_le_trans with (RInt f x y); [|apply total_ge with (1 := Ht); auto; lra].
  apply RInt_gt_0; auto; intros z Hz; apply Hn; try lra; apply Hdown with y; auto; lra.
Qed.

(** The total is the improper integral. *)
Lemma total_gen (Fb : (R -> Prop) -> Prop) {FF : ProperFilter Fb} f l :
  (forall y, 0 < y -> Hi y -> Fb (fun z => y <= z /\ Hi z)) -> nice f -> total f l -> is_RInt_gen f (at_right 0) Fb l.
Proof.
  intros HF Hn Ht P (eps & HP).
  assert (Hex : exists x y, 0 < x /\ x <= y /\ Hi y /\ l - eps < RInt f x y).
  { apply Classical_Prop.NNPP. intros Hc. pose proof (cond_pos eps). assert (l <= l - eps); [|lra].
    apply total_le with (1 := Ht). intros x y Hx Hxy Hy. destruct (Rle_lt_dec (RInt f x y) (l - eps)); auto. exfalso. apply Hc. now exists x, y. }
  destruct Hex as (x & y & Hx & Hxy & Hy & Hlt).
  apply Filter_prod with (fun a => 0 < a <= x) (fun b => y <= b /\ Hi b).
  - exists (mkposreal x Hx). intros z Hz H0. unfold ball in Hz. cbn in Hz. unfold AbsRing_ball, abs, minus, plus, opp in Hz. cbn in Hz. rewrite Rabs_pos_eq in Hz by lra. lra.
  - apply HF; [lra|auto].
  - intros a b (Ha0 & Hax) (Hb & HHb). cbn [fst snd]. exists (RInt f a b). split.
    + apply (RInt_correct f). apply nice_int; auto. lra.
    + apply HP. change (Rabs (RInt f a b - l) < eps).
      pose proof (@nice_mono f x y a b Hn Ha0 Hax Hxy Hb HHb). pose proof (@total_ge f l a b Ht Ha0 ltac:(lra) HHb). apply Rabs_def1; lra.
Qed.

(** ** Powers times a fixed weight exp (w x): logarithmic convexity in the exponent *)
Variable w : R -> R.
Definition kern_of (a x : R) : R := exp ((a - 1) * ln x + w x).
Lemma exp_convex t u v : 0 <= t <= 1 -> exp (t * u + (1 - t) * v) <= t * exp u + (1 - t) * exp v.
Proof.
  intros Ht. set (m := t * u + (1 - t) * v). assert (H : forall z, exp m * (1 + (z - m)) <= exp z).
  { intros z. replace (exp z) with (exp m * exp (z - m)) by (rewrite <- exp_plus; f_equal; ring). apply Rmult_le_compat_l; [apply Rlt_le, exp_pos|].
    destruct (Req_dec (z - m) 0) as [->|Hz]; [rewrite exp_0; lra|]. apply Rlt_le. now apply exp_ineq1. }
  pose proof (H u) as Hu. pose proof (H v) as Hv.
  apply Rle_trans with (t * (exp m * (1 + (u - m))) + (1 - t) * (exp m * (1 + (v - m)))).
  - right. unfold m. ring.
  - apply Rplus_le_compat; apply Rmult_le_compat_l; lra.
Qed.
Lemma log_convex a b c la lb lc x0 y0 : 0 < x0 -> x0 < y0 -> Hi y0 -> a < b -> b < c ->
  nice (kern_of a) -> nice (kern_of b) -> nice (kern_of c) ->
  total (kern_of a) la -> total (kern_of b) lb -> total (kern_of c) lc -> ln lb * (c - a) <= ln la * (c - b) + ln lc * (b - a).
Proof.
  intros Hx0 Hxy Hy0 Hab Hbc Na Nb Nc Ta Tb Tc.
  pose proof (@total_pos _ _ _ _ Na Ta Hx0 Hxy Hy0) as Pa. pose proof (@total_pos _ _ _ _ Nb Tb Hx0 Hxy Hy0) as Pb. pose proof (@total_pos _ _ _ _ Nc Tc Hx0 Hxy Hy0) as Pc.
  set (t := (c - b) / (c - a)). assert (Ht : 0 <= t <= 1).
  { unfold t. split; [apply Rlt_le, Rdiv_lt_0_compat; lra|]. apply Rmult_le_reg_r with (c - a); [lra|]. unfold Rdiv. rewrite Rmult_assoc, Rinv_l by lra. lra. }
  set (M := t * ln la + (1 - t) * ln lc).
  assert (Hle : lb <= exp M).
  { apply total_le with (1 := Tb). intros x y Hx Hxy' Hy.
    pose proof (@nice_int _ x y Na Hx Hxy' Hy) as Ia. pose proof (@nice_int _ x y Nb Hx Hxy' Hy) as Ib. pose proof (@nice_int _ x y Nc Hx Hxy' Hy) as Ic.
    assert (Hs : is_RInt (fun z => exp M * (t / la) * kern_of a z + exp M * ((1 - t) / lc) * kern_of c z) x y
                   (exp M * (t / la) * RInt (kern_of a) x y + exp M * ((1 - t) / lc) * RInt (kern_of c) x y)).
    { apply (is_RInt_plus (V := R_NormedModule)); apply (is_RInt_scal (V := R_NormedModule)); apply (RInt_correct (V := R_CompleteNormedModule)); auto. }
    apply Rle_trans with (exp M * (t / la) * RInt (kern_of a) x y + exp M * ((1 - t) / lc) * RInt (kern_of c) x y).
    - apply (@is_RInt_le (kern_of b) (fun z => exp M * (t / la) * kern_of a z + exp M * ((1 - t) / lc) * kern_of c z) x y); auto.
      { now apply (RInt_correct (V := R_CompleteNormedModule)). }
      intros z Hz. unfold kern_of.
      pose proof (@exp_convex t ((a - 1) * ln z + w z - ln la) ((c - 1) * ln z + w z - ln lc) Ht) as Hc.
      assert (Ed : forall u l, 0 < l -> exp (u - ln l) = exp u * / l) by (intros u l Hl; unfold Rminus; now rewrite exp_plus, exp_Ropp, exp_ln).
      rewrite (Ed ((a - 1) * ln z + w z) la Pa), (Ed ((c - 1) * ln z + w z) lc Pc) in Hc.
      replace ((b - 1) * ln z + w z) with (M + (t * ((a - 1) * ln z + w z - ln la) + (1 - t) * ((c - 1) * ln z + w z - ln lc))).
      2:{ unfold M. assert (Et : t * (c - a) = c - b) by (unfold t; field; lra). assert (Eb : b = t * a + (1 - t) * c) by lra. rewrite Eb at 1. ring. }
      rewrite exp_plus. apply Rle_trans with (exp M * (t * (exp ((a - 1) * ln z + w z) * / la) + (1 - t) * (exp ((c - 1) * ln z + w z) * / lc))).
      + apply Rmult_le_compat_l; [apply Rlt_le, exp_pos|]. exact Hc.
      + right. unfold Rdiv. ring.
    - pose proof (@total_ge _ _ x y Ta Hx Hxy' Hy) as Ga. pose proof (@total_ge _ _ x y Tc Hx Hxy' Hy) as Gc. pose proof (exp_pos M).
      assert (exp M * (t / la) * RInt (kern_of a) x y <= exp M * t).
      { replace (exp M * t) with (exp M * (t / la) * la) by (field; lra). apply Rmult_le_compat_l; [|auto]. apply Rmult_le_pos; [lra|]. apply Rmult_le_pos; [lra|]. apply Rlt_le, Rinv_0_lt_compat; auto. }
      assert (exp M * ((1 - t) / lc) * RInt (kern_of c) x y <= exp M * (1 - t)).
      { replace (exp M * (1 - t)) with (exp M * ((1 - t) / lc) * lc) by (field; lra). apply Rmult_le_compat_l; [|auto]. apply Rmult_le_pos; [lra|]. apply Rmult_le_pos; [lra|]. apply Rlt_le, Rinv_0_lt_compat; auto. }
      lra. }
  assert (Hln : ln lb <= M).
  { destruct Hle as [Hl|E]; [apply Rlt_le; rewrite <- (ln_exp M); apply ln_increasing; auto|]. rewrite E, ln_exp. lra. }
  apply Rle_trans with (M * (c - a)); [apply Rmult_le_compat_r; lra|]. right. unfold M, t. field. lra.
Qed.
End Total.

Lemma gen_unique (Fb : (R -> Prop) -> Prop) {FF : ProperFilter Fb} (f : R -> R) (l l' : R) : is_RInt_gen f (at_right 0) Fb l -> is_RInt_gen f (at_right 0) Fb l' -> l = l'.
Proof.
  intros H H'. assert (Fa : ProperFilter' (at_right 0)) by (apply Proper_StrongProper, at_right_proper_filter). assert (Fb' : ProperFilter' Fb) by (apply Proper_StrongProper, FF).
  rewrite <- (@is_RInt_gen_unique R_CompleteNormedModule (at_right 0) Fb Fa Fb' f l H). exact (@is_RInt_gen_unique R_CompleteNormedModule (at_right 0) Fb Fa Fb' f l' H').
Qed.

(** ** Gamma *)
Definition everywhere (_ : R) : Prop := True.
Definition gk (a x : R) : R := kern_of (fun x => - x) a x.
Lemma gk_nice a : nice everywhere (gk a).
Proof.
  intros x Hx _. split; [|apply exp_pos]. apply (ex_derive_continuous (gk a)). unfold gk, kern_of. auto_derive. lra.
Qed.
Lemma everywhere_down x y : everywhere y -> x <= y -> everywhere x.
Proof. intros; exact I. Qed.
Lemma everywhere_lim y : 0 < y -> everywhere y -> Rbar_locally p_infty (fun z => y <= z /\ everywhere z).
Proof. intros _ _. exists y. intros z Hz. split; [lra|exact I]. Qed.
Lemma exp_mono x y : x <= y -> exp x <= exp y.
Proof. intros [H| ->]; [apply Rlt_le; now apply exp_increasing|lra]. Qed.
(** x^a e^(-x) is at most C e^(-x/2). *)
Lemma gk_tail a : 0 <= a -> exists C, 0 < C /\ forall x, 0 < x -> exp (a * ln x - x) <= C * exp (- x / 2).
Proof.
  intros [Ha|<-].
  - exists (exp (a * ln (2 * a))). split; [apply exp_pos|]. intros x Hx. rewrite <- exp_plus. apply exp_mono.
    assert (H : ln (x / (2 * a)) <= x / (2 * a) - 1).
    { assert (Hp : 0 < x / (2 * a)) by (apply Rdiv_lt_0_compat; lra). pose proof (ln_ge_inv (Rinv_0_lt_compat _ Hp)) as H. rewrite ln_Rinv, Rinv_inv in H by auto. lra. }
    rewrite ln_div in H by lra. apply Rmult_le_compat_l with (r := a) in H; [|lra].
    replace (a * (x / (2 * a) - 1)) with (x / 2 - a) in H by (field; lra). lra.
  - exists 1. split; [lra|]. intros x Hx. rewrite Rmult_1_l. apply exp_mono. lra.
Qed.
Definition gG (a x : R) : R := exp (a * ln x - x).
Lemma gG_d a x : 0 < x -> is_derive (gG a) x (a * gk a x - gk (a + 1) x).
Proof.
  intros Hx. unfold gG. auto_derive; [lra|]. unfold gk, kern_of.
  replace ((a + 1 - 1) * ln x + - x) with (a * ln x - x) by ring. replace ((a - 1) * ln x + - x) with (a * ln x - x + - ln x) by ring.
  rewrite (exp_plus _ (- ln x)), exp_Ropp, exp_ln by auto. unfold Rminus. field. lra.
Qed.
Lemma gk_parts a x y : 0 < x -> x <= y -> RInt (gk (a + 1)) x y = a * RInt (gk a) x y - (gG a y - gG a x).
Proof.
  intros Hx Hxy.
  assert (H : is_RInt (fun z => a * gk a z - gk (a + 1) z) x y (gG a y - gG a x)).
  { apply (is_RInt_derive (V := R_CompleteNormedModule) (gG a)); rewrite Rmin_left, Rmax_right by lra; intros z Hz.
    - apply gG_d. lra.
    - apply (ex_derive_continuous (fun z => a * gk a z - gk (a + 1) z)). unfold gk, kern_of. auto_derive. repeat split; lra. }
  assert (H' : is_RInt (fun z => a * gk a z - gk (a + 1) z) x y (a * RInt (gk a) x y - RInt (gk (a + 1)) x y)).
  { apply (is_RInt_minus (V := R_NormedModule)); [apply (is_RInt_scal (V := R_NormedModule))|]; apply (RInt_correct (V := R_CompleteNormedModule));
    eapply nice_int; try apply gk_nice; try apply everywhere_down; auto; exact I. }
  apply (@is_RInt_unique R_CompleteNormedModule) in H. apply (@is_RInt_unique R_CompleteNormedModule) in H'. rewrite H in H'. lra.
Qed.
Lemma gk_bound a : 0 < a -> exists B, forall x y, 0 < x -> x <= y -> everywhere y -> RInt (gk a) x y <= B.
Proof.
  intros Ha. destruct (@gk_tail a ltac:(lra)) as (C & HC & Ht). exists (3 * C / a). intros x y Hx Hxy _.
  pose proof (@gk_parts a x y Hx Hxy) as E.
  assert (H1 : RInt (gk (a + 1)) x y <= 2 * C).
  { apply Rle_trans with (2 * C * (exp (- x / 2) - exp (- y / 2))).
    - apply (@is_RInt_le (gk (a + 1)) (fun z => C * exp (- z / 2)) x y); auto.
      + apply (RInt_correct (V := R_CompleteNormedModule)). eapply nice_int; try apply gk_nice; try apply everywhere_down; auto; exact I.
      + assert (Hd : is_RInt (fun z => C * exp (- z / 2)) x y ((-2 * C * exp (- y / 2)) - (-2 * C * exp (- x / 2)))).
        { apply (is_RInt_derive (V := R_CompleteNormedModule) (fun z => -2 * C * exp (- z / 2))); intros z Hz.
          - auto_derive; [auto|]. unfold Rdiv. field.
          - apply (ex_derive_continuous (fun z => C * exp (- z / 2))). auto_derive. auto. }
        replace (2 * C * (exp (- x / 2) - exp (- y / 2))) with ((-2 * C * exp (- y / 2)) - (-2 * C * exp (- x / 2))) by ring. exact Hd.
      + intros z Hz. specialize (Ht z ltac:(lra)). unfold gk, kern_of. replace ((a + 1 - 1) * ln z + - z) with (a * ln z - z) by ring. exact Ht.
    - assert (exp (- x / 2) <= 1) by (rewrite <- exp_0; apply exp_mono; lra). pose proof (exp_pos (- y / 2)).
      rewrite <- (Rmult_1_r (2 * C)) at 2. apply Rmult_le_compat_l; lra. }
  assert (H2 : gG a y <= C).
  { unfold gG. apply Rle_trans with (1 := Ht y ltac:(lra)). rewrite <- (Rmult_1_r C) at 2. apply Rmult_le_compat_l; [lra|]. rewrite <- exp_0. apply exp_mono. lra. }
  assert (0 < gG a x) by apply exp_pos.
  apply Rmult_le_reg_l with a; [auto|]. replace (a * (3 * C / a)) with (3 * C) by (field; lra). lra.
Qed.
Lemma gamma_total a : 0 < a -> exists l, total everywhere (gk a) l.
Proof.
  intros Ha. destruct (gk_bound Ha) as (B & HB). eapply total_exists with (x0 := 1); eauto using everywhere_down, gk_nice; [lra|exact I].
Qed.
Definition gint (a : R) (l : R) : Prop := is_RInt_gen (gk a) (at_right 0) (Rbar_locally p_infty) l.
Lemma gint_unique a l l' : gint a l -> gint a l' -> l = l'.
Proof. exact (@gen_unique (Rbar_locally p_infty) (Rbar_locally_filter p_infty) (gk a) l l'). Qed.
Lemma total_gint a l : total everywhere (gk a) l -> gint a l.
Proof. exact (@total_gen everywhere everywhere_down (Rbar_locally p_infty) (Rbar_locally_filter p_infty) (gk a) l everywhere_lim (@gk_nice a)). Qed.
Lemma gG_lim a : 0 < a -> filterlim (gG a) (at_right 0) (locally 0) /\ filterlim (gG a) (Rbar_locally p_infty) (locally 0).
Proof.
  intros Ha. split; intros P (eps & HP).
  - assert (Hd : 0 < exp (ln eps / a)) by apply exp_pos. exists (mkposreal _ Hd). intros y Hy H0. unfold ball in Hy. cbn in Hy. unfold AbsRing_ball, abs, minus, plus, opp in Hy. cbn in Hy. rewrite Rabs_pos_eq in Hy by lra.
    apply HP. change (Rabs (gG a y - 0) < eps). rewrite Rminus_0_r, Rabs_pos_eq by (apply Rlt_le, exp_pos).
    rewrite <- (exp_ln eps (cond_pos eps)). apply exp_increasing. assert (ln y < ln eps / a) by (rewrite <- (ln_exp (ln eps / a)); apply ln_increasing; lra).
    assert (a * ln y < ln eps); [|lra]. apply Rmult_lt_reg_r with (/ a); [now apply Rinv_0_lt_compat|]. replace (a * ln y * / a) with (ln y) by (field; lra). exact H.
  - destruct (@gk_tail a ltac:(lra)) as (C & HC & Ht). exists (Rmax 0 (-2 * ln (eps / C))). intros y Hy.
    assert (0 < y) by (apply Rle_lt_trans with (2 := Hy), Rmax_l). assert (-2 * ln (eps / C) < y) by (apply Rle_lt_trans with (2 := Hy), Rmax_r).
    apply HP. change (Rabs (gG a y - 0) < eps). rewrite Rminus_0_r, Rabs_pos_eq by (apply Rlt_le, exp_pos).
    apply Rle_lt_trans with (1 := Ht y H). assert (Hp : 0 < eps / C) by (apply Rdiv_lt_0_compat; [apply cond_pos|auto]).
    replace (pos eps) with (C * (eps / C)) by (field; lra). apply Rmult_lt_compat_l; [auto|]. rewrite <- (exp_ln _ Hp) at 1. apply exp_increasing. lra.
Qed.
Lemma near_pos : filter_prod (at_right 0) (Rbar_locally p_infty) (fun ab => 0 < fst ab /\ 0 < snd ab).
Proof.
  apply Filter_prod with (fun x => 0 < x) (fun y => 0 < y).
  - exists posreal_one. intros y _ Hy. exact Hy.
  - exists 0. intros y Hy. exact Hy.
  - intros; cbn; auto.
Qed.
Lemma gint_step a l l' : 0 < a -> gint a l -> gint (a + 1) l' -> l' = a * l.
Proof.
  intros Ha H H'. destruct (gG_lim Ha) as (L0 & L1).
  assert (HD : is_RInt_gen (Derive (gG a)) (at_right 0) (Rbar_locally p_infty) (0 - 0)).
  { apply is_RInt_gen_Derive; auto; apply filter_imp with (2 := near_pos); intros (x, y) (Hx & Hy) z Hz; cbn [fst snd] in *;
    (assert (Hz' : 0 < z) by (apply Rlt_le_trans with (Rmin x y); [apply Rmin_glb_lt; auto|apply Hz])).
    - eexists. now apply gG_d.
    - apply continuous_ext_loc with (g := fun z => a * gk a z - gk (a + 1) z).
      + exists (mkposreal z Hz'). intros u Hu. unfold ball in Hu. cbn in Hu. unfold AbsRing_ball, abs, minus, plus, opp in Hu. cbn in Hu. apply Rabs_def2 in Hu.
        symmetry. apply is_derive_unique, gG_d. lra.
      + apply (ex_derive_continuous (fun z => a * gk a z - gk (a + 1) z)). unfold gk, kern_of. auto_derive. repeat split; lra. }
  assert (HS : is_RInt_gen (fun z => a * gk a z - gk (a + 1) z) (at_right 0) (Rbar_locally p_infty) (a * l - l')).
  { apply (is_RInt_gen_minus (V := R_NormedModule)); [apply (is_RInt_gen_scal (V := R_NormedModule)); exact H|exact H']. }
  assert (HS' : is_RInt_gen (Derive (gG a)) (at_right 0) (Rbar_locally p_infty) (a * l - l')).
  { refine (is_RInt_gen_ext (V := R_NormedModule) _ _ _ _ HS). apply filter_imp with (2 := near_pos). intros (x, y) (Hx & Hy) z Hz. cbn [fst snd] in *.
    symmetry. apply is_derive_unique, gG_d. apply Rlt_trans with (Rmin x y); [apply Rmin_glb_lt; auto|apply Hz]. }
  pose proof (@gen_unique (Rbar_locally p_infty) (Rbar_locally_filter p_infty) _ _ _ HD HS'). lra.
Qed.
Lemma gint_1 l : total everywhere (gk 1) l -> l = 1.
Proof.
  intros Ht.
  assert (E : forall x y, 0 < x -> x <= y -> RInt (gk 1) x y = exp (- x) - exp (- y)).
  { intros x y Hx Hxy. apply (@is_RInt_unique R_CompleteNormedModule).
    replace (exp (- x) - exp (- y)) with (- exp (- y) - - exp (- x)) by ring.
    apply (is_RInt_derive (V := R_CompleteNormedModule) (fun z => - exp (- z))); intros z Hz.
    - unfold gk, kern_of. auto_derive; [auto|]. replace ((1 - 1) * ln z + - z) with (- z) by ring. ring.
    - rewrite Rmin_left in Hz by auto. apply gk_nice; [lra|exact I]. }
  assert (Hb : forall x, 1 - x <= exp (- x)).
  { intros x. destruct (Req_dec x 0) as [->|Hx]; [rewrite Ropp_0, exp_0; lra|]. pose proof (exp_ineq1 (- x) ltac:(lra)). lra. }
  assert (H1 : l <= 1).
  { apply total_le with (1 := Ht). intros x y Hx Hxy _. rewrite E by auto. pose proof (exp_pos (- y)). assert (exp (- x) <= 1) by (rewrite <- exp_0; apply exp_mono; lra). lra. }
  assert (H0 : 0 <= l).
  { apply Rlt_le, (@total_pos everywhere everywhere_down (gk 1) l 1 2); auto using gk_nice; try lra; exact I. }
  destruct (Req_dec l 1) as [|Hne]; [auto|]. exfalso. set (d := 1 - l). assert (Hd : 0 < d <= 1) by (unfold d; lra).
  assert (Hy : 3 / d >= 3). { apply Rle_ge, Rmult_le_reg_r with d; [lra|]. unfold Rdiv. rewrite Rmult_assoc, Rinv_l by lra. lra. }
  pose proof (@total_ge everywhere (gk 1) l (d / 3) (3 / d) Ht ltac:(lra) ltac:(lra) I) as Hg. rewrite E in Hg by lra.
  pose proof (Hb (d / 3)). assert (Hs : exp (- (3 / d)) <= d / 3).
  { rewrite exp_Ropp. replace (d / 3) with (/ (3 / d)) by (field; lra). apply Rinv_le_contravar; [lra|]. pose proof (exp_ineq1 (3 / d) ltac:(lra)). lra. }
  unfold d in *. lra.
Qed.

Definition gval (a : R) : R := RInt_gen (V := R_CompleteNormedModule) (gk a) (at_right 0) (Rbar_locally p_infty).
Lemma gval_total a : 0 < a -> total everywhere (gk a) (gval a).
Proof.
  intros Ha. destruct (gamma_total Ha) as (l & Hl). replace (gval a) with l; [exact Hl|].
  assert (Fa : ProperFilter' (at_right 0)) by (apply Proper_StrongProper, at_right_proper_filter). assert (Fb' : ProperFilter' (Rbar_locally p_infty)) by (apply Proper_StrongProper, Rbar_locally_filter).
  symmetry. exact (@is_RInt_gen_unique R_CompleteNormedModule (at_right 0) (Rbar_locally p_infty) Fa Fb' (gk a) l (total_gint Hl)).
Qed.
Lemma gval_pos a : 0 < a -> 0 < gval a.
Proof. intros Ha. apply (@total_pos everywhere everywhere_down (gk a) (gval a) 1 2); auto using gk_nice, gval_total; try lra. exact I. Qed.
Lemma gval_log a : 0 < a -> ln (gval a) = log_gamma a.
Proof.
  apply (@bohr_mollerup (fun a => ln (gval a))).
  - intros x y z Hx Hxy Hyz. apply (@log_convex everywhere everywhere_down (fun x => - x) x y z (gval x) (gval y) (gval z) 1 2); try lra; try (exact I); try apply gk_nice; apply gval_total; lra.
  - rewrite (@gint_1 (gval 1)) by (apply gval_total; lra). apply ln_1.
  - intros x Hx. rewrite (@gint_step x (gval x) (gval (x + 1)) Hx) by (apply total_gint, gval_total; lra).
    rewrite ln_mult by (auto using gval_pos). ring.
Qed.
(** Euler's integral of the second kind. *)
Theorem euler_gamma_integral a : 0 < a -> is_RInt_gen (fun x => exp ((a - 1) * ln x - x)) (at_right 0) (Rbar_locally p_infty) (exp (log_gamma a)).
Proof.
  intros Ha. rewrite <- gval_log, exp_ln by auto using gval_pos. exact (total_gint (gval_total Ha)).
Qed.
Lemma gamma_density_total a b : 0 < a -> 0 < b ->
  nice everywhere (fun w => exp (gamma_lpdf log_gamma a b w)) /\ total everywhere (fun w => exp (gamma_lpdf log_gamma a b w)) 1.
Proof.
  intros Ha Hb. set (f := fun w => exp (gamma_lpdf log_gamma a b w)).
  assert (Hn : nice everywhere f).
  { intros x Hx _. split; [|apply exp_pos]. apply (ex_derive_continuous f). unfold f, gamma_lpdf. auto_derive. lra. }
  assert (E : forall x y, 0 < x -> x <= y -> RInt f x y = / gval a * RInt (gk a) (b * x) (b * y)).
  { intros x y Hx Hxy. apply (@is_RInt_unique R_CompleteNormedModule).
    assert (Hbx : 0 < b * x) by (apply Rmult_lt_0_compat; auto). assert (Hbxy : b * x <= b * y) by (apply Rmult_le_compat_l; lra).
    assert (H : is_RInt (gk a) (b * x + 0) (b * y + 0) (RInt (gk a) (b * x) (b * y))).
    { rewrite !Rplus_0_r. apply (RInt_correct (V := R_CompleteNormedModule)). eapply nice_int; try apply gk_nice; try apply everywhere_down; auto; exact I. }
    apply (is_RInt_comp_lin (V := R_NormedModule)) in H.
    apply (is_RInt_scal (V := R_NormedModule) _ _ _ (/ gval a)) in H. refine (is_RInt_ext _ _ _ _ _ _ H).
    rewrite Rmin_left, Rmax_right by lra. intros z Hz. change (/ gval a * (b * gk a (b * z + 0)) = f z).
    rewrite <- (exp_ln (gval a)) by auto using gval_pos. rewrite gval_log by auto. unfold f, gamma_lpdf, gk, kern_of. rewrite Rplus_0_r, ln_mult by lra.
    rewrite <- exp_Ropp. rewrite <- (exp_ln b Hb) at 1. rewrite <- !exp_plus. f_equal. ring. }
  assert (Ht : total everywhere f 1).
  { pose proof (gval_pos Ha) as Hp. pose proof (gval_total Ha) as T. split.
    - intros v (x & y & Hx & Hxy & _ & ->). rewrite E by auto. apply Rmult_le_reg_l with (gval a); [auto|]. rewrite <- Rmult_assoc, Rinv_r, Rmult_1_l, Rmult_1_r by lra.
      apply total_ge with (1 := T); [apply Rmult_lt_0_compat; auto|apply Rmult_le_compat_l; lra|exact I].
    - intros B HB. apply Rmult_le_reg_l with (gval a); [auto|]. rewrite Rmult_1_r. apply total_le with (1 := T). intros x y Hx Hxy _.
      assert (H : RInt f (x / b) (y / b) <= B).
      { apply HB. exists (x / b), (y / b). split; [apply Rdiv_lt_0_compat; auto|]. split; [apply Rmult_le_compat_r; [apply Rlt_le, Rinv_0_lt_compat; auto|auto]|]. split; [exact I|reflexivity]. }
      rewrite E in H; [|apply Rdiv_lt_0_compat; auto|apply Rmult_le_compat_r; [apply Rlt_le, Rinv_0_lt_compat; auto|auto]].
      replace (b * (x / b)) with x in H by (field; lra). replace (b * (y / b)) with y in H by (field; lra).
      apply Rmult_le_compat_l with (r := gval a) in H; [|lra]. rewrite <- Rmult_assoc, Rinv_r, Rmult_1_l in H by lra. exact H. }
  split; [exact Hn|exact Ht].
Qed.
(** The gamma density integrates to one. *)
Theorem gamma_density_normalised a b : 0 < a -> 0 < b ->
  is_RInt_gen (fun w => exp (gamma_lpdf log_gamma a b w)) (at_right 0) (Rbar_locally p_infty) 1.
Proof.
  intros Ha Hb. destruct (@gamma_density_total a b Ha Hb) as (Hn & Ht).
  exact (@total_gen everywhere everywhere_down (Rbar_locally p_infty) (Rbar_locally_filter p_infty) _ 1 everywhere_lim Hn Ht).
Qed.

(** ** Beta *)
Definition below1 (x : R) : Prop := x < 1.
Definition bk (b a x : R) : R := kern_of (fun x => (b - 1) * ln (1 - x)) a x.
Lemma bk_nice b a : nice below1 (bk b a).
Proof.
  intros x Hx H1. unfold below1 in H1. split; [|apply exp_pos]. apply (ex_derive_continuous (bk b a)). unfold bk, kern_of. auto_derive. repeat split; lra.
Qed.
Lemma below1_down x y : below1 y -> x <= y -> below1 x.
Proof. unfold below1. intros; lra. Qed.
Lemma below1_lim y : 0 < y -> below1 y -> at_left 1 (fun z => y <= z /\ below1 z).
Proof.
  unfold below1. intros H0 H1. assert (Hp : 0 < 1 - y) by lra. exists (mkposreal _ Hp). intros z Hz Hlt. unfold ball in Hz. cbn in Hz. unfold AbsRing_ball, abs, minus, plus, opp in Hz. cbn in Hz.
  rewrite Rabs_left in Hz by lra. lra.
Qed.
Definition bG (b a x : R) : R := exp (a * ln x + b * ln (1 - x)).
Lemma bk_up b a x : 0 < x -> bk b (a + 1) x = x * bk b a x.
Proof. intros Hx. unfold bk, kern_of. rewrite <- (exp_ln x Hx) at 3. rewrite <- exp_plus. f_equal. ring. Qed.
Lemma bk_up' b a x : x < 1 -> bk (b + 1) a x = (1 - x) * bk b a x.
Proof. intros Hx. unfold bk, kern_of. rewrite <- (exp_ln (1 - x)) at 2 by lra. rewrite <- exp_plus. f_equal. ring. Qed.
Lemma bG_k b a x : 0 < x < 1 -> bG b a x = x * (1 - x) * bk b a x.
Proof. intros Hx. unfold bG, bk, kern_of. rewrite <- (exp_ln x) at 3 by lra. rewrite <- (exp_ln (1 - x)) at 2 by lra. rewrite <- !exp_plus. f_equal. ring. Qed.
Lemma bG_d b a x : 0 < x < 1 -> is_derive (bG b a) x (a * bk b a x - (a + b) * bk b (a + 1) x).
Proof.
  intros Hx. assert (E : a * bk b a x - (a + b) * bk b (a + 1) x = (a / x - b / (1 - x)) * bG b a x) by (rewrite bk_up, bG_k by lra; field; lra).
  rewrite E. unfold bG. auto_derive; [repeat split; lra|]. unfold Rminus. field. lra.
Qed.
Lemma bk_int b a x y : 0 < x -> x <= y -> y < 1 -> is_RInt (bk b a) x y (RInt (bk b a) x y).
Proof.
  intros Hx Hxy Hy. apply (RInt_correct (V := R_CompleteNormedModule)). eapply nice_int; try apply bk_nice; try apply below1_down; auto.
Qed.
Lemma bG_int b a x y : 0 < x -> x <= y -> y < 1 -> is_RInt (fun z => a * bk b a z - (a + b) * bk b (a + 1) z) x y (bG b a y - bG b a x).
Proof.
  intros Hx Hxy Hy. apply (is_RInt_derive (V := R_CompleteNormedModule) (bG b a)); rewrite Rmin_left, Rmax_right by lra; intros z Hz.
  - apply bG_d. lra.
  - apply (ex_derive_continuous (fun z => a * bk b a z - (a + b) * bk b (a + 1) z)). unfold bk, kern_of. auto_derive. repeat split; lra.
Qed.
Lemma bk_parts b a x y : 0 < x -> x <= y -> y < 1 -> (a + b) * RInt (bk b (a + 1)) x y = a * RInt (bk b a) x y - (bG b a y - bG b a x).
Proof.
  intros Hx Hxy Hy. pose proof (@bG_int b a x y Hx Hxy Hy) as H.
  assert (H' : is_RInt (fun z => a * bk b a z - (a + b) * bk b (a + 1) z) x y (a * RInt (bk b a) x y - (a + b) * RInt (bk b (a + 1)) x y)).
  { apply (is_RInt_minus (V := R_NormedModule)); apply (is_RInt_scal (V := R_NormedModule)); now apply bk_int. }
  apply (@is_RInt_unique R_CompleteNormedModule) in H. apply (@is_RInt_unique R_CompleteNormedModule) in H'. rewrite H in H'. lra.
Qed.
Lemma bk_parts' b a x y : 0 < x -> x <= y -> y < 1 -> (a + b) * RInt (bk (b + 1) a) x y = b * RInt (bk b a) x y + (bG b a y - bG b a x).
Proof.
  intros Hx Hxy Hy. pose proof (@bG_int b a x y Hx Hxy Hy) as H.
  assert (H' : is_RInt (fun z => a * bk b a z - (a + b) * bk b (a + 1) z) x y ((a + b) * RInt (bk (b + 1) a) x y - b * RInt (bk b a) x y)).
  { apply (is_RInt_ext (V := R_NormedModule) (fun z => (a + b) * bk (b + 1) a z - b * bk b a z)).
    - rewrite Rmin_left, Rmax_right by lra. intros z Hz. rewrite bk_up, bk_up' by lra. cbn. ring.
    - apply (is_RInt_minus (V := R_NormedModule)); apply (is_RInt_scal (V := R_NormedModule)); now apply bk_int. }
  apply (@is_RInt_unique R_CompleteNormedModule) in H. apply (@is_RInt_unique R_CompleteNormedModule) in H'. rewrite H in H'. lra.
Qed.
Lemma bG_range b a x : 0 <= a -> 0 <= b -> 0 < x < 1 -> 0 < bG b a x <= 1.
Proof.
  intros Ha Hb Hx. split; [apply exp_pos|]. unfold bG. apply Rle_trans with (exp 0); [apply exp_mono|rewrite exp_0; lra].
  assert (ln x < 0) by (rewrite <- ln_1; apply ln_increasing; lra). assert (ln (1 - x) < 0) by (rewrite <- ln_1; apply ln_increasing; lra).
  assert (0 <= a * - ln x) by (apply Rmult_le_pos; lra). assert (0 <= b * - ln (1 - x)) by (apply Rmult_le_pos; lra). lra.
Qed.
Lemma bk_bound b a : 0 < a -> 0 < b -> exists B, forall x y, 0 < x -> x <= y -> below1 y -> RInt (bk b a) x y <= B.
Proof.
  intros Ha Hb. exists (((a + b) * ((a + b + 2) / b) + 1) / a). intros x y Hx Hxy Hy. unfold below1 in Hy.
  assert (H0 : RInt (bk (b + 1) (a + 1)) x y <= 1).
  { apply Rle_trans with (y - x); [|lra]. apply (@is_RInt_le (bk (b + 1) (a + 1)) (fun _ => 1) x y); auto; [now apply bk_int| |].
    - replace (y - x) with (scal (y - x) 1) by (unfold scal; cbn; unfold mult; cbn; ring). apply (is_RInt_const (V := R_NormedModule)).
    - intros z Hz. rewrite bk_up, bk_up' by lra. rewrite <- Rmult_assoc, <- bG_k by lra. apply bG_range; lra. }
  pose proof (@bk_parts b a x y Hx Hxy Hy) as E1. pose proof (@bk_parts' b (a + 1) x y Hx Hxy Hy) as E2.
  pose proof (@bG_range b a x ltac:(lra) ltac:(lra) ltac:(lra)). pose proof (@bG_range b a y ltac:(lra) ltac:(lra) ltac:(lra)).
  pose proof (@bG_range b (a + 1) x ltac:(lra) ltac:(lra) ltac:(lra)). pose proof (@bG_range b (a + 1) y ltac:(lra) ltac:(lra) ltac:(lra)).
  assert (HB1 : RInt (bk b (a + 1)) x y <= (a + b + 2) / b).
  { apply Rmult_le_reg_l with b; [auto|]. replace (b * ((a + b + 2) / b)) with ((a + 1 + b) * 1 + 1) by (field; lra).
    apply (Rmult_le_compat_l (a + 1 + b)) in H0; lra. }
  apply Rmult_le_reg_l with a; [auto|]. replace (a * (((a + b) * ((a + b + 2) / b) + 1) / a)) with ((a + b) * ((a + b + 2) / b) + 1) by (field; lra).
  apply (Rmult_le_compat_l (a + b)) in HB1; lra.
Qed.
Lemma beta_total b a : 0 < a -> 0 < b -> exists l, total below1 (bk b a) l.
Proof.
  intros Ha Hb. destruct (@bk_bound b a Ha Hb) as (B & HB). eapply total_exists with (x0 := 1/2); eauto using below1_down, bk_nice; unfold below1; lra.
Qed.
Definition bint (b a : R) (l : R) : Prop := is_RInt_gen (bk b a) (at_right 0) (at_left 1) l.
Lemma total_bint b a l : total below1 (bk b a) l -> bint b a l.
Proof. exact (@total_gen below1 below1_down (at_left 1) (at_left_proper_filter 1) (bk b a) l below1_lim (@bk_nice b a)). Qed.
Lemma pow_small a eps x : 0 < a -> 0 < eps -> 0 < x -> x < exp (ln eps / a) -> exp (a * ln x) < eps.
Proof.
  intros Ha He Hx Hlt. rewrite <- (exp_ln eps He). apply exp_increasing. assert (H : ln x < ln eps / a) by (rewrite <- (ln_exp (ln eps / a)); apply ln_increasing; lra).
  apply Rmult_lt_reg_r with (/ a); [now apply Rinv_0_lt_compat|]. replace (a * ln x * / a) with (ln x) by (field; lra). exact H.
Qed.
Lemma bG_lim b a : 0 < a -> 0 < b -> filterlim (bG b a) (at_right 0) (locally 0) /\ filterlim (bG b a) (at_left 1) (locally 0).
Proof.
  intros Ha Hb. assert (Hln : forall z, 0 < z < 1 -> ln z < 0) by (intros z Hz; rewrite <- ln_1; apply ln_increasing; lra).
  split; intros P (eps & HP).
  - assert (Hd : 0 < Rmin (1/2) (exp (ln eps / a))) by (apply Rmin_pos; [lra|apply exp_pos]). exists (mkposreal _ Hd). intros y Hy H0. unfold ball in Hy. cbn in Hy. unfold AbsRing_ball, abs, minus, plus, opp in Hy. cbn in Hy. rewrite Rabs_pos_eq in Hy by lra.
    pose proof (Rmin_l (1/2) (exp (ln eps / a))). pose proof (Rmin_r (1/2) (exp (ln eps / a))).
    apply HP. change (Rabs (bG b a y - 0) < eps). rewrite Rminus_0_r, Rabs_pos_eq by (apply Rlt_le, exp_pos).
    apply Rle_lt_trans with (exp (a * ln y)); [|apply pow_small; [auto|apply cond_pos|auto|lra]].
    apply exp_mono. assert (0 <= b * - ln (1 - y)) by (apply Rmult_le_pos; [lra|specialize (Hln (1 - y)); lra]). lra.
  - assert (Hd : 0 < Rmin (1/2) (exp (ln eps / b))) by (apply Rmin_pos; [lra|apply exp_pos]). exists (mkposreal _ Hd). intros y Hy H0. unfold ball in Hy. cbn in Hy. unfold AbsRing_ball, abs, minus, plus, opp in Hy. cbn in Hy. rewrite Rabs_left in Hy by lra.
    pose proof (Rmin_l (1/2) (exp (ln eps / b))). pose proof (Rmin_r (1/2) (exp (ln eps / b))).
    apply HP. change (Rabs (bG b a y - 0) < eps). rewrite Rminus_0_r, Rabs_pos_eq by (apply Rlt_le, exp_pos).
    apply Rle_lt_trans with (exp (b * ln (1 - y))); [|apply pow_small; [auto|apply cond_pos|lra|lra]].
    apply exp_mono. assert (0 <= a * - ln y) by (apply Rmult_le_pos; [lra|specialize (Hln y); lra]). lra.
Qed.
Lemma near_unit : filter_prod (at_right 0) (at_left 1) (fun ab => 0 < fst ab < 1 /\ 0 < snd ab < 1).
Proof.
  apply Filter_prod with (fun x => 0 < x < 1) (fun y => 0 < y < 1).
  - exists posreal_one. intros y Hy H0. unfold ball in Hy. cbn in Hy. unfold AbsRing_ball, abs, minus, plus, opp in Hy. cbn in Hy. rewrite Rabs_pos_eq in Hy by lra. lra.
  - exists posreal_one. intros y Hy H0. unfold ball in Hy. cbn in Hy. unfold AbsRing_ball, abs, minus, plus, opp in Hy. cbn in Hy. rewrite Rabs_left in Hy by lra. lra.
  - intros; cbn; auto.
Qed.
Lemma bint_step b a l l' : 0 < a -> 0 < b -> bint b a l -> bint b (a + 1) l' -> (a + b) * l' = a * l.
Proof.
  intros Ha Hb H H'. destruct (@bG_lim b a Ha Hb) as (L0 & L1).
  assert (HD : is_RInt_gen (Derive (bG b a)) (at_right 0) (at_left 1) (0 - 0)).
  { apply is_RInt_gen_Derive; auto; apply filter_imp with (2 := near_unit); intros (x, y) (Hx & Hy) z Hz; cbn [fst snd] in *;
    (assert (Hz' : 0 < z < 1) by (unfold Rmin, Rmax in Hz; destruct (Rle_dec x y); lra)).
    - eexists. now apply bG_d.
    - apply continuous_ext_loc with (g := fun z => a * bk b a z - (a + b) * bk b (a + 1) z).
      + assert (Hd : 0 < Rmin z (1 - z)) by (apply Rmin_pos; lra). exists (mkposreal _ Hd). intros u Hu. unfold ball in Hu. cbn in Hu. unfold AbsRing_ball, abs, minus, plus, opp in Hu. cbn in Hu. apply Rabs_def2 in Hu.
        pose proof (Rmin_l z (1 - z)). pose proof (Rmin_r z (1 - z)). symmetry. apply is_derive_unique, bG_d. lra.
      + apply (ex_derive_continuous (fun z => a * bk b a z - (a + b) * bk b (a + 1) z)). unfold bk, kern_of. auto_derive. repeat split; lra. }
  assert (HS : is_RInt_gen (fun z => a * bk b a z - (a + b) * bk b (a + 1) z) (at_right 0) (at_left 1) (a * l - (a + b) * l')).
  { apply (is_RInt_gen_minus (V := R_NormedModule)); apply (is_RInt_gen_scal (V := R_NormedModule)); [exact H|exact H']. }
  assert (HS' : is_RInt_gen (Derive (bG b a)) (at_right 0) (at_left 1) (a * l - (a + b) * l')).
  { refine (is_RInt_gen_ext (V := R_NormedModule) _ _ _ _ HS). apply filter_imp with (2 := near_unit). intros (x, y) (Hx & Hy) z Hz. cbn [fst snd] in *.
    symmetry. apply is_derive_unique, bG_d. unfold Rmin, Rmax in Hz; destruct (Rle_dec x y); lra. }
  pose proof (@gen_unique (at_left 1) (at_left_proper_filter 1) _ _ _ HD HS'). lra.
Qed.
Lemma bint_1 b l : 0 < b -> total below1 (bk b 1) l -> l = / b.
Proof.
  intros Hb Ht.
  assert (E : forall x y, 0 < x -> x <= y -> y < 1 -> b * RInt (bk b 1) x y = exp (b * ln (1 - x)) - exp (b * ln (1 - y))).
  { intros x y Hx Hxy Hy. pose proof (@bk_parts b 0 x y Hx Hxy Hy) as H. rewrite !Rplus_0_l in H. rewrite H. unfold bG. rewrite !Rmult_0_l, !Rplus_0_l. ring. }
  assert (H1 : b * l <= 1).
  { replace 1 with (b * / b) by (field; lra). apply Rmult_le_compat_l; [lra|]. apply total_le with (1 := Ht). intros x y Hx Hxy Hy. unfold below1 in Hy.
    apply Rmult_le_reg_l with b; [auto|]. rewrite E, Rinv_r by lra. pose proof (exp_pos (b * ln (1 - y))).
    assert (exp (b * ln (1 - x)) <= 1); [|lra]. apply Rle_trans with (exp 0); [apply exp_mono|rewrite exp_0; lra]. assert (ln (1 - x) < 0) by (rewrite <- ln_1; apply ln_increasing; lra).
    assert (0 <= b * - ln (1 - x)) by (apply Rmult_le_pos; lra). lra. }
  assert (H0 : 0 < l).
  { apply (@total_pos below1 below1_down (bk b 1) l (1/3) (1/2)); auto using bk_nice; try lra; unfold below1; lra. }
  assert (Hbl : 0 < b * l) by (apply Rmult_lt_0_compat; auto).
  destruct (Req_dec (b * l) 1) as [H|Hne]; [apply Rmult_eq_reg_l with b; [|lra]; rewrite Rinv_r by lra; exact H|]. exfalso. set (d := 1 - b * l). assert (Hd : 0 < d <= 1) by (unfold d; lra).
  assert (Hq : forall p, 0 < p < 1 -> 0 < exp (ln p / b) < 1 /\ exp (b * ln (exp (ln p / b))) = p).
  { intros p Hp. split; [split; [apply exp_pos|]|].
    - rewrite <- exp_0. apply exp_increasing. assert (ln p < 0) by (rewrite <- ln_1; apply ln_increasing; lra). assert (0 < - ln p / b) by (apply Rdiv_lt_0_compat; lra). unfold Rdiv in *. lra.
    - rewrite ln_exp. replace (b * (ln p / b)) with (ln p) by (field; lra). apply exp_ln. lra. }
  destruct (Hq (1 - d / 3) ltac:(lra)) as (R1 & E1). destruct (Hq (d / 3) ltac:(lra)) as (R2 & E2).
  set (p := exp (ln (1 - d / 3) / b)) in *. set (r := exp (ln (d / 3) / b)) in *.
  assert (Hrp : r <= p).
  { unfold r, p. apply exp_mono. apply Rmult_le_compat_r; [apply Rlt_le, Rinv_0_lt_compat; auto|]. apply Rlt_le, ln_increasing; lra. }
  pose proof (@total_ge below1 (bk b 1) l (1 - p) (1 - r) Ht ltac:(lra) ltac:(lra) ltac:(unfold below1; lra)) as Hg.
  apply (Rmult_le_compat_l b) in Hg; [|lra]. rewrite E in Hg by lra. replace (1 - (1 - p)) with p in Hg by ring. replace (1 - (1 - r)) with r in Hg by ring.
  rewrite E1, E2 in Hg. unfold d in *. lra.
Qed.
Definition bval (b a : R) : R := RInt_gen (V := R_CompleteNormedModule) (bk b a) (at_right 0) (at_left 1).
Lemma bval_total b a : 0 < a -> 0 < b -> total below1 (bk b a) (bval b a).
Proof.
  intros Ha Hb. destruct (@beta_total b a Ha Hb) as (l & Hl). replace (bval b a) with l; [exact Hl|].
  assert (Fa : ProperFilter' (at_right 0)) by (apply Proper_StrongProper, at_right_proper_filter). assert (Fb' : ProperFilter' (at_left 1)) by (apply Proper_StrongProper, at_left_proper_filter).
  symmetry. exact (@is_RInt_gen_unique R_CompleteNormedModule (at_right 0) (at_left 1) Fa Fb' (bk b a) l (total_bint Hl)).
Qed.
Lemma bval_pos b a : 0 < a -> 0 < b -> 0 < bval b a.
Proof. intros Ha Hb. apply (@total_pos below1 below1_down (bk b a) (bval b a) (1/3) (1/2)); auto using bk_nice, bval_total; try lra. unfold below1. lra. Qed.
Lemma bval_log b a : 0 < a -> 0 < b -> ln (bval b a) = log_gamma a + log_gamma b - log_gamma (a + b).
Proof.
  intros Ha Hb. enough (E : ln (bval b a) + log_gamma (a + b) - log_gamma b = log_gamma a) by lra. revert a Ha.
  apply (@bohr_mollerup (fun a => ln (bval b a) + log_gamma (a + b) - log_gamma b)).
  - intros x y z Hx Hxy Hyz.
    assert (H1 : ln (bval b y) * (z - x) <= ln (bval b x) * (z - y) + ln (bval b z) * (y - x)).
    { apply (@log_convex below1 below1_down (fun x => (b - 1) * ln (1 - x)) x y z (bval b x) (bval b y) (bval b z) (1/3) (1/2)); try lra; try apply bk_nice; try (apply bval_total; lra). unfold below1. lra. }
    pose proof (@log_gamma_convex (x + b) (y + b) (z + b) ltac:(lra) ltac:(lra) ltac:(lra)) as H2.
    replace (z + b - (x + b)) with (z - x) in H2 by ring. replace (z + b - (y + b)) with (z - y) in H2 by ring. replace (y + b - (x + b)) with (y - x) in H2 by ring.
    apply Rle_trans with ((ln (bval b x) * (z - y) + ln (bval b z) * (y - x)) + (log_gamma (x + b) * (z - y) + log_gamma (z + b) * (y - x)) - log_gamma b * (z - x)); [lra|right; ring].
  - rewrite (@bint_1 b (bval b 1) Hb) by (apply bval_total; lra). rewrite ln_Rinv by auto. rewrite (Rplus_comm 1 b), log_gamma_step by auto. ring.
  - intros x Hx. assert (E : bval b (x + 1) = x * bval b x / (x + b)).
    { apply Rmult_eq_reg_l with (x + b); [|lra]. rewrite (@bint_step b x (bval b x) (bval b (x + 1)) Hx Hb) by (apply total_bint, bval_total; lra). field. lra. }
    rewrite E. pose proof (@bval_pos b x Hx Hb). rewrite ln_div, ln_mult by (auto; try lra; apply Rmult_lt_0_compat; auto).
    replace (x + 1 + b) with (x + b + 1) by ring. rewrite log_gamma_step by lra. ring.
Qed.
(** Euler's integral of the first kind. *)
Theorem euler_beta_integral a b : 0 < a -> 0 < b ->
  is_RInt_gen (fun x => exp ((a - 1) * ln x + (b - 1) * ln (1 - x))) (at_right 0) (at_left 1) (exp (log_gamma a + log_gamma b - log_gamma (a + b))).
Proof. intros Ha Hb. rewrite <- bval_log, exp_ln by auto using bval_pos. exact (total_bint (@bval_total b a Ha Hb)). Qed.
(** The beta density integrates to one. *)
Theorem beta_density_normalised a b : 0 < a -> 0 < b ->
  is_RInt_gen (fun x => exp (beta_lpdf log_gamma a b x)) (at_right 0) (at_left 1) 1.
Proof.
  intros Ha Hb. pose proof (@euler_beta_integral a b Ha Hb) as H.
  set (c := log_gamma (a + b) - log_gamma a - log_gamma b).
  apply (is_RInt_gen_scal (V := R_NormedModule)) with (k := exp c) in H.
  match type of H with is_RInt_gen _ _ _ ?v => assert (E1 : v = 1) end.
  { change (exp c * exp (log_gamma a + log_gamma b - log_gamma (a + b)) = 1). rewrite <- exp_plus, <- exp_0. f_equal. unfold c. ring. }
  rewrite E1 in H.
  refine (is_RInt_gen_ext (V := R_NormedModule) _ _ _ _ H). apply filter_forall. intros (x, y) z Hz.
  change (exp c * exp ((a - 1) * ln z + (b - 1) * ln (1 - z)) = exp (beta_lpdf log_gamma a b z)). rewrite <- exp_plus. f_equal. unfold c, beta_lpdf. ring.
Qed.
Print Assumptions gamma_density_normalised.
Print Assumptions beta_density_normalised.
