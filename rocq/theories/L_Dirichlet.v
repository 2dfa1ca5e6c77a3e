(** * L_Dirichlet: the Dirichlet density integrates to one; means of x_b and ln x_b. *)
From Coq Require Import FunctionalExtensionality.
From Coquelicot Require Import Coquelicot.
From Verif Require Import Prelude Arrays Spec_Gibbs Spec_Gamma Spec_Moments L_Gamma L_Euler L_Moments.
Set Implicit Arguments.
Open Scope R_scope.

Lemma near_seg s : 0 < s -> filter_prod (at_right 0) (at_left s) (fun ab => 0 < fst ab < s /\ 0 < snd ab < s).
Proof.
  intros Hs. apply Filter_prod with (fun x => 0 < x < s) (fun y => 0 < y < s); [| |auto].
  - exists (mkposreal s Hs). intros y Hy H0. change (Rabs (y - 0) < s) in Hy. apply Rabs_def2 in Hy. lra.
  - exists (mkposreal s Hs). intros y Hy H0. change (Rabs (y - s) < s) in Hy. apply Rabs_def2 in Hy. lra.
Qed.
(** Rescaling (0,1) to (0,s). *)
Lemma gen_scale (f : R -> R) (s l : R) : 0 < s -> is_RInt_gen f (at_right 0) (at_left 1) l ->
  is_RInt_gen (fun x => / s * f (/ s * x)) (at_right 0) (at_left s) l.
Proof.
  intros Hs H P0 HP0. destruct (H P0 HP0) as [P Q HP HQ HPQ]. pose proof (Rinv_0_lt_compat s Hs) as Hi.
  apply Filter_prod with (fun x => P (/ s * x)) (fun y => Q (/ s * y)).
  - destruct HP as (e & He). assert (Hp : 0 < s * e) by (apply Rmult_lt_0_compat; [auto|apply cond_pos]). exists (mkposreal _ Hp). intros y Hy H0. apply He; [|apply Rmult_lt_0_compat; auto].
    change (Rabs (y - 0) < s * e) in Hy. change (Rabs (/ s * y - 0) < e). rewrite Rminus_0_r in *. rewrite Rabs_mult, (Rabs_pos_eq (/ s)) by lra.
    apply Rmult_lt_reg_l with s; [auto|]. rewrite <- Rmult_assoc, Rinv_r, Rmult_1_l by lra. exact Hy.
  - destruct HQ as (e & He). assert (Hp : 0 < s * e) by (apply Rmult_lt_0_compat; [auto|apply cond_pos]). exists (mkposreal _ Hp). intros y Hy H0. apply He.
    + change (Rabs (y - s) < s * e) in Hy. change (Rabs (/ s * y - 1) < e). replace (/ s * y - 1) with (/ s * (y - s)) by (field; lra). rewrite Rabs_mult, (Rabs_pos_eq (/ s)) by lra.
      apply Rmult_lt_reg_l with s; [auto|]. rewrite <- Rmult_assoc, Rinv_r, Rmult_1_l by lra. exact Hy.
    + apply Rmult_lt_reg_l with s; [auto|]. rewrite <- Rmult_assoc, Rinv_r, Rmult_1_l by lra. lra.
  - intros x y Hx Hy. destruct (HPQ _ _ Hx Hy) as (v & Hv & Hb). exists v. split; [|exact Hb]. cbn [fst snd] in *.
    replace (/ s * x) with (/ s * x + 0) in Hv by ring. replace (/ s * y) with (/ s * y + 0) in Hv by ring.
    apply (is_RInt_comp_lin (V := R_NormedModule)) in Hv. refine (is_RInt_ext (V := R_NormedModule) _ _ _ _ _ _ Hv).
    intros z _. change (/ s * f (/ s * z + 0) = / s * f (/ s * z)). now rewrite Rplus_0_r.
Qed.

(** The beta integral over (0,s) with a log-linear factor, and with a linear one. *)
Lemma seg_loglinear a b s c0 c1 c2 : 0 < a -> 0 < b -> 0 < s ->
  is_RInt_gen (fun x => exp ((a - 1) * ln x + (b - 1) * ln (s - x)) * (c0 + c1 * ln x + c2 * ln (s - x))) (at_right 0) (at_left s)
    (exp (log_gamma a + log_gamma b - log_gamma (a + b) + (a + b - 1) * ln s)
     * (c0 + c1 * (digamma a - digamma (a + b) + ln s) + c2 * (digamma b - digamma (a + b) + ln s))).
Proof.
  intros Ha Hb Hs.
  set (k := exp (log_gamma a + log_gamma b - log_gamma (a + b) + (a + b - 1) * ln s)).
  pose proof (@beta_law_loglinear a b (c0 + (c1 + c2) * ln s) c1 c2 _ Ha Hb (fun x _ => eq_refl)) as H.
  apply (is_RInt_gen_scal (V := R_NormedModule)) with (k := k) in H. apply (@gen_scale _ s _ Hs) in H.
  match type of H with is_RInt_gen _ _ _ ?v => assert (E : v = k * (c0 + c1 * (digamma a - digamma (a + b) + ln s) + c2 * (digamma b - digamma (a + b) + ln s))) end.
  { match goal with |- scal _ ?t = _ => change (k * t = k * (c0 + c1 * (digamma a - digamma (a + b) + ln s) + c2 * (digamma b - digamma (a + b) + ln s))) end. ring. }
  rewrite E in H. refine (is_RInt_gen_ext (V := R_NormedModule) _ _ _ _ H). apply filter_imp with (2 := near_seg Hs).
  intros (x, y) (Hx & Hy) z Hz. cbn [fst snd] in *. assert (Hz' : 0 < z < s) by (unfold Rmin, Rmax in Hz; destruct (Rle_dec x y); lra).
  match goal with |- / s * scal _ ?t = _ => change (/ s * (k * t) = exp ((a - 1) * ln z + (b - 1) * ln (s - z)) * (c0 + c1 * ln z + c2 * ln (s - z))) end.
  assert (E1 : ln (/ s * z) = ln z - ln s) by (rewrite ln_mult, ln_Rinv by (auto using Rinv_0_lt_compat; lra); ring).
  assert (E2 : ln (1 - / s * z) = ln (s - z) - ln s).
  { replace (1 - / s * z) with (/ s * (s - z)) by (field; lra). rewrite ln_mult, ln_Rinv by (auto using Rinv_0_lt_compat; lra). ring. }
  rewrite E1, E2. replace (c0 + (c1 + c2) * ln s + c1 * (ln z - ln s) + c2 * (ln (s - z) - ln s)) with (c0 + c1 * ln z + c2 * ln (s - z)) by ring.
  rewrite <- !Rmult_assoc. f_equal. assert (E3 : / s = exp (- ln s)) by (rewrite exp_Ropp, exp_ln; auto). rewrite E3. unfold k. rewrite <- !exp_plus. f_equal. unfold beta_lpdf. rewrite <- E3, E1, E2. ring.
Qed.
Lemma seg_linear a b s c0 c1 : 0 < a -> 0 < b -> 0 < s ->
  is_RInt_gen (fun x => exp ((a - 1) * ln x + (b - 1) * ln (s - x)) * (c0 + c1 * x)) (at_right 0) (at_left s)
    (exp (log_gamma a + log_gamma b - log_gamma (a + b) + (a + b - 1) * ln s) * (c0 + c1 * (s * (a / (a + b))))).
Proof.
  intros Ha Hb Hs.
  set (k := exp (log_gamma a + log_gamma b - log_gamma (a + b) + (a + b - 1) * ln s)).
  pose proof (@gen_lin _ _ _ _ _ _ _ _ c0 (c1 * s) (@beta_law_one a b Ha Hb) (@beta_law_id a b Ha Hb)) as H.
  apply (is_RInt_gen_scal (V := R_NormedModule)) with (k := k) in H. apply (@gen_scale _ s _ Hs) in H.
  match type of H with is_RInt_gen _ _ _ ?v => assert (E : v = k * (c0 + c1 * (s * (a / (a + b))))) end.
  { match goal with |- scal _ ?t = _ => change (k * t = k * (c0 + c1 * (s * (a / (a + b))))) end. ring. }
  rewrite E in H. refine (is_RInt_gen_ext (V := R_NormedModule) _ _ _ _ H). apply filter_imp with (2 := near_seg Hs).
  intros (x, y) (Hx & Hy) z Hz. cbn [fst snd] in *. assert (Hz' : 0 < z < s) by (unfold Rmin, Rmax in Hz; destruct (Rle_dec x y); lra).
  match goal with |- / s * scal _ ?t = _ => change (/ s * (k * t) = exp ((a - 1) * ln z + (b - 1) * ln (s - z)) * (c0 + c1 * z)) end.
  assert (E1 : ln (/ s * z) = ln z - ln s) by (rewrite ln_mult, ln_Rinv by (auto using Rinv_0_lt_compat; lra); ring).
  assert (E2 : ln (1 - / s * z) = ln (s - z) - ln s).
  { replace (1 - / s * z) with (/ s * (s - z)) by (field; lra). rewrite ln_mult, ln_Rinv by (auto using Rinv_0_lt_compat; lra). ring. }
  assert (E3 : / s = exp (- ln s)) by (rewrite exp_Ropp, exp_ln; auto).
  assert (E4 : / s * (k * exp (beta_lpdf log_gamma a b (/ s * z))) = exp ((a - 1) * ln z + (b - 1) * ln (s - z))).
  { rewrite E3 at 1. unfold k. rewrite <- !exp_plus. f_equal. unfold beta_lpdf. rewrite E1, E2. ring. }
  rewrite <- E4. field. lra.
Qed.

Definition dlog (n : nat) (g : vec) (s : R) : R := Rsum n (fun b => log_gamma (g b)) - log_gamma (Rsum n g) + (Rsum n g - 1) * ln s.

Lemma Rsum_pos n g : (0 < n)%nat -> (forall b, (b < n)%nat -> 0 < g b) -> 0 < Rsum n g.
Proof.
  intros Hn Hg. destruct n as [|n]; [lia|]. cbn [Rsum]. pose proof (Hg n ltac:(lia)). assert (0 <= Rsum n g); [|lra]. apply Rsum_nonneg. intros b Hb. apply Rlt_le, Hg. lia.
Qed.
Theorem simplex_loglinear : forall n g c0 c s, (0 < n)%nat -> (forall b, (b < n)%nat -> 0 < g b) -> 0 < s ->
  simplex_int n s (fun x => exp (Rsum n (fun b => (g b - 1) * ln (x b))) * (c0 + Rsum n (fun b => c b * ln (x b))))
    (exp (dlog n g s) * (c0 + Rsum n (fun b => c b * (digamma (g b) - digamma (Rsum n g) + ln s)))).
Proof.
  intros n. induction n as [|n IH]; [lia|]. intros g c0 c s _ Hg Hs. destruct n as [|n].
  { cbn [simplex_int Rsum vcons]. unfold dlog. cbn [Rsum]. f_equal; [f_equal; rewrite !Rplus_0_l; ring|rewrite !Rplus_0_l; ring]. }
  set (m := S n) in *. set (g' := fun b => g (S b)). set (G := Rsum m g').
  assert (HG : 0 < G) by (apply Rsum_pos; [unfold m; lia|intros b Hb; apply Hg; lia]).
  assert (Hg0 : 0 < g 0%nat) by (apply Hg; lia).
  set (C := Rsum m (fun b => c (S b))). set (D := Rsum m (fun b => c (S b) * (digamma (g' b) - digamma G))).
  set (L := Rsum m (fun b => log_gamma (g' b)) - log_gamma G).
  exists (fun x => exp ((g 0%nat - 1) * ln x) * (exp (dlog m g' (s - x)) * ((c0 + c 0%nat * ln x) + Rsum m (fun b => c (S b) * (digamma (g' b) - digamma (Rsum m g') + ln (s - x)))))). split.
  - intros x Hx. set (k := exp ((g 0%nat - 1) * ln x)).
    specialize (IH g' (k * (c0 + c 0%nat * ln x)) (fun b => k * c (S b)) (s - x) ltac:(unfold m; lia) ltac:(intros b Hb; apply Hg; lia) ltac:(lra)).
    replace (fun y => exp (Rsum (S m) (fun b => (g b - 1) * ln (vcons x y b))) * (c0 + Rsum (S m) (fun b => c b * ln (vcons x y b))))
      with (fun y => exp (Rsum m (fun b => (g' b - 1) * ln (y b))) * (k * (c0 + c 0%nat * ln x) + Rsum m (fun b => k * c (S b) * ln (y b)))).
    + match goal with |- simplex_int _ _ _ ?v => match type of IH with simplex_int _ _ _ ?v' => replace v with v' end end; [exact IH|].
      rewrite (@Rsum_ext m (fun b => k * c (S b) * _) (fun b => k * (c (S b) * (digamma (g' b) - digamma (Rsum m g') + ln (s - x))))) by (intros; ring).
      rewrite Rsum_scal. ring.
    + apply functional_extensionality. intros y. rewrite !Rsum_S_l. cbn [vcons]. rewrite exp_plus. fold k. unfold g'.
      rewrite (@Rsum_ext m (fun b => k * c (S b) * _) (fun b => k * (c (S b) * ln (y b)))) by (intros; ring). rewrite Rsum_scal. ring.
  - pose proof (@seg_loglinear (g 0%nat) G s (c0 + D) (c 0%nat) C Hg0 HG Hs) as H.
    apply (is_RInt_gen_scal (V := R_NormedModule)) with (k := exp L) in H.
    assert (ES : Rsum (S m) g = g 0%nat + G) by (rewrite Rsum_S_l; reflexivity).
    match type of H with is_RInt_gen _ _ _ ?v => assert (E : v = exp (dlog (S m) g s) * (c0 + Rsum (S m) (fun b => c b * (digamma (g b) - digamma (Rsum (S m) g) + ln s)))) end.
    { match goal with |- scal _ ?t = ?r => change (exp L * t = r) end. rewrite <- Rmult_assoc, <- exp_plus. f_equal.
      - f_equal. unfold dlog. rewrite ES, Rsum_S_l. unfold L. change (fun i => log_gamma (g (S i))) with (fun i => log_gamma (g' i)). ring.
      - rewrite Rsum_S_l, ES.
        rewrite (@Rsum_ext m (fun i => c (S i) * (digamma (g (S i)) - digamma (g 0%nat + G) + ln s))
           (fun b => c (S b) * (digamma (g' b) - digamma G) + c (S b) * (digamma G - digamma (g 0%nat + G) + ln s))) by (intros; unfold g'; ring).
        rewrite Rsum_plus, Rsum_scal_r. fold C D. ring. }
    rewrite E in H. refine (is_RInt_gen_ext (V := R_NormedModule) _ _ _ _ H). apply filter_forall. intros ab x _.
    match goal with |- scal _ ?t = ?r => change (exp L * t = r) end.
    rewrite (@Rsum_ext m (fun b => c (S b) * (digamma (g' b) - digamma (Rsum m g') + ln (s - x)))
        (fun b => c (S b) * (digamma (g' b) - digamma G) + c (S b) * ln (s - x))) by (intros; unfold G; ring).
    rewrite Rsum_plus, Rsum_scal_r. fold C D. rewrite <- !Rmult_assoc, <- !exp_plus.
    f_equal; [|ring]. f_equal. unfold dlog, L. fold G. ring.
Qed.
Theorem simplex_linear : forall n g c0 c s, (0 < n)%nat -> (forall b, (b < n)%nat -> 0 < g b) -> 0 < s ->
  simplex_int n s (fun x => exp (Rsum n (fun b => (g b - 1) * ln (x b))) * (c0 + Rsum n (fun b => c b * x b)))
    (exp (dlog n g s) * (c0 + Rsum n (fun b => c b * (s * (g b / Rsum n g))))).
Proof.
  intros n. induction n as [|n IH]; [lia|]. intros g c0 c s _ Hg Hs. destruct n as [|n].
  { cbn [simplex_int Rsum vcons]. unfold dlog. cbn [Rsum]. pose proof (Hg 0%nat ltac:(lia)). f_equal; [f_equal; rewrite !Rplus_0_l; ring|field; lra]. }
  set (m := S n) in *. set (g' := fun b => g (S b)). set (G := Rsum m g').
  assert (HG : 0 < G) by (apply Rsum_pos; [unfold m; lia|intros b Hb; apply Hg; lia]).
  assert (Hg0 : 0 < g 0%nat) by (apply Hg; lia).
  set (D := Rsum m (fun b => c (S b) * (g' b / G))).
  set (L := Rsum m (fun b => log_gamma (g' b)) - log_gamma G).
  exists (fun x => exp ((g 0%nat - 1) * ln x) * (exp (dlog m g' (s - x)) * ((c0 + c 0%nat * x) + Rsum m (fun b => c (S b) * ((s - x) * (g' b / Rsum m g')))))). split.
  - intros x Hx. set (k := exp ((g 0%nat - 1) * ln x)).
    specialize (IH g' (k * (c0 + c 0%nat * x)) (fun b => k * c (S b)) (s - x) ltac:(unfold m; lia) ltac:(intros b Hb; apply Hg; lia) ltac:(lra)).
    replace (fun y => exp (Rsum (S m) (fun b => (g b - 1) * ln (vcons x y b))) * (c0 + Rsum (S m) (fun b => c b * vcons x y b)))
      with (fun y => exp (Rsum m (fun b => (g' b - 1) * ln (y b))) * (k * (c0 + c 0%nat * x) + Rsum m (fun b => k * c (S b) * y b))).
    + match goal with |- simplex_int _ _ _ ?v => match type of IH with simplex_int _ _ _ ?v' => replace v with v' end end; [exact IH|].
      rewrite (@Rsum_ext m (fun b => k * c (S b) * _) (fun b => k * (c (S b) * ((s - x) * (g' b / Rsum m g'))))) by (intros; ring).
      rewrite Rsum_scal. ring.
    + apply functional_extensionality. intros y. rewrite !Rsum_S_l. cbn [vcons]. rewrite exp_plus. fold k. unfold g'.
      rewrite (@Rsum_ext m (fun b => k * c (S b) * _) (fun b => k * (c (S b) * y b))) by (intros; ring). rewrite Rsum_scal. ring.
  - pose proof (@seg_linear (g 0%nat) G s (c0 + s * D) (c 0%nat - D) Hg0 HG Hs) as H.
    apply (is_RInt_gen_scal (V := R_NormedModule)) with (k := exp L) in H.
    assert (ES : Rsum (S m) g = g 0%nat + G) by (rewrite Rsum_S_l; reflexivity).
    match type of H with is_RInt_gen _ _ _ ?v => assert (E : v = exp (dlog (S m) g s) * (c0 + Rsum (S m) (fun b => c b * (s * (g b / Rsum (S m) g))))) end.
    { match goal with |- scal _ ?t = ?r => change (exp L * t = r) end. rewrite <- Rmult_assoc, <- exp_plus. f_equal.
      - f_equal. unfold dlog. rewrite ES, Rsum_S_l. unfold L. change (fun i => log_gamma (g (S i))) with (fun i => log_gamma (g' i)). ring.
      - rewrite Rsum_S_l, ES.
        rewrite (@Rsum_ext m (fun i => c (S i) * (s * (g (S i) / (g 0%nat + G))))
           (fun b => s * (G / (g 0%nat + G)) * (c (S b) * (g' b / G)))) by (intros; unfold g'; field; lra).
        rewrite Rsum_scal. fold D. field. lra. }
    rewrite E in H. refine (is_RInt_gen_ext (V := R_NormedModule) _ _ _ _ H). apply filter_forall. intros ab x _.
    match goal with |- scal _ ?t = ?r => change (exp L * t = r) end.
    rewrite (@Rsum_ext m (fun b => c (S b) * ((s - x) * (g' b / Rsum m g')))
        (fun b => (s - x) * (c (S b) * (g' b / G)))) by (intros; unfold G; ring).
    rewrite Rsum_scal. fold D. rewrite <- !Rmult_assoc, <- !exp_plus.
    f_equal; [|ring]. f_equal. unfold dlog, L. fold G. ring.
Qed.

(** ** Means under the Dirichlet distribution *)
Lemma simplex_scal : forall n s F v k, simplex_int n s F v -> simplex_int n s (fun x => k * F x) (k * v).
Proof.
  intros n. induction n as [|n IH]; intros s F v k H; [destruct H|]. destruct n as [|n].
  - cbn [simplex_int] in *. now rewrite H.
  - destruct H as (h & H1 & H2). exists (fun x => k * h x). split.
    + intros x Hx. apply (IH (s - x) (fun y => F (vcons x y))). now apply H1.
    + exact (is_RInt_gen_scal (V := R_NormedModule) h k v H2).
Qed.
Lemma simplex_ext_open : forall n s F F' v, 0 < s -> (forall x, (forall b, (b < n)%nat -> 0 < x b) -> F x = F' x) -> simplex_int n s F v -> simplex_int n s F' v.
Proof.
  intros n. induction n as [|n IH]; intros s F F' v Hs HF H; [destruct H|]. destruct n as [|n].
  - cbn [simplex_int] in *. rewrite H. apply HF. intros b Hb. replace b with 0%nat by lia. exact Hs.
  - destruct H as (h & H1 & H2). exists h. split; [|exact H2]. intros x Hx. apply (IH (s - x) (fun y => F (vcons x y))); [lra| |now apply H1].
    intros y Hy. apply HF. intros [|b] Hb; cbn [vcons]; [lra|]. apply Hy. lia.
Qed.
Lemma dlpdf n g x : exp (dirichlet_lpdf log_gamma n g x) = exp (- dlog n g 1) * exp (Rsum n (fun b => (g b - 1) * ln (x b))).
Proof. rewrite <- exp_plus. f_equal. unfold dirichlet_lpdf, dlog. rewrite ln_1. change (fun b : nat => g b) with g. ring. Qed.
Theorem dirichlet_law_loglinear n g c0 c f : (0 < n)%nat -> (forall b, (b < n)%nat -> 0 < g b) ->
  (forall x, (forall b, (b < n)%nat -> 0 < x b) -> f x = c0 + Rsum n (fun b => c b * ln (x b))) ->
  dirichlet_law n g f (c0 + Rsum n (fun b => c b * (digamma (g b) - digamma (Rsum n g)))).
Proof.
  intros Hn Hg Hf. pose proof (@simplex_loglinear n g c0 c 1 Hn Hg Rlt_0_1) as H. apply simplex_scal with (k := exp (- dlog n g 1)) in H.
  rewrite <- Rmult_assoc, <- exp_plus, Rplus_opp_l, exp_0, Rmult_1_l in H.
  rewrite (@Rsum_ext n _ (fun b => c b * (digamma (g b) - digamma (Rsum n g)))) in H by (intros; rewrite ln_1; ring).
  refine (@simplex_ext_open n 1 _ _ _ Rlt_0_1 _ H). intros x Hx. cbv beta. rewrite dlpdf, Hf by auto. ring.
Qed.
Theorem dirichlet_law_linear n g c0 c f : (0 < n)%nat -> (forall b, (b < n)%nat -> 0 < g b) ->
  (forall x, (forall b, (b < n)%nat -> 0 < x b) -> f x = c0 + Rsum n (fun b => c b * x b)) ->
  dirichlet_law n g f (c0 + Rsum n (fun b => c b * (g b / Rsum n g))).
Proof.
  intros Hn Hg Hf. pose proof (@simplex_linear n g c0 c 1 Hn Hg Rlt_0_1) as H. apply simplex_scal with (k := exp (- dlog n g 1)) in H.
  rewrite <- Rmult_assoc, <- exp_plus, Rplus_opp_l, exp_0, Rmult_1_l in H.
  rewrite (@Rsum_ext n _ (fun b => c b * (g b / Rsum n g))) in H by (intros; rewrite Rmult_1_l; reflexivity).
  refine (@simplex_ext_open n 1 _ _ _ Rlt_0_1 _ H). intros x Hx. cbv beta. rewrite dlpdf, Hf by auto. ring.
Qed.
Lemma pick_sum n (f : vec) i : (i < n)%nat -> Rsum n (fun b => (if Nat.eqb b i then 1 else 0) * f b) = f i.
Proof.
  intros Hi. rewrite (@Rsum_ext n _ (fun b => if Nat.eqb b i then f b else 0)) by (intros b _; destruct (Nat.eqb b i); ring).
  induction n as [|n IH]; [lia|]. cbn [Rsum]. destruct (Nat.eqb_spec n i) as [->|Hne].
  - rewrite (@Rsum_0 i); [ring|]. intros b Hb. destruct (Nat.eqb_spec b i); [lia|reflexivity].
  - rewrite IH by lia. ring.
Qed.
Theorem dirichlet_law_one n g : (0 < n)%nat -> (forall b, (b < n)%nat -> 0 < g b) -> dirichlet_law n g (fun _ => 1) 1.
Proof.
  intros Hn Hg. pose proof (@dirichlet_law_linear n g 1 (fun _ => 0) (fun _ => 1) Hn Hg) as H. rewrite Rsum_0, Rplus_0_r in H by (intros; ring).
  apply H. intros x _. rewrite Rsum_0 by (intros; ring). ring.
Qed.
Theorem dirichlet_law_entry n g i : (0 < n)%nat -> (forall b, (b < n)%nat -> 0 < g b) -> (i < n)%nat -> dirichlet_law n g (fun x => x i) (g i / Rsum n g).
Proof.
  intros Hn Hg Hi. pose proof (@dirichlet_law_linear n g 0 (fun b => if Nat.eqb b i then 1 else 0) (fun x => x i) Hn Hg) as H.
  cbv beta in H. rewrite (@pick_sum n (fun b => g b / Rsum n g) i Hi), Rplus_0_l in H. apply H. intros x _. rewrite pick_sum by auto. ring.
Qed.
Theorem dirichlet_law_log n g i : (0 < n)%nat -> (forall b, (b < n)%nat -> 0 < g b) -> (i < n)%nat -> dirichlet_law n g (fun x => ln (x i)) (digamma (g i) - digamma (Rsum n g)).
Proof.
  intros Hn Hg Hi. pose proof (@dirichlet_law_loglinear n g 0 (fun b => if Nat.eqb b i then 1 else 0) (fun x => ln (x i)) Hn Hg) as H.
  cbv beta in H. rewrite (@pick_sum n (fun b => digamma (g b) - digamma (Rsum n g)) i Hi), Rplus_0_l in H. apply H. intros x _. rewrite (@pick_sum n (fun b => ln (x b)) i Hi). ring.
Qed.
