(** * Props_Stability: C116, check_stability decides whether activity stays bounded. *)
From Verif Require Import Prelude ExtReal Arrays Spec_Basis Spec_Discrete Spec_CtJoint Spec_Simulation Spec_Stability
  M_Basis M_Parents M_Discrete M_SimLaw M_Continuous M_Stability L_Basis L_Discrete L_Perron L_Stability
  Props_Discrete Props_Continuous Props_CtJoint Props_SimLaw.
From Coq Require Import Classical.
From Coquelicot Require Import Coquelicot.
Set Implicit Arguments.
Open Scope R_scope.

Lemma some_multiple c M : 0 < c -> exists n, M < INR n * c.
Proof.
  intros Hc. exists (Z.to_nat (Z.max 0 (up (M / c)))). destruct (archimed (M / c)) as (H & _).
  assert (M / c < INR (Z.to_nat (Z.max 0 (up (M / c))))).
  { rewrite INR_IZR_INZ, Z2Nat.id by lia. eapply Rlt_le_trans; [exact H|]. apply IZR_le. lia. }
  apply (Rmult_lt_compat_r c) in H0; [|auto]. unfold Rdiv in H0. rewrite Rmult_assoc, Rinv_l, Rmult_1_r in H0 by lra. exact H0.
Qed.
(** ** The test *)
Lemma amax_ge l x : amax l = Ok x -> forall y, In y l -> y <= x.
Proof.
  revert x. induction l as [|a l IH]; intros x E y Hy; [destruct Hy|].
  destruct l as [|b l].
  - cbn in E. injection E as <-. destruct Hy as [->|[]]. lra.
  - change (amax (a :: b :: l)) with (bindr (amax (b :: l)) (fun y => Ok (Rmax a y))) in E.
    destruct (amax (b :: l)) as [m|] eqn:E1; cbn [bindr] in E; [|discriminate]. injection E as <-.
    destruct Hy as [->|Hy]; [apply Rmax_l|]. eapply Rle_trans; [apply (IH m eq_refl y Hy)|apply Rmax_r].
Qed.
Lemma amax_in l x : amax l = Ok x -> In x l.
Proof.
  revert x. induction l as [|a l IH]; intros x E; [discriminate|]. destruct l as [|b l].
  - cbn in E. injection E as <-. now left.
  - change (amax (a :: b :: l)) with (bindr (amax (b :: l)) (fun y => Ok (Rmax a y))) in E.
    destruct (amax (b :: l)) as [m|] eqn:E1; cbn [bindr] in E; [|discriminate]. injection E as <-.
    unfold Rmax. destruct (Rle_dec a m); [right; now apply IH|now left].
Qed.

Lemma not_contracting K W z : nonneg K W -> eigenvalue K W z -> 1 <= Cmod z -> ~ contracts K W 1.
Proof.
  intros HW Hz H1. destruct (eigen_moduli HW Hz) as (u & Hu & H0 & H). apply (@no_shrink K W u HW Hu H0).
  intros i Hi. specialize (H i Hi). specialize (Hu i Hi). nra.
Qed.

(** Fewer than 100 processes: the test is right both ways. *)
Lemma test_small eigvals eigs1 K W b : nonneg K W -> (K < 100)%nat -> spectrum K W (eigvals K W) ->
  stability_test eigvals eigs1 K W = Ok b -> (b = true <-> contracts K W 1).
Proof.
  intros HW HK Hs. unfold stability_test. destruct (Nat.ltb_spec K 100); [|lia].
  destruct (amax (map fst (eigvals K W))) as [x|] eqn:E; cbn [bindr]; [|discriminate]. intros Eb. injection Eb as <-.
  split.
  - intros Hx. apply Rltb_true in Hx. apply perron; [exact HW|]. intros lam v Hl Hv H0 He.
    pose proof (@real_eigen K W lam v H0 He) as Hz. apply Hs in Hz.
    pose proof (@amax_ge _ _ E lam) as Hle. assert (lam <= x); [|lra]. apply Hle. apply in_map_iff. now exists (RtoC lam).
  - intros Hc. destruct (Rltb x 1) eqn:Ex; [reflexivity|exfalso]. apply Rltb_false in Ex.
    apply amax_in in E. apply in_map_iff in E as (z & Ez & Hz). apply Hs in Hz.
    apply (@not_contracting K W z HW Hz); [|exact Hc]. pose proof (Re_le_Cmod z). lra.
Qed.

(** 100 or more: a negative answer is right; a positive one is right when one eigenvalue dominates. *)
Lemma test_large_false eigvals eigs1 K W : nonneg K W -> (100 <= K)%nat -> dominant K W (eigs1 K W) ->
  stability_test eigvals eigs1 K W = Ok false -> ~ contracts K W 1.
Proof.
  intros HW HK (Hz & _). unfold stability_test. destruct (Nat.ltb_spec K 100); [lia|]. intros E. injection E as E.
  unfold clt1 in E. apply Bool.orb_false_iff in E as (E1 & _). apply Rltb_false in E1.
  apply (@not_contracting K W _ HW Hz). pose proof (Re_le_Cmod (eigs1 K W)). lra.
Qed.
Lemma nonneg_root K W z : nonneg K W -> eigenvalue K W z -> 1 <= Cmod z ->
  exists lam, Cmod z <= lam /\ eigenvalue K W (RtoC lam).
Proof.
  intros HW Hz H1. apply NNPP. intros Hno.
  set (A := fun i j => W i j / Cmod z).
  assert (HA : nonneg K A). { intros i j Hi Hj. unfold A. apply Rmult_le_pos; [auto|]. left. apply Rinv_0_lt_compat. lra. }
  assert (EA : forall v i, mv K A v i = mv K W v i / Cmod z).
  { intros v i. unfold mv, A, Rdiv. rewrite <- Rsum_scal_r. apply Rsum_ext. intros. ring. }
  destruct (eigen_moduli HW Hz) as (u & Hu & H0 & H).
  apply (@no_shrink K A u HA Hu H0).
  - intros i Hi. rewrite EA. specialize (H i Hi). apply (Rmult_le_reg_l (Cmod z)); [lra|].
    replace (Cmod z * (mv K W u i / Cmod z)) with (mv K W u i) by (field; lra). exact H.
  - apply perron; [exact HA|]. intros lam v Hl Hv Hv0 He. apply Hno. exists (Cmod z * lam). split; [nra|].
    apply (@real_eigen K W _ v Hv0). intros i Hi. specialize (He i Hi). rewrite EA in He.
    replace (mv K W v i) with (Cmod z * (mv K W v i / Cmod z)) by (field; lra). rewrite He. ring.
Qed.
Lemma test_large_true eigvals eigs1 K W : nonneg K W -> (100 <= K)%nat -> strictly_dominant K W (eigs1 K W) ->
  stability_test eigvals eigs1 K W = Ok true -> contracts K W 1.
Proof.
  intros HW HK (Hz & Hd). unfold stability_test. destruct (Nat.ltb_spec K 100); [lia|]. intros E. injection E as E.
  assert (Hle : forall z', eigenvalue K W z' -> Cmod z' <= Cmod (eigs1 K W)).
  { intros z' Hz'. destruct (classic (z' = eigs1 K W)) as [->|Hn]; [lra|left; auto]. }
  destruct (Rle_or_lt 1 (Cmod (eigs1 K W))) as [H1|H1].
  - exfalso. destruct (nonneg_root HW Hz H1) as (lam & Hl & Hel).
    destruct (classic (RtoC lam = eigs1 K W)) as [Er|En].
    + rewrite <- Er in E. unfold clt1 in E. cbn [fst snd RtoC] in E.
      apply Bool.orb_true_iff in E as [E|E].
      * apply Rltb_true in E. lra.
      * apply andb_prop in E as (_ & E). apply Rltb_true in E. lra.
    + specialize (Hd _ Hel En). rewrite Cmod_R in Hd. pose proof (Rle_abs lam). lra.
  - apply perron; [exact HW|]. intros lam v Hl Hv Hv0 He. pose proof (@real_eigen K W lam v Hv0 He) as Hz'.
    specialize (Hle _ Hz'). rewrite Cmod_R in Hle. pose proof (Rle_abs lam). lra.
Qed.

(** ** Cascades *)
Definition bounded_cascades (K : nat) (w : mat) : Prop :=
  exists M, forall n k, (k < K)%nat -> cascade K w n k <= M.

Lemma cascade_S K w n k : cascade K w (S n) k = 1 + Rsum K (fun b => w k b * cascade K w n b).
Proof.
  unfold cascade. rewrite Rsum_S_l. cbn [generation]. f_equal. rewrite Rsum_swap. apply Rsum_ext. intros b Hb.
  now rewrite Rsum_scal.
Qed.
Lemma contracts_bounded K W : nonneg K W -> contracts K W 1 -> bounded_cascades K W.
Proof.
  intros HW (x & Hx & H).
  destruct (@common_slack K (fun i => 1 * x i - mv K W x i)) as (e & He & Hs).
  { intros i Hi. specialize (H i Hi). lra. }
  assert (Hmv : forall i, (i < K)%nat -> 0 <= mv K W x i) by (intros; apply mv_nonneg; auto; intros; left; auto).
  assert (Hb : forall n k, (k < K)%nat -> cascade K W n k <= / e * x k).
  { induction n as [|n IH]; intros k Hk.
    - unfold cascade. cbn. specialize (Hs k Hk). specialize (Hmv k Hk). apply (Rmult_le_reg_l e); [auto|].
      replace (e * (/ e * x k)) with (x k) by (field; lra). lra.
    - rewrite cascade_S. specialize (Hs k Hk).
      assert (Rsum K (fun b => W k b * cascade K W n b) <= / e * mv K W x k).
      { rewrite <- mv_scal. apply (@mv_le K W (cascade K W n) (fun j => / e * x j) k HW Hk). auto. }
      assert (/ e * (e + mv K W x k) <= / e * x k).
      { apply Rmult_le_compat_l; [left; now apply Rinv_0_lt_compat|lra]. }
      rewrite Rmult_plus_distr_l, Rinv_l in H1 by lra. lra. }
  destruct (common_bound K (fun k => / e * x k)) as (B & _ & HB). exists B. intros n k Hk. eapply Rle_trans; [apply Hb, Hk|auto].
Qed.
Lemma bounded_contracts K W : nonneg K W -> bounded_cascades K W -> contracts K W 1.
Proof.
  intros HW (M & HM). apply perron; [exact HW|]. intros lam v Hl Hv (i0 & Hi0 & H0) He.
  destruct (common_bound K v) as (B & HB & Hvb).
  assert (Hg : forall n k, (k < K)%nat -> v k / B <= generation K W n k).
  { induction n as [|n IH]; intros k Hk; cbn [generation].
    - apply (Rmult_le_reg_l B); [auto|]. replace (B * (v k / B)) with (v k) by (field; lra). specialize (Hvb k Hk). lra.
    - eapply Rle_trans; [|apply (@mv_le K W (fun j => / B * v j) (generation K W n) k HW Hk)].
      + rewrite mv_scal, He by auto. specialize (Hv k Hk). assert (0 < / B) by now apply Rinv_0_lt_compat. unfold Rdiv. rewrite (Rmult_comm (v k)). apply Rmult_le_compat_l; [lra|nra].
      + intros j Hj. rewrite Rmult_comm. now apply IH. }
  assert (Hc : forall n, INR (S n) * (v i0 / B) <= M).
  { intros n. eapply Rle_trans; [|apply (HM n i0 Hi0)]. unfold cascade. rewrite <- (Rsum_const (S n) (v i0 / B)).
    apply Rsum_le. intros; now apply Hg. }
  assert (Hd : 0 < v i0 / B) by now apply Rdiv_lt_0_compat.
  destruct (Rle_or_lt M 0) as [HM0|HM0].
  - specialize (Hc O). cbn in Hc. lra.
  - destruct (@some_multiple (v i0 / B) M Hd) as (n & Hn). specialize (Hc n). rewrite S_INR in Hc. nra.
Qed.

(** C116a.  Continuous time, fewer than 100 processes: True exactly when the mean cascade sizes are bounded. *)
Theorem C116_ct_cascades_partial :
  forall eigvals eigs1 m b, (cm_K m < 100)%nat ->
  (forall i j, (i < cm_K m)%nat -> (j < cm_K m)%nat -> 0 <= cm_W m i j) ->
  spectrum (cm_K m) (fun a b => b2R (cm_A m a b) * cm_W m a b) (eigvals (cm_K m) (fun a b => b2R (cm_A m a b) * cm_W m a b)) ->
  ct_check_stability eigvals eigs1 m = Ok b ->
  (b = true <-> bounded_cascades (cm_K m) (conn m)).
Proof.
  intros eigvals eigs1 m b HK HW Hs E. unfold ct_check_stability in E.
  set (W := fun a b => b2R (cm_A m a b) * cm_W m a b) in E, Hs.
  assert (HWn : nonneg (cm_K m) W).
  { intros i j Hi Hj. unfold W. specialize (HW i j Hi Hj). destruct (cm_A m i j); cbn; lra. }
  assert (Ec : forall n k, cascade (cm_K m) (conn m) n k = cascade (cm_K m) W n k).
  { intros n k. unfold cascade. apply Rsum_ext. intros i _. revert k. induction i as [|i IH]; intros k; cbn; [reflexivity|].
    apply Rsum_ext. intros b0 _. rewrite IH. f_equal. unfold conn, W. destruct (cm_A m k b0); cbn; ring. }
  rewrite (@test_small eigvals eigs1 _ W b HWn HK Hs E). split.
  - intros Hc. destruct (contracts_bounded HWn Hc) as (M & HM). exists M. intros n k Hk. rewrite Ec. auto.
  - intros (M & HM). apply bounded_contracts; [exact HWn|]. exists M. intros n k Hk. rewrite <- Ec. auto.
Qed.
Print Assumptions C116_ct_cascades_partial.

(** ** Mean counts of the discrete simulator *)
Lemma Series_pmf_affine mu c b : Series (fun n => pmf mu n * (c + b * INR n)) = c + b * mu.
Proof.
  assert (Hp : is_series (pmf mu) 1).
  { assert (Hex : ex_series (pmf mu)).
    { apply (ex_series_ext (fun n => exp (- mu) * (mu ^ n * / INR (fact n)))).
      { intros n. unfold pmf, Rdiv. symmetry. apply Rmult_assoc. }
      exists (exp (- mu) * exp mu). apply (@is_series_scal R_AbsRing R_NormedModule (exp (- mu))).
      pose proof (is_exp_Reals mu) as H. apply is_pseries_R in H.
      eapply is_series_ext; [|exact H]. intros n. cbn. apply Rmult_comm. }
    apply Series_correct in Hex. now rewrite Series_pmf in Hex. }
  assert (Hn : is_series (fun n => INR n * pmf mu n) mu).
  { apply is_series_decr_1. change (INR 0 * pmf mu 0) with (0 * pmf mu 0). rewrite Rmult_0_l.
    change (is_series (fun n => INR (S n) * pmf mu (S n)) (plus mu (opp 0))).
    replace (plus mu (opp 0)) with (mu * 1). 2:{ change (mu * 1 = mu + - 0). ring. }
    apply (is_series_ext (fun n => mu * pmf mu n)).
    - intros n. change (mu * pmf mu n = INR (S n) * pmf mu (S n)). unfold pmf. rewrite fact_simpl, mult_INR. cbn [pow]. field. split; [apply INR_fact_neq_0|]. apply not_0_INR. lia.
    - apply (@is_series_scal R_AbsRing R_NormedModule mu (pmf mu) 1 Hp). }
  apply is_series_unique. apply (is_series_ext (fun n => plus (c * pmf mu n) (b * (INR n * pmf mu n)))).
  - intros n. change (c * pmf mu n + b * (INR n * pmf mu n) = pmf mu n * (c + b * INR n)). ring.
  - replace (c + b * mu) with (c * 1 + b * mu) by ring. apply (is_series_plus (fun n => c * pmf mu n) (fun n => b * (INR n * pmf mu n))).
    + apply (@is_series_scal R_AbsRing R_NormedModule c (pmf mu) 1 Hp).
    + apply (@is_series_scal R_AbsRing R_NormedModule b (fun n => INR n * pmf mu n) mu Hn).
Qed.
Lemma over_row_affine K mu a b :
  over_row K (fun v => Rprod K (fun k => pmf (mu k) (v k)) * (a + Rsum K (fun k => b k * INR (v k))))
  = a + Rsum K (fun k => b k * mu k).
Proof.
  revert a. induction K as [|K IH]; intros a; [cbn; ring|]. cbn [over_row Rprod Rsum].
  transitivity (over_row K (fun v => Rprod K (fun k => pmf (mu k) (v k)) * ((a + b K * mu K) + Rsum K (fun k => b k * INR (v k)))));
    [|rewrite IH; ring].
  apply over_row_ext. intros v.
  rewrite (Series_ext _ (fun n => Rprod K (fun k => pmf (mu k) (v k)) * (pmf (mu K) n * ((a + Rsum K (fun k => b k * INR (v k))) + b K * INR n)))).
  - rewrite Series_scal_l, Series_pmf_affine. ring.
  - intros n. rewrite upd_same.
    rewrite (@Rprod_ext K (fun k => pmf (mu k) (upd v K n k)) (fun k => pmf (mu k) (v k))) by (intros; now rewrite upd_other by lia).
    rewrite (@Rsum_ext K (fun k => b k * INR (upd v K n k)) (fun k => b k * INR (v k))) by (intros; now rewrite upd_other by lia).
    ring.
Qed.

Lemma gen_law_ext_reach m T f g :
  (forall pois, f (gen_loop m pois T) = g (gen_loop m pois T)) -> gen_law m T f = gen_law m T g.
Proof. intros H. rewrite !gen_law_counts. apply over_counts_ext. intros c. now rewrite H. Qed.

(** Response of k2 in bin t to an event of k1 in bin s, in expected events. *)
Definition ker (m : dmodel) (t s k2 k1 : nat) : R :=
  if (Nat.ltb s t && Nat.ltb t (s + dm_L m))%bool then dm_dt m * gen_H m (t - s) k2 k1 else 0.
Fixpoint mean_tab (m : dmodel) (n : nat) : nat -> nat -> R :=
  match n with
  | O => fun _ _ => 0
  | S p => upd (mean_tab m p) p (fun k => dm_dt m * dm_lam m k +
             Rsum p (fun s => Rsum (dm_K m) (fun k1 => ker m p s k k1 * mean_tab m p s k1)))
  end.

Lemma gen_law_affine m T : forall a0 (a : nat -> nat -> R),
  gen_law m T (fun st => a0 + Rsum T (fun t => Rsum (dm_K m) (fun k => a t k * IZR (gs_S st t k))))
  = a0 + Rsum T (fun t => Rsum (dm_K m) (fun k => a t k * mean_tab m T t k)).
Proof.
  induction T as [|T IH]; intros a0 a; [reflexivity|]. cbn [gen_law].
  set (a' := fun s k1 => a s k1 + Rsum (dm_K m) (fun k => a T k * ker m T s k k1)).
  set (a0' := a0 + Rsum (dm_K m) (fun k => a T k * (dm_dt m * dm_lam m k))).
  transitivity (gen_law m T (fun st => a0' + Rsum T (fun t => Rsum (dm_K m) (fun k => a' t k * IZR (gs_S st t k))))).
  - apply gen_law_ext_reach. intros pois. set (st := gen_loop m pois T).
    transitivity ((a0 + Rsum T (fun t => Rsum (dm_K m) (fun k => a t k * IZR (gs_S st t k)))) +
                  Rsum (dm_K m) (fun k => a T k * (gs_R st T k * dm_dt m))).
    + rewrite <- over_row_affine. apply over_row_ext. intros v. f_equal. cbn [Rsum]. rewrite Rplus_assoc. f_equal. f_equal.
      * apply Rsum_ext. intros t Ht. apply Rsum_ext. intros k Hk. unfold gen_step. cbn [gs_S].
        destruct (Nat.eqb_spec t T); [lia|reflexivity].
      * apply Rsum_ext. intros k Hk. unfold gen_step, these. cbn [gs_S]. rewrite Nat.eqb_refl, <- INR_IZR_INZ. reflexivity.
    + assert (ER : forall k, gs_R st T k * dm_dt m = dm_dt m * dm_lam m k +
         Rsum T (fun s => Rsum (dm_K m) (fun k1 => ker m T s k k1 * IZR (gs_S st s k1)))).
      { intros k. unfold st. rewrite gen_loop_R. fold st. rewrite Rmult_plus_distr_r. f_equal; [ring|].
        rewrite <- Rsum_scal_r. apply Rsum_ext. intros s Hs. unfold ker.
        destruct (Nat.leb_spec s T); [|lia]. destruct (Nat.ltb_spec s T); [|lia]. cbn [andb].
        destruct (Nat.ltb T (s + dm_L m)).
        - rewrite <- Rsum_scal_r. apply Rsum_ext. intros; ring.
        - rewrite Rmult_0_l. symmetry. apply Rsum_0. intros; ring. }
      unfold a0', a'.
      rewrite (@Rsum_ext (dm_K m) (fun k => a T k * (gs_R st T k * dm_dt m))
        (fun k => a T k * (dm_dt m * dm_lam m k) + Rsum T (fun s => Rsum (dm_K m) (fun k1 => a T k * ker m T s k k1 * IZR (gs_S st s k1))))).
      2:{ intros k Hk. rewrite ER, Rmult_plus_distr_l. f_equal. rewrite <- Rsum_scal. apply Rsum_ext. intros s _.
          rewrite <- Rsum_scal. apply Rsum_ext. intros; ring. }
      rewrite Rsum_plus.
      assert (E2 : Rsum (dm_K m) (fun k => Rsum T (fun s => Rsum (dm_K m) (fun k1 => a T k * ker m T s k k1 * IZR (gs_S st s k1))))
        = Rsum T (fun s => Rsum (dm_K m) (fun k1 => Rsum (dm_K m) (fun k => a T k * ker m T s k k1) * IZR (gs_S st s k1)))).
      { rewrite Rsum_swap. apply Rsum_ext. intros s _. rewrite Rsum_swap. apply Rsum_ext. intros k1 _. now rewrite Rsum_scal_r. }
      rewrite E2.
      rewrite (@Rsum_ext T (fun t => Rsum (dm_K m) (fun k => (a t k + Rsum (dm_K m) (fun k0 => a T k0 * ker m T t k0 k)) * IZR (gs_S st t k)))
        (fun t => Rsum (dm_K m) (fun k => a t k * IZR (gs_S st t k)) +
                  Rsum (dm_K m) (fun k => Rsum (dm_K m) (fun k0 => a T k0 * ker m T t k0 k) * IZR (gs_S st t k)))).
      2:{ intros t _. rewrite <- Rsum_plus. apply Rsum_ext. intros; ring. }
      rewrite Rsum_plus. ring.
  - rewrite IH. cbn [Rsum mean_tab]. unfold a0', a'.
    rewrite (@Rsum_ext T (fun t => Rsum (dm_K m) (fun k => a t k * upd (mean_tab m T) T (fun k => dm_dt m * dm_lam m k +
             Rsum T (fun s => Rsum (dm_K m) (fun k1 => ker m T s k k1 * mean_tab m T s k1))) t k))
        (fun t => Rsum (dm_K m) (fun k => a t k * mean_tab m T t k))).
    2:{ intros t Ht. rewrite upd_other by lia. reflexivity. }
    rewrite upd_same.
    rewrite (@Rsum_ext T (fun t => Rsum (dm_K m) (fun k => (a t k + Rsum (dm_K m) (fun k0 => a T k0 * ker m T t k0 k)) * mean_tab m T t k))
        (fun t => Rsum (dm_K m) (fun k => a t k * mean_tab m T t k) +
                  Rsum (dm_K m) (fun k => Rsum (dm_K m) (fun k0 => a T k0 * ker m T t k0 k) * mean_tab m T t k))).
    2:{ intros t _. rewrite <- Rsum_plus. apply Rsum_ext. intros; ring. }
    rewrite Rsum_plus.
    assert (E2 : Rsum (dm_K m) (fun k => a T k * Rsum T (fun s => Rsum (dm_K m) (fun k1 => ker m T s k k1 * mean_tab m T s k1)))
      = Rsum T (fun s => Rsum (dm_K m) (fun k1 => Rsum (dm_K m) (fun k => a T k * ker m T s k k1) * mean_tab m T s k1))).
    { transitivity (Rsum (dm_K m) (fun k => Rsum T (fun s => Rsum (dm_K m) (fun k1 => a T k * ker m T s k k1 * mean_tab m T s k1)))).
      - apply Rsum_ext. intros k _. rewrite <- Rsum_scal. apply Rsum_ext. intros s _. rewrite <- Rsum_scal. apply Rsum_ext. intros; ring.
      - rewrite Rsum_swap. apply Rsum_ext. intros s _. rewrite Rsum_swap. apply Rsum_ext. intros k1 _. now rewrite Rsum_scal_r. }
    rewrite (@Rsum_ext (dm_K m) (fun k => a T k * (dm_dt m * dm_lam m k + Rsum T (fun s => Rsum (dm_K m) (fun k1 => ker m T s k k1 * mean_tab m T s k1))))
      (fun k => a T k * (dm_dt m * dm_lam m k) + a T k * Rsum T (fun s => Rsum (dm_K m) (fun k1 => ker m T s k k1 * mean_tab m T s k1)))) by (intros; ring).
    rewrite Rsum_plus, E2. ring.
Qed.

Definition mu (m : dmodel) (t k : nat) : R := mean_tab m (S t) t k.
Lemma mean_tab_stable m T t k : (t < T)%nat -> mean_tab m T t k = mu m t k.
Proof.
  intros H. unfold mu. induction H as [|T H IH]; [reflexivity|]. rewrite <- IH. cbn [mean_tab]. now rewrite upd_other by lia.
Qed.
Lemma mu_eq m t k : mu m t k = dm_dt m * dm_lam m k + Rsum t (fun s => Rsum (dm_K m) (fun k1 => ker m t s k k1 * mu m s k1)).
Proof.
  unfold mu at 1. cbn [mean_tab]. rewrite upd_same. f_equal. apply Rsum_ext. intros s Hs. apply Rsum_ext. intros k1 _.
  now rewrite mean_tab_stable.
Qed.
Lemma mu_eq_wide m t k N : (t <= N)%nat ->
  mu m t k = dm_dt m * dm_lam m k + Rsum N (fun s => Rsum (dm_K m) (fun k1 => ker m t s k k1 * mu m s k1)).
Proof.
  intros H. rewrite mu_eq. f_equal. rewrite (@Rsum_split_at N t) by lia.
  rewrite (@Rsum_0 (N - t)); [ring|]. intros i Hi. apply Rsum_0. intros k1 _. unfold ker.
  destruct (Nat.ltb_spec (t + i) t); [lia|]. cbn [andb]. ring.
Qed.
(** The expected counts of the simulation, in closed form: they do not depend on the length of the run. *)
Lemma expected_count_mu m T t k : (t < T)%nat -> (k < dm_K m)%nat -> expected_count m T t k = mu m t k.
Proof.
  intros Ht Hk. unfold expected_count.
  pose proof (gen_law_affine m T 0 (fun t' k' => if Nat.eqb t t' then if Nat.eqb k k' then 1 else 0 else 0)) as H.
  assert (HS : forall F : nat -> nat -> R,
     0 + Rsum T (fun t' => Rsum (dm_K m) (fun k' => (if Nat.eqb t t' then if Nat.eqb k k' then 1 else 0 else 0) * F t' k')) = F t k).
  { intros F. rewrite Rplus_0_l.
    rewrite (@Rsum_ext T _ (fun t' => if Nat.eqb t t' then F t' k else 0)); [now apply (@Rsum_pick T t (fun i => F i k))|].
    intros t' _. destruct (Nat.eqb t t').
    - rewrite <- (@Rsum_pick (dm_K m) k (F t')) by auto. apply Rsum_ext. intros k' _. destruct (Nat.eqb k k'); ring.
    - apply Rsum_0. intros; ring. }
  cbv beta in H.
  rewrite (@gen_law_ext m T _ _ (fun st => HS (fun t k => IZR (gs_S st t k)))) in H.
  rewrite H, HS. now apply mean_tab_stable.
Qed.

(** A model whose responses carry their whole weight: non-negative parameters, unit-volume basis, impulse weights summing
    to 1 (C01, C22). *)
Definition unit_responses (m : dmodel) : Prop :=
  nonneg_params m /\ 0 < dm_dt m /\ stochastic_g (dm_K m) (dm_B m) (dm_g m) /\
  normalised_basis (dm_dt m) (dm_L m) (dm_B m) (dm_bas m).

Lemma W_nonneg m : nonneg_params m -> nonneg (dm_K m) (W_effective m).
Proof.
  intros (_ & HW & _) i j Hi Hj. rewrite W_effective_net. now apply net_weight_nonneg.
Qed.
Lemma kernel_mass m k1 k2 : unit_responses m -> (k1 < dm_K m)%nat -> (k2 < dm_K m)%nat ->
  Rsum (dm_L m) (fun l => dm_dt m * gen_H m l k2 k1) = W_effective m k1 k2.
Proof.
  intros (_ & _ & Hg & Hb) H1 H2. unfold gen_H.
  transitivity (W_effective m k1 k2 * Rsum (dm_B m) (fun b => dm_g m k1 k2 b * (dm_dt m * Rsum (dm_L m) (fun l => dm_bas m l b)))).
  - rewrite (@Rsum_ext (dm_L m) _ (fun l => W_effective m k1 k2 * Rsum (dm_B m) (fun b => dm_dt m * (dm_bas m l b * dm_g m k1 k2 b)))).
    2:{ intros l _. rewrite Rsum_scal. ring. }
    rewrite Rsum_scal, Rsum_swap. f_equal. apply Rsum_ext. intros b _. rewrite <- Rsum_scal, <- Rsum_scal. apply Rsum_ext. intros; ring.
  - rewrite (@Rsum_ext (dm_B m) _ (fun b => dm_g m k1 k2 b)). 2:{ intros b Hb'. destruct (Hb b Hb') as (_ & ->). ring. }
    destruct (Hg k1 k2 H1 H2) as (_ & ->). ring.
Qed.
Lemma kernel_nonneg m l k1 k2 : unit_responses m -> (l < dm_L m)%nat -> (k1 < dm_K m)%nat -> (k2 < dm_K m)%nat ->
  0 <= dm_dt m * gen_H m l k2 k1.
Proof.
  intros (Hn & Hd & _) Hl H1 H2. pose proof (@W_nonneg m Hn k1 k2 H1 H2) as HW. destruct Hn as (_ & _ & Hg & Hb).
  apply Rmult_le_pos; [lra|]. unfold gen_H. apply Rmult_le_pos; [exact HW|]. apply Rsum_nonneg. intros b Hb'. apply Rmult_le_pos; auto.
Qed.
Lemma ker_nonneg m t s k1 k2 : unit_responses m -> (k1 < dm_K m)%nat -> (k2 < dm_K m)%nat -> 0 <= ker m t s k2 k1.
Proof.
  intros Hu H1 H2. unfold ker. destruct (Nat.ltb_spec s t), (Nat.ltb_spec t (s + dm_L m)); cbn [andb]; try lra.
  apply kernel_nonneg; auto. lia.
Qed.
Lemma mu_nonneg m t k : unit_responses m -> (k < dm_K m)%nat -> 0 <= mu m t k.
Proof.
  intros Hu. revert k. induction t as [t IH] using (well_founded_induction lt_wf). intros k Hk. rewrite mu_eq.
  assert (0 <= Rsum t (fun s => Rsum (dm_K m) (fun k1 => ker m t s k k1 * mu m s k1))).
  { apply Rsum_nonneg. intros s Hs. apply Rsum_nonneg. intros k1 Hk1. apply Rmult_le_pos; [now apply ker_nonneg|now apply IH]. }
  destruct Hu as ((Hl & _) & Hd & _). specialize (Hl k Hk). nra.
Qed.
Lemma Rsum_trunc n L f : (forall l, (l < L)%nat -> 0 <= f l) -> Rsum n (fun l => if Nat.ltb l L then f l else 0) <= Rsum L f.
Proof.
  intros H. destruct (le_lt_dec n L) as [Hn|Hn].
  - rewrite (@Rsum_ext n _ f) by (intros i Hi; destruct (Nat.ltb_spec i L); [reflexivity|lia]).
    rewrite (@Rsum_split_at L n) by lia. assert (0 <= Rsum (L - n) (fun i => f (n + i)%nat)); [|lra].
    apply Rsum_nonneg. intros i Hi. apply H. lia.
  - rewrite (@Rsum_split_at n L) by lia. rewrite (@Rsum_0 (n - L)) by (intros i Hi; destruct (Nat.ltb_spec (L + i) L); [lia|reflexivity]).
    rewrite (@Rsum_ext L _ f); [lra|]. intros i Hi. destruct (Nat.ltb_spec i L); [reflexivity|lia].
Qed.
Lemma ker_past m t k1 k2 : unit_responses m -> (k1 < dm_K m)%nat -> (k2 < dm_K m)%nat ->
  Rsum t (fun s => ker m t s k2 k1) <= W_effective m k1 k2.
Proof.
  intros Hu H1 H2. rewrite <- (@kernel_mass m k1 k2) by auto.
  set (f := fun l => dm_dt m * gen_H m l k2 k1).
  assert (Hf : forall l, (l < dm_L m)%nat -> 0 <= f l) by (intros; now apply kernel_nonneg).
  eapply Rle_trans; [|apply (@Rsum_trunc (S t) (dm_L m) f Hf)]. rewrite Rsum_S_l, Rsum_rev.
  assert (0 <= (if Nat.ltb 0 (dm_L m) then f 0%nat else 0)) by (destruct (Nat.ltb_spec 0 (dm_L m)); [now apply Hf|lra]).
  assert (Rsum t (fun i => ker m t (t - 1 - i) k2 k1) = Rsum t (fun i => if Nat.ltb (S i) (dm_L m) then f (S i) else 0)); [|lra].
  apply Rsum_ext. intros i Hi. unfold ker. destruct (Nat.ltb_spec (t - 1 - i) t); [|lia]. cbn [andb].
  replace (t - (t - 1 - i))%nat with (S i) by lia.
  destruct (Nat.ltb_spec t (t - 1 - i + dm_L m)), (Nat.ltb_spec (S i) (dm_L m)); try lia; reflexivity.
Qed.
Lemma ker_future m n s k1 k2 : unit_responses m -> (forall b, (b < dm_B m)%nat -> dm_bas m 0%nat b = 0) ->
  (s < n)%nat -> (k1 < dm_K m)%nat -> (k2 < dm_K m)%nat ->
  Rsum (n + dm_L m) (fun t => ker m t s k2 k1) = W_effective m k1 k2.
Proof.
  intros Hu H0 Hs H1 H2. rewrite <- (@kernel_mass m k1 k2) by auto.
  set (f := fun l => dm_dt m * gen_H m l k2 k1).
  assert (Hf0 : f 0%nat = 0).
  { unfold f, gen_H. rewrite (@Rsum_0 (dm_B m)); [ring|]. intros b Hb. rewrite H0 by auto. ring. }
  rewrite (@Rsum_split_at (n + dm_L m) s) by lia.
  rewrite (@Rsum_0 s). 2:{ intros t Ht. unfold ker. destruct (Nat.ltb_spec s t); [lia|reflexivity]. }
  rewrite Rplus_0_l. rewrite (@Rsum_split_at (n + dm_L m - s) (dm_L m)) by lia.
  rewrite (@Rsum_0 (n + dm_L m - s - dm_L m)).
  2:{ intros i Hi. unfold ker. destruct (Nat.ltb_spec (s + (dm_L m + i)) (s + dm_L m)); [lia|]. now rewrite Bool.andb_false_r. }
  rewrite Rplus_0_r. apply Rsum_ext. intros l Hl. unfold ker.
  destruct (Nat.ltb_spec (s + l) (s + dm_L m)); [|lia]. rewrite Bool.andb_true_r.
  replace (s + l - s)%nat with l by lia. destruct (Nat.ltb_spec s (s + l)); [reflexivity|].
  replace l with 0%nat by lia. now rewrite Hf0.
Qed.

(** Expected counts of simulations stay bounded, however long the run. *)
Definition bounded_activity (m : dmodel) : Prop :=
  exists M, forall T t k, (t < T)%nat -> (k < dm_K m)%nat -> expected_count m T t k <= M.

Lemma contracts_activity m : unit_responses m -> contracts (dm_K m) (W_effective m) 1 -> bounded_activity m.
Proof.
  intros Hu Hc. assert (HW : nonneg (dm_K m) (W_effective m)) by (apply W_nonneg, Hu).
  destruct (contracts_transp HW Hc) as (y & Hy & H).
  destruct (@common_slack (dm_K m) (fun i => 1 * y i - mv (dm_K m) (transp (W_effective m)) y i)) as (e & He & Hs).
  { intros i Hi. specialize (H i Hi). lra. }
  destruct (common_bound (dm_K m) (fun k => dm_dt m * dm_lam m k)) as (D & HD & Hlam).
  set (c := D / e). assert (Hc0 : 0 < c) by now apply Rdiv_lt_0_compat.
  assert (Hb : forall t k, (k < dm_K m)%nat -> mu m t k <= c * y k).
  { induction t as [t IH] using (well_founded_induction lt_wf). intros k Hk. rewrite mu_eq.
    assert (H1 : Rsum t (fun s => Rsum (dm_K m) (fun k1 => ker m t s k k1 * mu m s k1)) <= c * mv (dm_K m) (transp (W_effective m)) y k).
    { rewrite Rsum_swap. unfold mv, transp. rewrite <- Rsum_scal. apply Rsum_le. intros k1 Hk1.
      eapply Rle_trans.
      - apply Rsum_le. intros s Hs'. apply Rmult_le_compat_l; [now apply ker_nonneg|]. apply (IH s Hs' k1 Hk1).
      - rewrite Rsum_scal_r. pose proof (@ker_past m t k1 k Hu Hk1 Hk). specialize (Hy k1 Hk1).
        assert (0 < c * y k1) by nra. nra. }
    specialize (Hlam k Hk). specialize (Hs k Hk).
    assert (c * e = D) by (unfold c; field; lra). nra. }
  destruct (common_bound (dm_K m) (fun k => c * y k)) as (B & _ & HB). exists B. intros T t k Ht Hk.
  rewrite expected_count_mu by auto. eapply Rle_trans; [apply Hb, Hk|auto].
Qed.

Lemma activity_contracts m : unit_responses m -> (forall b, (b < dm_B m)%nat -> dm_bas m 0%nat b = 0) ->
  bounded_activity m -> contracts (dm_K m) (W_effective m) 1.
Proof.
  intros Hu H0 (M & HM). assert (HW : nonneg (dm_K m) (W_effective m)) by (apply W_nonneg, Hu).
  apply perron; [exact HW|]. intros lam u Hl Hun (i0 & Hi0 & Hui) He.
  set (K := dm_K m) in *. set (L := dm_L m).
  assert (Hmu : forall t k, (k < K)%nat -> mu m t k <= M).
  { intros t k Hk. rewrite <- (@expected_count_mu m (S t) t k) by (auto; lia). apply HM; auto; lia. }
  set (A := fun N => Rsum N (fun t => Rsum K (fun k => u k * mu m t k))).
  set (c := dm_dt m * Rsum K (fun k => u k * dm_lam m k)).
  destruct Hu as (Hnn & Hd & Hsg & Hnb). pose proof (conj Hnn (conj Hd (conj Hsg Hnb)) : unit_responses m) as Hu.
  assert (Hc : 0 < c).
  { apply Rmult_lt_0_compat; [exact Hd|]. replace 0 with (Rsum K (fun _ => 0)) by (apply Rsum_0; auto).
    apply (@Rsum_lt_one K (fun _ => 0) _ i0); [|exact Hi0|].
    - intros j Hj. apply Rmult_le_pos; [auto|]. left. now apply Hnn.
    - apply Rmult_lt_0_compat; [exact Hui|]. now apply Hnn. }
  assert (Hstep : forall n, INR (n + L) * c + A n <= A (n + L)%nat).
  { intros n. unfold A at 2.
    rewrite (@Rsum_ext (n + L) _ (fun t => c + Rsum (n + L) (fun s => Rsum K (fun k1 => Rsum K (fun k => u k * ker m t s k k1) * mu m s k1)))).
    2:{ intros t Ht. unfold c. rewrite <- Rsum_scal.
        transitivity (Rsum K (fun k => dm_dt m * (u k * dm_lam m k) + Rsum (n + L) (fun s => Rsum K (fun k1 => u k * ker m t s k k1 * mu m s k1)))).
        - apply Rsum_ext. intros k _. rewrite (@mu_eq_wide m t k (n + L)) by lia. fold K. rewrite Rmult_plus_distr_l. f_equal; [ring|].
          rewrite <- Rsum_scal. apply Rsum_ext. intros s _. rewrite <- Rsum_scal. apply Rsum_ext. intros; ring.
        - rewrite Rsum_plus. f_equal. rewrite Rsum_swap. apply Rsum_ext. intros s _. rewrite Rsum_swap. apply Rsum_ext. intros k1 _.
          now rewrite Rsum_scal_r. }
    rewrite Rsum_plus, Rsum_const. apply Rplus_le_compat_l. rewrite Rsum_swap.
    rewrite (@Rsum_split_at (n + L) n) by lia.
    assert (Hrest : 0 <= Rsum (n + L - n) (fun i => Rsum (n + L) (fun t => Rsum K (fun k1 => Rsum K (fun k => u k * ker m t (n + i) k k1) * mu m (n + i) k1)))).
    { apply Rsum_nonneg. intros i _. apply Rsum_nonneg. intros t _. apply Rsum_nonneg. intros k1 Hk1. apply Rmult_le_pos.
      - apply Rsum_nonneg. intros k Hk. apply Rmult_le_pos; [auto|now apply ker_nonneg].
      - now apply mu_nonneg. }
    assert (Hmain : A n <= Rsum n (fun s => Rsum (n + L) (fun t => Rsum K (fun k1 => Rsum K (fun k => u k * ker m t s k k1) * mu m s k1)))); [|lra].
    unfold A. apply Rsum_le. intros s Hs. rewrite Rsum_swap. apply Rsum_le. intros k1 Hk1. rewrite Rsum_scal_r.
    apply Rmult_le_compat_r; [now apply mu_nonneg|]. rewrite Rsum_swap.
    rewrite (@Rsum_ext K _ (fun k => W_effective m k1 k * u k)).
    2:{ intros k Hk. rewrite Rsum_scal. unfold L. rewrite (@ker_future m n s k1 k) by auto. ring. }
    change (u k1 <= mv K (W_effective m) u k1). rewrite He by auto. specialize (Hun k1 Hk1). nra. }
  destruct (@some_multiple c (INR L * (Rsum K u * M)) Hc) as (n & Hn).
  specialize (Hstep n).
  assert (Hup : A (n + L)%nat <= A n + INR L * (Rsum K u * M)).
  { unfold A. rewrite Rsum_app. apply Rplus_le_compat_l. rewrite <- (Rsum_const L). apply Rsum_le. intros i _.
    rewrite <- Rsum_scal_r. apply Rsum_le. intros k Hk. apply Rmult_le_compat_l; auto. }
  rewrite plus_INR in Hstep. pose proof (pos_INR L). nra.
Qed.

(** C116b.  Discrete time, fewer than 100 processes, no effect within a bin: check_stability returns True exactly when the
    expected counts of simulated data stay bounded for ever. *)
Theorem C116_check_stability_partial :
  forall eigvals eigs1 m b, (dm_K m < 100)%nat -> unit_responses m ->
  (forall b, (b < dm_B m)%nat -> dm_bas m 0%nat b = 0) ->
  spectrum (dm_K m) (W_effective m) (eigvals (dm_K m) (W_effective m)) ->
  check_stability eigvals eigs1 m = Ok b -> (b = true <-> bounded_activity m).
Proof.
  intros eigvals eigs1 m b HK Hu H0 Hs E. rewrite (@test_small eigvals eigs1 _ _ b (W_nonneg (proj1 Hu)) HK Hs E). split.
  - now apply contracts_activity.
  - now apply activity_contracts.
Qed.
Print Assumptions C116_check_stability_partial.

(** With effects inside the bin a positive answer is still right. *)
Theorem C116_stable_is_bounded :
  forall eigvals eigs1 m, (dm_K m < 100)%nat -> unit_responses m ->
  spectrum (dm_K m) (W_effective m) (eigvals (dm_K m) (W_effective m)) ->
  check_stability eigvals eigs1 m = Ok true -> bounded_activity m.
Proof.
  intros eigvals eigs1 m HK Hu Hs E. apply contracts_activity; [exact Hu|].
  now apply (@test_small eigvals eigs1 _ _ true (W_nonneg (proj1 Hu)) HK Hs E).
Qed.
Print Assumptions C116_stable_is_bounded.

(** 100 or more processes: False is right; True is right if one eigenvalue is larger in modulus than all others. *)
Theorem C116_large_networks_partial :
  forall eigvals eigs1 m, (100 <= dm_K m)%nat -> unit_responses m ->
  (forall b, (b < dm_B m)%nat -> dm_bas m 0%nat b = 0) ->
  dominant (dm_K m) (W_effective m) (eigs1 (dm_K m) (W_effective m)) ->
  (check_stability eigvals eigs1 m = Ok false -> ~ bounded_activity m) /\
  (strictly_dominant (dm_K m) (W_effective m) (eigs1 (dm_K m) (W_effective m)) ->
   check_stability eigvals eigs1 m = Ok true -> bounded_activity m).
Proof.
  intros eigvals eigs1 m HK Hu H0 Hd. pose proof (W_nonneg (proj1 Hu)) as HW. split.
  - intros E Hb. apply (@test_large_false eigvals eigs1 _ _ HW HK Hd E). now apply activity_contracts.
  - intros Hsd E. apply contracts_activity; [exact Hu|]. now apply (@test_large_true eigvals eigs1 _ _ HW HK Hsd E).
Qed.
Print Assumptions C116_large_networks_partial.

(** The same for continuous time: 100 or more processes. *)
Theorem C116_ct_large_networks_partial :
  forall eigvals eigs1 m, (100 <= cm_K m)%nat ->
  (forall i j, (i < cm_K m)%nat -> (j < cm_K m)%nat -> 0 <= cm_W m i j) ->
  dominant (cm_K m) (conn m) (eigs1 (cm_K m) (conn m)) ->
  (forall K W W', (forall i j, W i j = W' i j) -> eigs1 K W = eigs1 K W') ->
  (ct_check_stability eigvals eigs1 m = Ok false -> ~ bounded_cascades (cm_K m) (conn m)) /\
  (strictly_dominant (cm_K m) (conn m) (eigs1 (cm_K m) (conn m)) ->
   ct_check_stability eigvals eigs1 m = Ok true -> bounded_cascades (cm_K m) (conn m)).
Proof.
  intros eigvals eigs1 m HK HW Hd Hext.
  assert (E0 : ct_check_stability eigvals eigs1 m = stability_test eigvals eigs1 (cm_K m) (conn m)).
  { unfold ct_check_stability, stability_test. destruct (Nat.ltb_spec (cm_K m) 100); [lia|].
    rewrite (@Hext (cm_K m) _ (conn m)); [reflexivity|]. intros i j. unfold conn. destruct (cm_A m i j); cbn; ring. }
  rewrite E0. assert (HWn : nonneg (cm_K m) (conn m)).
  { intros i j Hi Hj. unfold conn. specialize (HW i j Hi Hj). destruct (cm_A m i j); lra. }
  split.
  - intros E Hb. apply (@test_large_false eigvals eigs1 _ _ HWn HK Hd E). now apply bounded_contracts.
  - intros Hsd E. apply contracts_bounded; [exact HWn|]. now apply (@test_large_true eigvals eigs1 _ _ HWn HK Hsd E).
Qed.
Print Assumptions C116_ct_large_networks_partial.

(** ** Where the test is wrong *)
(** Two of 100 processes excite each other with weight 2; eigenvalues 2, -2 and 0. *)
Definition pair_W : mat := fun i j => match i with
  | O => if Nat.eqb 1 j then 2 else 0 | S O => if Nat.eqb 0 j then 2 else 0 | _ => 0 end.
Definition pair_model : dmodel :=
  {| dm_K := 100; dm_B := 1; dm_dt := 1; dm_L := 2; dm_L_int := true;
     dm_bas := fun l _ => if Nat.eqb l 1 then 1 else 0; dm_mix := true; dm_A := fun _ _ => true;
     dm_W := pair_W; dm_g := fun _ _ _ => 1; dm_lam := fun _ => 1; dm_data := nil |}.
Lemma pair_mv u i : mv 100 pair_W u i = match i with O => 2 * u 1%nat | S O => 2 * u O | _ => 0 end.
Proof.
  unfold mv, pair_W. destruct i as [|[|i]].
  - transitivity (Rsum 100 (fun j => if Nat.eqb 1 j then 2 * u j else 0)).
    + apply Rsum_ext. intros j _. destruct (Nat.eqb 1 j); ring.
    + apply (@Rsum_pick 100 1 (fun j => 2 * u j)). lia.
  - transitivity (Rsum 100 (fun j => if Nat.eqb 0 j then 2 * u j else 0)).
    + apply Rsum_ext. intros j _. destruct (Nat.eqb 0 j); ring.
    + apply (@Rsum_pick 100 0 (fun j => 2 * u j)). lia.
  - apply Rsum_0. intros; ring.
Qed.
Lemma pair_nonneg : nonneg 100 pair_W.
Proof. intros i j _ _. unfold pair_W. destruct i as [|[|i]]; [destruct (Nat.eqb 1 j)|destruct (Nat.eqb 0 j)|]; lra. Qed.
Lemma pair_dominant : dominant 100 pair_W (RtoC (-2)).
Proof.
  split.
  - set (v := fun i => match i with O => 1 | S O => -1 | _ => 0 end). exists (fun i => RtoC (v i)). split.
    + exists O. split; [lia|]. intros E. apply RtoC_inj in E. cbn in E. lra.
    + intros i Hi. rewrite <- RtoC_mult. transitivity (RtoC (mv 100 pair_W v i)).
      * unfold Csum, RtoC, mv. cbn [fst snd Cmult]. f_equal; [apply Rsum_ext; intros; ring|apply Rsum_0; intros; ring].
      * f_equal. rewrite pair_mv. destruct i as [|[|i]]; unfold v; lra.
  - intros z Hz. rewrite Cmod_R. replace (Rabs (-2)) with 2 by (rewrite Rabs_left; lra).
    destruct (eigen_moduli pair_nonneg Hz) as (u & Hu & (i0 & Hi0 & H0) & H).
    pose proof (H O ltac:(lia)) as Ha. pose proof (H 1%nat ltac:(lia)) as Hb. rewrite pair_mv in Ha, Hb.
    pose proof (Hu O ltac:(lia)) as Ua. pose proof (Hu 1%nat ltac:(lia)) as Ub. pose proof (Cmod_ge_0 z) as Hz0.
    destruct i0 as [|[|i0]]; [nra|nra|]. specialize (H _ Hi0). rewrite pair_mv in H. nra.
Qed.
Lemma pair_unit : unit_responses pair_model.
Proof.
  split; [|split; [cbn; lra|split]].
  - split; [|split; [|split]].
    + intros k _. cbn. lra.
    + exact pair_nonneg.
    + intros; cbn; lra.
    + intros l b _ _. cbn. destruct (Nat.eqb l 1); lra.
  - intros k1 k2 _ _. split; [intros; cbn; lra|cbn; ring].
  - intros b _. split; [intros l _; cbn; destruct (Nat.eqb l 1); lra|cbn; ring].
Qed.

(** With 100 processes the test keeps one eigenvalue of largest modulus; when that is -2 it answers True although activity
    explodes. *)
Theorem C116_large_networks_refuted :
  exists eigvals eigs1 m, dm_K m = 100%nat /\ unit_responses m /\
  (forall b, (b < dm_B m)%nat -> dm_bas m 0%nat b = 0) /\
  dominant (dm_K m) (W_effective m) (eigs1 (dm_K m) (W_effective m)) /\
  check_stability eigvals eigs1 m = Ok true /\ ~ bounded_activity m.
Proof.
  exists (fun _ _ => nil), (fun _ _ => RtoC (-2)), pair_model. split; [reflexivity|]. split; [exact pair_unit|].
  split; [reflexivity|]. split; [exact pair_dominant|]. split.
  - unfold check_stability, stability_test. cbn [dm_K pair_model]. change (Nat.ltb 100 100) with false. cbv iota. f_equal.
    unfold clt1. cbn [RtoC fst]. replace (Rltb (-2) 1) with true; [reflexivity|]. symmetry. apply Rltb_true. lra.
  - intros Hb. apply (activity_contracts pair_unit) in Hb; [|reflexivity].
    apply (@not_contracting 100 pair_W (RtoC (-2)) pair_nonneg); [apply pair_dominant| |exact Hb].
    rewrite Cmod_R, Rabs_left; lra.
Qed.
Print Assumptions C116_large_networks_refuted.

(** One process whose whole response falls inside the bin: eigenvalue 1, answer False, but the simulator draws the bin before
    adding the response, so its expected counts stay at the background rate. *)
Theorem C116_instantaneous_refuted :
  exists eigvals eigs1 m, (dm_K m < 100)%nat /\ unit_responses m /\
  spectrum (dm_K m) (W_effective m) (eigvals (dm_K m) (W_effective m)) /\
  check_stability eigvals eigs1 m = Ok false /\ bounded_activity m.
Proof.
  exists (fun _ _ => RtoC 1 :: nil), (fun _ _ => RtoC 0), ex_inst.
  split; [cbn; lia|]. split.
  { split; [|split; [cbn; lra|split]].
    - split; [|split; [|split]].
      + intros k _. cbn. lra.
      + intros k1 k2 _ _. cbn. lra.
      + intros; cbn; lra.
      + intros; cbn; lra.
    - intros k1 k2 _ _. split; [intros; cbn; lra|cbn; ring].
    - intros b _. split; [intros; cbn; lra|cbn; ring]. }
  split.
  { intros z. split.
    - intros [<-|[]]. exists (fun _ => RtoC 1). split; [exists O; split; [cbn; lia|intros E; apply RtoC_inj in E; lra]|].
      intros i Hi. unfold Csum, RtoC. apply injective_projections; cbn; ring.
    - intros (x & (i0 & Hi0 & Hx) & H). cbn in Hi0. replace i0 with O in Hx by lia. specialize (H O ltac:(cbn; lia)).
      left. assert (E : Cmult z (x O) = Cmult (RtoC 1) (x O)).
      { rewrite <- H. destruct (x O) as [a b] eqn:Ex. unfold Csum, RtoC. cbn. rewrite Ex. apply injective_projections; cbn; ring. }
      assert (E2 : Cmult (Cmult z (x O)) (/ x O)%C = Cmult (Cmult (RtoC 1) (x O)) (/ x O)%C) by now rewrite E.
      rewrite <- !Cmult_assoc, Cinv_r, !Cmult_1_r in E2 by exact Hx. now symmetry. }
  split.
  { unfold check_stability, stability_test. cbn. f_equal. destruct (Rltb 1 1) eqn:E; [|reflexivity]. apply Rltb_true in E. lra. }
  exists 1. intros T t k Ht Hk. rewrite expected_count_mu by auto. rewrite mu_eq.
  rewrite (@Rsum_0 t); [cbn; lra|]. intros s Hs. apply Rsum_0. intros k1 _. unfold ker. cbn [dm_L ex_inst].
  destruct (Nat.ltb_spec s t), (Nat.ltb_spec t (s + 1)); cbn [andb]; try lia; ring.
Qed.
Print Assumptions C116_instantaneous_refuted.

(** The hypotheses can be met: [ex_m], weights 0 -> 1 only, eigenvalue 0. *)
Example C116_nonvacuous :
  unit_responses ex_m /\ (dm_K ex_m < 100)%nat /\ spectrum (dm_K ex_m) (W_effective ex_m) (RtoC 0 :: nil) /\
  check_stability (fun _ _ => RtoC 0 :: nil) (fun _ _ => RtoC 0) ex_m = Ok true /\
  expected_count ex_m 3 1 1 = 3 / 2.
Proof.
  assert (Hu : unit_responses ex_m).
  { split; [exact ex_nonneg|split; [cbn; lra|split]].
    - intros k1 k2 _ _. split; [intros; cbn; lra|cbn; ring].
    - intros b _. split; [intros l _; cbn; destruct (Nat.eqb l 1); lra|cbn; ring]. }
  split; [exact Hu|]. split; [cbn; lia|]. split; [|split].
  - intros z. split.
    + intros [<-|[]]. exists (fun i => if Nat.eqb i 0 then RtoC 1 else RtoC 0). split.
      * exists O. split; [cbn; lia|]. intros E. apply RtoC_inj in E. lra.
      * intros i Hi. cbn in Hi. destruct i as [|[|i]]; try lia; unfold Csum, RtoC, W_effective; apply injective_projections; cbn; ring.
    + intros (x & (i0 & Hi0 & Hx) & H). left. cbn in Hi0.
      pose proof (H O ltac:(cbn; lia)) as Ha. pose proof (H 1%nat ltac:(cbn; lia)) as Hb.
      destruct (classic (z = RtoC 0)) as [->|Hz]; [reflexivity|exfalso].
      assert (Hb' : Cmult z (x 1%nat) = RtoC 0).
      { rewrite <- Hb. unfold Csum, RtoC, W_effective. apply injective_projections; cbn; ring. }
      assert (H1 : x 1%nat = RtoC 0).
      { apply (f_equal (Cmult (/ z)%C)) in Hb'. rewrite Cmult_assoc, Cinv_l, Cmult_1_l, Cmult_0_r in Hb' by exact Hz. exact Hb'. }
      assert (Ha' : Cmult z (x O) = RtoC 0).
      { rewrite <- Ha. unfold Csum, RtoC, W_effective. apply injective_projections; cbn; rewrite H1; cbn; ring. }
      assert (H0 : x O = RtoC 0).
      { apply (f_equal (Cmult (/ z)%C)) in Ha'. rewrite Cmult_assoc, Cinv_l, Cmult_1_l, Cmult_0_r in Ha' by exact Hz. exact Ha'. }
      destruct i0 as [|[|i0]]; [congruence|congruence|lia].
  - unfold check_stability, stability_test. cbn. f_equal. apply Rltb_true. lra.
  - rewrite expected_count_mu by (cbn; lia). rewrite mu_eq. cbn [Rsum dm_K ex_m].
    assert (E0 : mu ex_m 0 0 = 1) by (rewrite mu_eq; cbn; ring).
    assert (E1 : mu ex_m 0 1 = 1) by (rewrite mu_eq; cbn; ring).
    rewrite E0, E1. unfold ker, gen_H, W_effective. cbn. lra.
Qed.
