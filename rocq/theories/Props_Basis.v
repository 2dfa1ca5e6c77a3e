(** * Props_Basis: properties C01, C02, C03 (basis functions and filtering). *)
From Verif Require Import Prelude ExtReal Arrays Spec_Basis M_Basis L_Basis L_BasisEx.
Set Implicit Arguments.
Open Scope R_scope.

(** ** C01  A normalised basis has unit volume, is non-negative and causal.

    Unconditional part: whatever the parameters, each column of a normalised
    cosine basis is either entirely NaN (apart from the zero row for lag 0) or a
    finite non-negative column with dt * sum = 1; without instantaneous effects
    row 0 is zero; the shape is as documented. Missing for the full property: that the NaN case
    never happens (refuted below). *)
Theorem C01_basis_columns_partial :
  forall B dt dt_max inst n_eye a b L bo,
  0 < dt -> 0 < dt_max -> (forall i, (i < L)%nat -> 0 < a * INR i + b) ->
  CosineBasis B dt dt_max true inst n_eye a b L = Ok bo ->
  bt_cols (bo_tab bo) = B /\
  bt_rows (bo_tab bo) = ((if inst then 0 else 1) + arange_len dt_max dt)%nat /\
  (inst = false -> forall j, bt_at (bo_tab bo) 0 j = Fin 0) /\
  forall j, (j < B)%nat ->
    (forall i, (i < arange_len dt_max dt)%nat ->
       bt_at (bo_tab bo) ((if inst then 0 else 1) + i)%nat j = NaN) \/
    unit_volume dt (bt_rows (bo_tab bo)) (fun l => bt_at (bo_tab bo) l j).
Proof.
  intros B dt dt_max inst n_eye a b L bo Hdt Hdm _ H.
  destruct (column_dichotomy _ _ _ _ _ _ Hdt Hdm H) as (H1 & H2 & H3 & H4).
  split; [exact H1|]. split; [exact H2|]. split; [intros Hi j; now apply H3|exact H4].
Qed.
Print Assumptions C01_basis_columns_partial.

(** Guarded positive form: construction succeeds and every column is proper when
    the sampling step is not coarser than the raw grid. *)
Theorem C01_basis_fine_grid :
  forall n_eye B dt dt_max inst a b L,
  0 < a -> 0 < b -> (n_eye < B)%nat -> (3 <= L)%nat -> (2 * n_eye + 2 <= L)%nat ->
  (B = S n_eye -> a * INR n_eye + b <> 1) ->
  0 < dt -> dt * INR (L - 1) <= dt_max ->
  exists bo, CosineBasis B dt dt_max true inst n_eye a b L = Ok bo /\
    bt_cols (bo_tab bo) = B /\
    (inst = false -> forall j, bt_at (bo_tab bo) 0 j = Fin 0) /\
    forall j, (j < B)%nat ->
      unit_volume dt (bt_rows (bo_tab bo)) (fun l => bt_at (bo_tab bo) l j).
Proof. exact cosine_fine_grid. Qed.
Print Assumptions C01_basis_fine_grid.

Example C01_fine_grid_nonvacuous :
  exists bo, CosineBasis 5 (1/10) 10 true false 0 (1/120) (1/2) 100 = Ok bo /\
  forall j, (j < 5)%nat ->
      unit_volume (1/10) (bt_rows (bo_tab bo)) (fun l => bt_at (bo_tab bo) l j).
Proof.
  destruct (@C01_basis_fine_grid 0 5 (1/10) 10 false (1/120) (1/2) 100) as (bo & E & _ & _ & H);
    try lra; try lia.
  - rewrite INR_IZR_INZ. cbn. lra.
  - exists bo. auto.
Qed.

(** The default configuration of the discrete-time models is proper. *)
Theorem C01_default_basis :
  exists bo, CosineBasis 5 1 10 true false 0 (1/120) (1/2) 100 = Ok bo /\
    bt_cols (bo_tab bo) = 5%nat /\ bt_rows (bo_tab bo) = 11%nat /\
    (forall j, bt_at (bo_tab bo) 0 j = Fin 0) /\
    forall j, (j < 5)%nat -> unit_volume 1 11 (fun l => bt_at (bo_tab bo) l j).
Proof. exact default_basis_proper. Qed.
Print Assumptions C01_default_basis.

(** The shape of the cosine columns, on the fine grid of n_pts points before resampling: the centres are the grid points just
    below n numbers evenly spaced from n_eye to n_pts/2; on the log time axis u = ln(a t + b) each column is positive within two
    widths of its centre, zero outside, and nowhere higher than at the centre, where the width is the mean distance between
    neighbouring centres (half the centre's coordinate when there is only one). *)
Lemma bump_zero_iff u c w : w <> 0 -> (bump u c w = 0 <-> 2 * Rabs w <= Rabs (u - c)).
Proof.
  intros Hw. split.
  - intros E. destruct (Rle_dec (2 * Rabs w) (Rabs (u - c))) as [H|H]; [exact H|].
    assert (P := @bump_pos u c w Hw). exfalso. apply Rnot_le_lt in H. specialize (P H). lra.
  - intros H. unfold bump. pose proof PI_RGT_0 as HP.
    assert (E : (u - c) * PI / w / 2 = ((u - c) / (2 * w)) * PI) by (field; auto). rewrite E.
    assert (Ha : 1 <= Rabs ((u - c) / (2 * w))).
    { unfold Rdiv. rewrite Rabs_mult, Rabs_inv. assert (H2w : 0 < Rabs (2 * w)) by (apply Rabs_pos_lt; lra).
      apply (Rmult_le_reg_r (Rabs (2 * w))); [auto|]. rewrite Rmult_assoc, Rinv_l by lra. rewrite Rabs_mult, (Rabs_right 2) by lra. lra. }
    unfold Rabs in Ha. destruct (Rcase_abs ((u - c) / (2 * w))) as [N|N].
    + rewrite Rmin_right by nra. rewrite Rmax_left by nra. rewrite cos_neg, cos_PI. lra.
    + rewrite Rmin_left by nra. rewrite Rmax_right by nra. rewrite cos_PI. lra.
Qed.
Lemma bump_le_1 u c w : bump u c w <= 1.
Proof. unfold bump. pose proof (COS_bound (Rmax (- PI) (Rmin PI ((u - c) * PI / w / 2)))). lra. Qed.

Theorem C01_cosine_columns :
  forall n_pts B n_eye a b norm tab, create_cosine_basis n_pts B n_eye a b norm = Ok tab ->
  exists ctr : nat -> nat, ctr 0%nat = n_eye /\
  (forall i, (i < B - n_eye)%nat -> (ctr i < n_pts)%nat) /\
  (forall i, (0 < i < B - n_eye)%nat ->
     INR (ctr i) <= INR n_eye + INR i * ((INR n_pts / 2 - INR n_eye) / INR (B - n_eye - 1)) < INR (ctr i) + 1) /\
  let u i := ln (a * INR i + b) in
  let width := if Nat.eqb (B - n_eye) 1 then Rabs (u n_eye) / 2
               else Rabs (u (ctr (B - n_eye - 1)%nat) - u n_eye) / INR (B - n_eye - 1) in
  width <> 0 -> forall i j, (i < n_pts)%nat -> (n_eye <= j < B)%nat ->
    exists x top, bt_at tab i j = Fin x /\ bt_at tab (ctr (j - n_eye)%nat) j = Fin top /\
      0 <= x <= top /\ (x = 0 <-> 2 * width <= Rabs (u i - u (ctr (j - n_eye)%nat))).
Proof.
  intros n_pts B n_eye a b norm tab E. destruct (create_inv _ _ _ _ _ _ E) as (H1 & H2 & H3 & _ & _ & Hs & He & _).
  set (n := (B - n_eye)%nat) in *. exists (cos_ctr_idx n_pts n_eye n).
  assert (C0 : cos_ctr_idx n_pts n_eye n 0 = n_eye).
  { unfold cos_ctr_idx. rewrite linspace_0. rewrite (@floorZ_unique _ (Z.of_nat n_eye)) by (rewrite <- INR_IZR_INZ; lra). apply Nat2Z.id. }
  split; [exact C0|]. split; [exact H3|]. split.
  - intros i Hi. unfold cos_ctr_idx, linspace. destruct (Nat.eqb_spec n 1) as [Q|Q]; [lia|].
    set (x := INR n_eye + INR i * ((INR n_pts / 2 - INR n_eye) / INR (n - 1))).
    assert (Hx : 0 <= x).
    { subst x. assert (D : 0 < INR (n - 1)) by (apply lt_0_INR; lia).
      assert (Ri : INR i <= INR (n - 1)) by (apply le_INR; lia). pose proof (pos_INR i). pose proof (pos_INR n_eye). pose proof (pos_INR n_pts).
      replace (INR n_eye + INR i * ((INR n_pts / 2 - INR n_eye) / INR (n - 1))) with
        (INR n_eye * (1 - INR i / INR (n - 1)) + INR n_pts / 2 * (INR i / INR (n - 1))) by (field; lra).
      assert (F : 0 <= INR i / INR (n - 1) <= 1).
      { split; [apply Rmult_le_pos; [lra|left; now apply Rinv_0_lt_compat]|]. apply (Rmult_le_reg_r (INR (n - 1))); [lra|].
        unfold Rdiv. rewrite Rmult_assoc, Rinv_l by lra. lra. }
      nra. }
    destruct (floorZ_spec x) as (F1 & F2). assert (Fn : (0 <= floorZ x)%Z).
    { assert (-1 < floorZ x)%Z by (apply lt_IZR; lra). lia. }
    rewrite INR_IZR_INZ, Z2Nat.id by exact Fn. lra.
  - cbv zeta. intros Hw i j Hi Hj.
    set (w := cos_width a b n_pts n_eye n).
    assert (Ew : Rabs w = (if Nat.eqb n 1 then Rabs (ln (a * INR n_eye + b)) / 2
               else Rabs (ln (a * INR (cos_ctr_idx n_pts n_eye n (n - 1)) + b) - ln (a * INR n_eye + b)) / INR (n - 1))).
    { subst w. unfold cos_width. destruct (Nat.eqb_spec n 1) as [Q|Q]; rewrite C0; unfold cos_u_ir, Rdiv; rewrite Rabs_mult; f_equal.
      - rewrite Rabs_right; lra.
      - rewrite Rabs_inv, Rabs_right; [reflexivity|]. apply Rle_ge, pos_INR. }
    cbv beta in Hw |- *. rewrite <- Ew in Hw |- *. assert (Nw : w <> 0) by (intros Q; rewrite Q, Rabs_R0 in Hw; lra).
    assert (G : good_col n_pts B n_eye a b j) by (split; [lia|right; exact Nw]).
    assert (Hc : (cos_ctr_idx n_pts n_eye n (j - n_eye) < n_pts)%nat) by (apply H3; lia).
    rewrite (He i j Hi G), (He _ j Hc G). do 2 eexists. split; [reflexivity|]. split; [reflexivity|].
    specialize (Hs j G).
    assert (Re : forall i, raw_entry n_pts n_eye n a b i j = bump (cos_u_ir a b i) (cos_u_ir a b (cos_ctr_idx n_pts n_eye n (j - n_eye))) w).
    { intro i'. unfold raw_entry. destruct (Nat.ltb_spec j n_eye); [lia|reflexivity]. }
    set (Z := Rsum n_pts (fun i' => raw_entry n_pts n_eye n a b i' j)) in *. rewrite !Re, bump_peak.
    pose proof (bump_nonneg (cos_u_ir a b i) (cos_u_ir a b (cos_ctr_idx n_pts n_eye n (j - n_eye))) w) as B0.
    pose proof (bump_le_1 (cos_u_ir a b i) (cos_u_ir a b (cos_ctr_idx n_pts n_eye n (j - n_eye))) w) as B1.
    pose proof (@bump_zero_iff (cos_u_ir a b i) (cos_u_ir a b (cos_ctr_idx n_pts n_eye n (j - n_eye))) w Nw) as BI.
    set (x := bump _ _ w) in *. change (ln (a * INR i + b)) with (cos_u_ir a b i).
    change (ln (a * INR (cos_ctr_idx n_pts n_eye n (j - n_eye)) + b)) with (cos_u_ir a b (cos_ctr_idx n_pts n_eye n (j - n_eye))).
    destruct norm; [|split; [lra|exact BI]].
    assert (Pn : 0 < / Z * INR n_pts) by (apply Rmult_lt_0_compat; [now apply Rinv_0_lt_compat|apply lt_0_INR; lia]).
    unfold Rdiv. rewrite !Rmult_assoc. split; [nra|]. rewrite <- BI. split; [intros Q; apply Rmult_integral in Q as [Q|Q]; lra|intros ->; ring].
Qed.
Print Assumptions C01_cosine_columns.

(** The identity basis is always proper. *)
Theorem C01_identity_basis :
  forall dt dt_max inst bo,
  0 < dt -> IdentityBasis dt dt_max true inst = Ok bo ->
  (inst = false -> forall j, (j < bt_cols (bo_tab bo))%nat -> bt_at (bo_tab bo) 0 j = Fin 0) /\
  forall j, (j < bt_cols (bo_tab bo))%nat ->
    unit_volume dt (bt_rows (bo_tab bo)) (fun l => bt_at (bo_tab bo) l j).
Proof. exact identity_proper. Qed.
Print Assumptions C01_identity_basis.

(** Which constructions succeed, and what they build: one column per lag of the window (and one for the instantaneous effect
    when allowed), the response of column j sitting wholly in lag j (shifted by one when only the past may act). *)
Theorem C01_identity_is_identity :
  forall dt dt_max (norm inst : bool), 0 < dt ->
  let lags := floorZ (dt_max / dt) in
  (((lags + (if inst then 1 else 0))%Z < 0)%Z -> IdentityBasis dt dt_max norm inst = Raise ValueError) /\
  ((0 <= (lags + (if inst then 1 else 0))%Z)%Z ->
   exists bo, IdentityBasis dt dt_max norm inst = Ok bo /\ bo_inst bo = inst /\
     Z.of_nat (bt_cols (bo_tab bo)) = (lags + (if inst then 1 else 0))%Z /\ Z.of_nat (bt_rows (bo_tab bo)) = (lags + 1)%Z /\
     forall l j, (l < bt_rows (bo_tab bo))%nat -> (j < bt_cols (bo_tab bo))%nat ->
       bt_at (bo_tab bo) l j = Fin (if Nat.eqb l (if inst then j else Datatypes.S j) then (if norm then 1 / dt else 1) else 0)).
Proof.
  intros dt dt_max norm inst Hdt lags. unfold IdentityBasis. fold lags. cbv zeta. split.
  - intros H. destruct (Z.ltb_spec (lags + (if inst then 1 else 0)) 0); [reflexivity|lia].
  - intros H. destruct (Z.ltb_spec (lags + (if inst then 1 else 0)) 0); [lia|].
    set (B := Z.to_nat (lags + (if inst then 1 else 0))) in *.
    assert (Q : Z.eqb (Z.of_nat (if inst then B else Datatypes.S B)) (lags + 1) = true) by (apply Z.eqb_eq; subst B; destruct inst; lia).
    rewrite Q. cbn [negb]. eexists. split; [reflexivity|]. cbn [bo_inst bo_tab bt_cols bt_rows bt_at]. split; [reflexivity|].
    split; [subst B; lia|]. split; [now apply Z.eqb_eq in Q|]. intros l j Hl Hj.
    assert (T : forall i, (if inst then (if Nat.eqb i j then 1 else 0) else match i with O => 0 | Datatypes.S i' => if Nat.eqb i' j then 1 else 0 end)
                = (if Nat.eqb i (if inst then j else Datatypes.S j) then 1 else 0)).
    { intro i. destruct inst; [reflexivity|]. destruct i; reflexivity. }
    destruct norm.
    + assert (E : esum (if inst then B else Datatypes.S B) (fun i' => Fin (if inst then (if Nat.eqb i' j then 1 else 0) else match i' with O => 0 | Datatypes.S i'0 => if Nat.eqb i'0 j then 1 else 0 end)) = Fin 1).
      { rewrite (@esum_fin _ _ (fun i => if Nat.eqb i (if inst then j else Datatypes.S j) then 1 else 0)) by (intros i _; now rewrite T).
        f_equal. rewrite (Rsum_ind (if inst then B else Datatypes.S B) (if inst then j else Datatypes.S j) (fun _ => 1)).
        match goal with |- (if ?c then _ else _) = _ => assert (Qc : c = true) by (apply Nat.ltb_lt; destruct inst; lia); rewrite Qc end. reflexivity. }
      rewrite E, T, emul_fin, ediv_fin by lra. f_equal. destruct (Nat.eqb l _); field; lra.
    + rewrite T. reflexivity.
Qed.
Print Assumptions C01_identity_is_identity.

Example C01_identity_nonvacuous :
  exists bo, IdentityBasis 1 3 true false = Ok bo /\ bt_cols (bo_tab bo) = 3%nat.
Proof.
  unfold IdentityBasis. rewrite (@floorZ_unique (3 / 1) 3%Z) by lra. cbn.
  eexists; split; reflexivity.
Qed.

(** Finding: a legal construction (window of one bin, B = 5) succeeds and has a
    NaN column. *)
Theorem C01_basis_unit_volume_refuted :
  exists B dt dt_max n_eye a b L bo,
    0 < dt /\ 0 < dt_max /\ CosineBasis B dt dt_max true false n_eye a b L = Ok bo /\
    exists j, (j < B)%nat /\
      ~ unit_volume dt (bt_rows (bo_tab bo)) (fun l => bt_at (bo_tab bo) l j).
Proof.
  destruct one_bin_basis_NaN as (bo & E & _ & Er & HN).
  exists 5%nat, 1, 1, 0%nat, (1/120), (1/2), 100%nat, bo.
  split; [lra|]. split; [lra|]. split; [exact E|]. exists 2%nat. split; [lia|].
  intros (f & Hf & _). destruct (Hf 1%nat ltac:(lia)) as [H _]. rewrite HN in H. discriminate.
Qed.
Print Assumptions C01_basis_unit_volume_refuted.

(** ** C02  Filtering is the causal convolution of the counts with the basis. *)
Theorem C02_filter_is_causal_convolution :
  forall T K S_ R_ B bas,
  (0 < T)%nat -> (0 < K)%nat -> (0 < R_)%nat -> (0 < B)%nat ->
  exists F, convolve_with_basis T K S_ R_ B bas = Ok F /\
  (forall t k b, (t < T)%nat -> (k < K)%nat -> (b < B)%nat ->
     F t k b = causal_conv R_ bas S_ t k b) /\
  ((forall l b, (l < R_)%nat -> (b < B)%nat -> 0 <= bas l b) ->
   (forall t k, (t < T)%nat -> (k < K)%nat -> (0 <= S_ t k)%Z) ->
   forall t k b, (t < T)%nat -> (k < K)%nat -> (b < B)%nat -> 0 <= F t k b).
Proof.
  intros T K S_ R_ B bas HT HK HR HB.
  destruct (@convolve_ok T K S_ R_ B bas HT HK HR HB) as (F & E).
  exists F. split; [exact E|]. split.
  - intros t k b Ht Hk Hb. rewrite (@convolve_entry _ _ _ _ _ _ _ E) by auto.
    unfold causal_conv. now rewrite conv_full_causal.
  - intros Hbas HS t k b Ht Hk Hb. rewrite (@convolve_entry _ _ _ _ _ _ _ E) by auto.
    apply conv_full_nonneg.
    + intros s Hs. apply IZR_le. auto.
    + auto.
Qed.
Print Assumptions C02_filter_is_causal_convolution.

(** Empty data or an empty basis raises. *)
Theorem C02_filter_empty_raises :
  forall T K S_ R_ B bas, (T = 0 \/ K = 0 \/ R_ = 0 \/ B = 0)%nat ->
  exists e, convolve_with_basis T K S_ R_ B bas = Raise e.
Proof. intros. eexists. now apply convolve_empty. Qed.
Print Assumptions C02_filter_empty_raises.

(** The filter at bin t depends only on counts up to t, and not on bin t itself
    when lag 0 of the basis is zero. *)
Theorem C02_filter_causal :
  forall T K S1 S2 R_ B bas F1 F2 t,
  convolve_with_basis T K S1 R_ B bas = Ok F1 ->
  convolve_with_basis T K S2 R_ B bas = Ok F2 ->
  (t < T)%nat ->
  (forall s k, (s < t)%nat -> (k < K)%nat -> S1 s k = S2 s k) ->
  ((forall k, (k < K)%nat -> S1 t k = S2 t k) \/ (forall b, (b < B)%nat -> bas 0%nat b = 0)) ->
  forall k b, (k < K)%nat -> (b < B)%nat -> F1 t k b = F2 t k b.
Proof.
  intros T K S1 S2 R_ B bas F1 F2 t E1 E2 Ht Hpre Hor k b Hk Hb.
  rewrite (@convolve_entry _ _ _ _ _ _ _ E1), (@convolve_entry _ _ _ _ _ _ _ E2) by auto.
  rewrite !conv_full_causal by auto. apply Rsum_ext. intros l Hl.
  destruct (Nat.ltb l R_); [|reflexivity].
  destruct l as [|l].
  - rewrite Nat.sub_0_r. destruct Hor as [H|H]; [now rewrite H|rewrite H by auto; ring].
  - rewrite Hpre by (auto; lia). reflexivity.
Qed.
Print Assumptions C02_filter_causal.

(** Linearity in the data. *)
Theorem C02_filter_linear :
  forall T K S1 S2 c1 c2 R_ B bas F1 F2 F,
  convolve_with_basis T K S1 R_ B bas = Ok F1 ->
  convolve_with_basis T K S2 R_ B bas = Ok F2 ->
  convolve_with_basis T K (fun t k => (c1 * S1 t k + c2 * S2 t k)%Z) R_ B bas = Ok F ->
  forall t k b, (t < T)%nat -> (k < K)%nat -> (b < B)%nat ->
  F t k b = IZR c1 * F1 t k b + IZR c2 * F2 t k b.
Proof.
  intros T K S1 S2 c1 c2 R_ B bas F1 F2 F E1 E2 E t k b Ht Hk Hb.
  rewrite (@convolve_entry _ _ _ _ _ _ _ E1), (@convolve_entry _ _ _ _ _ _ _ E2), (@convolve_entry _ _ _ _ _ _ _ E) by auto.
  rewrite !conv_full_causal by auto. rewrite <- !Rsum_scal, <- Rsum_plus.
  apply Rsum_ext; intros l Hl. destruct (Nat.ltb l R_); [|ring].
  rewrite plus_IZR, !mult_IZR. ring.
Qed.
Print Assumptions C02_filter_linear.

Example C02_nonvacuous :
  exists F, convolve_with_basis 3 1 (fun t _ => Z.of_nat t) 2 1 (fun l _ => INR l) = Ok F /\
            F 2%nat 0%nat 0%nat = 1.
Proof.
  destruct (@C02_filter_is_causal_convolution 3 1 (fun t _ => Z.of_nat t) 2 1 (fun l _ => INR l))
    as (F & E & H & _); try lia.
  exists F. split; [exact E|]. rewrite H by lia. unfold causal_conv. cbn. lra.
Qed.

(** ** C03  Filtered mass never exceeds the number of events, with equality
    exactly when no basis mass falls beyond the end. *)
Theorem C03_filtered_mass :
  forall T K S_ R_ B bas dt F k b,
  convolve_with_basis T K S_ R_ B bas = Ok F ->
  (k < K)%nat -> (b < B)%nat -> 0 < dt ->
  (forall l, (l < R_)%nat -> 0 <= bas l b) ->
  dt * Rsum R_ (fun l => bas l b) = 1 ->
  (forall t, (t < T)%nat -> (0 <= S_ t k)%Z) ->
  let mass := dt * Rsum T (fun t => F t k b) in
  mass <= IZR (n_events T S_ k) /\
  (mass = IZR (n_events T S_ k) <->
   forall s l, (s < T)%nat -> (l < R_)%nat -> (T <= s + l)%nat -> S_ s k <> 0%Z -> bas l b = 0) /\
  ((forall s, (s < T)%nat -> (T < s + R_)%nat -> S_ s k = 0%Z) -> mass = IZR (n_events T S_ k)).
Proof.
  intros T K S_ R_ B bas dt F k b E Hk Hb Hdt Hbas Hnorm HS mass.
  set (lost := fun s => IZR (S_ s k) * Rsum R_ (fun l => if Nat.ltb (s + l) T then 0 else bas l b)).
  assert (Hlost0 : forall s, (s < T)%nat -> 0 <= lost s).
  { intros s Hs. unfold lost. apply Rmult_le_pos; [apply IZR_le; auto|].
    apply Rsum_nonneg; intros l Hl. destruct (Nat.ltb (s + l) T); [lra|auto]. }
  assert (Hmass : mass = IZR (n_events T S_ k) - dt * Rsum T lost).
  { unfold mass. rewrite (Rsum_ext (n:=T) (fun t => F t k b)
        (fun t => conv_full T R_ (fun s => IZR (S_ s k)) (fun l => bas l b) t)).
    2:{ intros t Ht. now apply (@convolve_entry _ _ _ _ _ _ _ E). }
    rewrite conv_mass. unfold n_events. rewrite IZR_Zsum.
    rewrite <- !Rsum_scal, <- Rsum_minus. apply Rsum_ext; intros s Hs. unfold lost.
    assert (Hsp : Rsum R_ (fun l => if Nat.ltb (s + l) T then bas l b else 0)
            = Rsum R_ (fun l => bas l b) - Rsum R_ (fun l => if Nat.ltb (s + l) T then 0 else bas l b)).
    { rewrite <- Rsum_minus. apply Rsum_ext; intros l Hl. destruct (Nat.ltb (s + l) T); lra. }
    rewrite Hsp.
    replace (dt * (IZR (S_ s k) * (Rsum R_ (fun l => bas l b)
             - Rsum R_ (fun l => if Nat.ltb (s + l) T then 0 else bas l b))))
      with (IZR (S_ s k) * (dt * Rsum R_ (fun l => bas l b))
            - dt * (IZR (S_ s k) * Rsum R_ (fun l => if Nat.ltb (s + l) T then 0 else bas l b))) by ring.
    rewrite Hnorm. ring. }
  assert (Hl0 : 0 <= Rsum T lost) by now apply Rsum_nonneg.
  assert (Hle : mass <= IZR (n_events T S_ k)).
  { rewrite Hmass. assert (0 <= dt * Rsum T lost) by (apply Rmult_le_pos; lra). lra. }
  assert (Hiff : mass = IZR (n_events T S_ k) <->
   forall s l, (s < T)%nat -> (l < R_)%nat -> (T <= s + l)%nat -> S_ s k <> 0%Z -> bas l b = 0).
  { split.
    - intros Heq s l Hs Hl Hsl Hne. rewrite Hmass in Heq.
      assert (Hz : Rsum T lost = 0).
      { assert (Hdz : dt * Rsum T lost = 0) by lra. apply Rmult_integral in Hdz as [|]; lra. }
      pose proof (@Rsum_nonneg_zero T lost Hlost0 Hz s Hs) as Hs0. unfold lost in Hs0.
      apply Rmult_integral in Hs0 as [Hs0|Hs0]; [apply eq_IZR in Hs0; contradiction|].
      pose proof (@Rsum_nonneg_zero R_ (fun l => if Nat.ltb (s + l) T then 0 else bas l b)) as Hr.
      cbv beta in Hr. specialize (Hr ltac:(intros l' Hl'; destruct (Nat.ltb (s + l') T); [lra|auto]) Hs0 l Hl).
      destruct (Nat.ltb_spec (s + l) T); [lia|exact Hr].
    - intros H. rewrite Hmass. rewrite (Rsum_0 (n := T)); [lra|].
      intros s Hs. unfold lost. destruct (Z.eq_dec (S_ s k) 0) as [->|Hne]; [lra|].
      rewrite (Rsum_0 (n := R_)); [lra|]. intros l Hl.
      destruct (Nat.ltb_spec (s + l) T); [reflexivity|]. apply (H s l); auto. }
  split; [exact Hle|]. split; [exact Hiff|].
  intros Hempty. apply Hiff. intros s l Hs Hl Hsl Hne. exfalso. apply Hne. apply Hempty; [auto|lia].
Qed.
Print Assumptions C03_filtered_mass.

(** A concrete case: one event well before the end; basis (1/2, 1/2), dt = 1. *)
Example C03_nonvacuous :
  exists F, convolve_with_basis 3 1 (fun t _ => if Nat.eqb t 0 then 2%Z else 0%Z) 2 1 (fun _ _ => 1/2) = Ok F
  /\ 1 * Rsum 2 (fun l => (fun _ _ : nat => 1/2) l 0%nat) = 1
  /\ 1 * Rsum 3 (fun t => F t 0%nat 0%nat) = 2.
Proof.
  destruct (@convolve_ok 3 1 (fun t _ => if Nat.eqb t 0 then 2%Z else 0%Z) 2 1 (fun _ _ => 1/2))
    as (F & E); try lia.
  exists F. split; [exact E|]. split; [cbn; lra|].
  destruct (@C03_filtered_mass 3 1 _ 2 1 _ 1 F 0 0 E) as (_ & _ & H); try lia; try lra.
  - intros; lra.
  - cbn; lra.
  - intros t Ht. cbn. destruct (Nat.eqb t 0); lia.
  - cbn in H. cbn. apply H. intros s Hs Hs2. destruct s; [lia|reflexivity].
Qed.
