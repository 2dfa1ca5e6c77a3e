(** * L_BasisEx: sufficient conditions, the default configuration and a witness. *)
From Verif Require Import Prelude ExtReal Arrays M_Basis Spec_Basis L_Basis.
Set Implicit Arguments.
Open Scope R_scope.

Lemma floor_INR n : floorZ (INR n) = Z.of_nat n.
Proof. apply floorZ_unique. rewrite <- INR_IZR_INZ. lra. Qed.

Lemma half_floor L : Z.to_nat (floorZ (INR L / 2)) = (L / 2)%nat.
Proof.
  rewrite (@floorZ_unique (INR L / 2) (Z.of_nat (L / 2))); [lia|].
  rewrite <- INR_IZR_INZ. pose proof (Nat.div_mod L 2 ltac:(lia)) as H.
  assert (H2 : INR L = 2 * INR (L / 2) + INR (L mod 2)).
  { rewrite H at 1. rewrite plus_INR, mult_INR. cbn [INR]. lra. }
  assert (INR (L mod 2) = 0 \/ INR (L mod 2) = 1).
  { pose proof (Nat.mod_upper_bound L 2 ltac:(lia)).
    destruct (L mod 2)%nat as [|[|]]; cbn; lra || lia || auto. }
  lra.
Qed.

Lemma ctr_first n_pts n_eye n_cos : cos_ctr_idx n_pts n_eye n_cos 0 = n_eye.
Proof. unfold cos_ctr_idx. rewrite linspace_0, floor_INR. lia. Qed.

Lemma ctr_last n_pts n_eye n_cos :
  (2 <= n_cos)%nat -> cos_ctr_idx n_pts n_eye n_cos (n_cos - 1) = (n_pts / 2)%nat.
Proof.
  intros H. unfold cos_ctr_idx, linspace. destruct (Nat.eqb_spec n_cos 1); [lia|].
  replace (INR n_eye + INR (n_cos - 1) * ((INR n_pts / 2 - INR n_eye) / INR (n_cos - 1)))
    with (INR n_pts / 2); [apply half_floor|].
  assert (INR (n_cos - 1) <> 0) by (apply not_0_INR; lia). field. auto.
Qed.

Lemma ctr_bound n_pts n_eye n_cos i :
  (2 * n_eye <= n_pts)%nat -> (i < n_cos)%nat ->
  (cos_ctr_idx n_pts n_eye n_cos i <= n_pts / 2)%nat.
Proof.
  intros He Hi. unfold cos_ctr_idx. rewrite <- half_floor.
  set (x := linspace (INR n_eye) (INR n_pts / 2) n_cos i).
  assert (HE : INR n_eye <= INR n_pts / 2).
  { apply le_INR in He. rewrite mult_INR in He. cbn [INR] in He. lra. }
  assert (Hx : x <= INR n_pts / 2).
  { unfold x, linspace. destruct (Nat.eqb_spec n_cos 1); [lra|].
    set (d := INR n_pts / 2 - INR n_eye) in *.
    assert (0 < INR (n_cos - 1)) by (apply lt_0_INR; lia).
    assert (INR i <= INR (n_cos - 1)) by (apply le_INR; lia).
    assert (INR i * (d / INR (n_cos - 1)) <= d).
    { apply (Rmult_le_reg_r (INR (n_cos - 1))); [auto|].
      replace (INR i * (d / INR (n_cos - 1)) * INR (n_cos - 1)) with (INR i * d) by (field; lra).
      rewrite (Rmult_comm d). apply Rmult_le_compat_r; unfold d; lra. }
    unfold d in *. lra. }
  pose proof (floorZ_spec x). pose proof (floorZ_spec (INR n_pts / 2)).
  assert (floorZ x < floorZ (INR n_pts / 2) + 1)%Z by (apply lt_IZR; rewrite plus_IZR; lra). lia.
Qed.

(** The cosine width is non-zero for every sensible parameter choice. *)
Lemma width_nonzero n_pts B n_eye a b :
  0 < a -> 0 < b -> (n_eye < B)%nat -> (2 * n_eye + 2 <= n_pts)%nat ->
  (B = S n_eye -> a * INR n_eye + b <> 1) ->
  cos_width a b n_pts n_eye (B - n_eye) <> 0.
Proof.
  intros Ha Hb HB HL H1. unfold cos_width.
  destruct (Nat.eqb_spec (B - n_eye) 1) as [E|E].
  - rewrite ctr_first. unfold cos_u_ir. specialize (H1 ltac:(lia)).
    assert (Hp : 0 < a * INR n_eye + b).
    { assert (0 <= a * INR n_eye) by (apply Rmult_le_pos; [lra|apply pos_INR]). lra. }
    intros H. assert (Hz : ln (a * INR n_eye + b) = 0) by lra.
    apply H1. rewrite <- (exp_ln _ Hp), Hz. apply exp_0.
  - rewrite ctr_first, ctr_last by lia. unfold cos_u_ir.
    assert (Hlt : INR n_eye < INR (n_pts / 2)).
    { apply lt_INR. apply (Nat.lt_le_trans _ (S n_eye)); [lia|].
      apply Nat.div_le_lower_bound; lia. }
    assert (Hp : 0 < a * INR n_eye + b).
    { assert (0 <= a * INR n_eye) by (apply Rmult_le_pos; [lra|apply pos_INR]). lra. }
    assert (ln (a * INR n_eye + b) < ln (a * INR (n_pts / 2) + b)).
    { apply ln_increasing; [auto|]. apply Rplus_lt_compat_r, Rmult_lt_compat_l; auto. }
    assert (Hn : 0 < INR (B - n_eye - 1)) by (apply lt_0_INR; lia).
    intros Hz. apply Rmult_integral in Hz as [Hz|Hz]; [lra|].
    pose proof (Rinv_0_lt_compat _ Hn). lra.
Qed.

Lemma cosine_ok n_eye B dt dt_max norm inst a b L :
  0 < a -> 0 < b -> (n_eye < B)%nat -> (2 * n_eye + 2 <= L)%nat ->
  (B = S n_eye -> a * INR n_eye + b <> 1) ->
  exists bo, CosineBasis B dt dt_max norm inst n_eye a b L = Ok bo.
Proof.
  intros Ha Hb HB HL H1.
  destruct (@create_ok L B n_eye a b norm) as (tab & E).
  - now apply width_nonzero.
  - exact HB.
  - intros i Hi. pose proof (@ctr_bound L n_eye (B - n_eye) i ltac:(lia) Hi).
    assert (L / 2 < L)%nat by (apply Nat.div_lt; lia). lia.
  - unfold CosineBasis. rewrite E. cbn. eexists; reflexivity.
Qed.

(** Turning the column dichotomy into [unit_volume]. *)
Lemma column_dichotomy B dt dt_max inst n_eye a b L bo :
  0 < dt -> 0 < dt_max ->
  CosineBasis B dt dt_max true inst n_eye a b L = Ok bo ->
  bt_cols (bo_tab bo) = B /\
  bt_rows (bo_tab bo) = ((if inst then 0 else 1) + arange_len dt_max dt)%nat /\
  (forall j, inst = false -> bt_at (bo_tab bo) 0 j = Fin 0) /\
  forall j, (j < B)%nat ->
    (forall i, (i < arange_len dt_max dt)%nat ->
       bt_at (bo_tab bo) ((if inst then 0 else 1) + i)%nat j = NaN) \/
    unit_volume dt (bt_rows (bo_tab bo)) (fun l => bt_at (bo_tab bo) l j).
Proof.
  intros Hdt Hdm H. pose proof (@cosine_columns B dt dt_max inst n_eye a b L bo Hdt Hdm H) as G.
  cbv zeta in G. destruct G as (G1 & G2 & _ & G3 & G4).
  split; [auto|]. split; [auto|]. split; [auto|].
  intros j Hj. destruct (G4 j Hj) as [G5|(s & Hs & Hpos & G5)]; [now left|right].
  set (n := arange_len dt_max dt) in *.
  set (v := fun i => s i / (dt * Rsum n s)).
  assert (Hv : forall i, 0 <= v i).
  { intros i. unfold v. apply Rmult_le_pos; [apply Hs|left; apply Rinv_0_lt_compat].
    now apply Rmult_lt_0_compat. }
  assert (Hsum : dt * Rsum n v = 1).
  { unfold v. rewrite Rsum_div. field. split; lra. }
  exists (fun l => if inst then v l else match l with O => 0 | S l' => v l' end).
  rewrite G2. destruct inst; cbn [Nat.add] in *.
  - split; [|exact Hsum]. intros l Hl. split; [now apply G5|apply Hv].
  - split.
    + intros [|l] Hl; [split; [now apply G3|lra]|]. split; [apply G5; lia|apply Hv].
    + rewrite Rsum_S_l. rewrite Rplus_0_l. exact Hsum.
Qed.

Lemma unit_volume_of_sample B dt dt_max inst n_eye a b L bo j i l :
  0 < dt -> 0 < dt_max ->
  CosineBasis B dt dt_max true inst n_eye a b L = Ok bo ->
  (j < B)%nat -> (S l < L)%nat -> (i < arange_len dt_max dt)%nat ->
  INR l * (dt_max / INR (L - 1)) <= INR i * dt < INR (S l) * (dt_max / INR (L - 1)) ->
  good_col L B n_eye a b j ->
  0 < raw_entry L n_eye (B - n_eye) a b l j ->
  unit_volume dt (bt_rows (bo_tab bo)) (fun l => bt_at (bo_tab bo) l j).
Proof.
  intros Hdt Hdm H Hj Hl Hi Hc Hg Hr.
  destruct (@column_dichotomy B dt dt_max inst n_eye a b L bo Hdt Hdm H) as (_ & _ & _ & D).
  destruct (D j Hj) as [D1|D1]; [|exact D1].
  destruct (@cosine_finite_column B dt dt_max inst n_eye a b L bo j i l Hdt Hdm H Hj Hl Hi Hc Hg Hr)
    as (r & Er). rewrite (D1 i Hi) in Er. discriminate.
Qed.

(** Fine sampling: at least one sample per raw grid cell. *)
Lemma cosine_fine_grid n_eye B dt dt_max inst a b L :
  0 < a -> 0 < b -> (n_eye < B)%nat -> (3 <= L)%nat -> (2 * n_eye + 2 <= L)%nat ->
  (B = S n_eye -> a * INR n_eye + b <> 1) ->
  0 < dt -> dt * INR (L - 1) <= dt_max ->
  exists bo, CosineBasis B dt dt_max true inst n_eye a b L = Ok bo /\
    bt_cols (bo_tab bo) = B /\
    (inst = false -> forall j, bt_at (bo_tab bo) 0 j = Fin 0) /\
    forall j, (j < B)%nat ->
      unit_volume dt (bt_rows (bo_tab bo)) (fun l => bt_at (bo_tab bo) l j).
Proof.
  intros Ha Hb HB HL3 HL H1 Hdt Hfine.
  destruct (@cosine_ok n_eye B dt dt_max true inst a b L Ha Hb HB HL H1) as (bo & E).
  assert (HI : 0 < INR (L - 1)) by (apply lt_0_INR; lia).
  assert (Hdm : 0 < dt_max).
  { assert (0 < dt * INR (L - 1)) by now apply Rmult_lt_0_compat. lra. }
  exists bo. split; [exact E|].
  destruct (@column_dichotomy B dt dt_max inst n_eye a b L bo Hdt Hdm E) as (D1 & _ & D3 & _).
  split; [exact D1|]. split; [intros Hi j; now apply D3|].
  intros j Hj.
  (* the raw index where column j equals 1 *)
  assert (Hp : exists p, (S p < L)%nat /\ raw_entry L n_eye (B - n_eye) a b p j = 1).
  { unfold raw_entry. destruct (Nat.ltb_spec j n_eye) as [Hlt|Hge].
    - exists j. rewrite Nat.eqb_refl. split; [lia|reflexivity].
    - exists (cos_ctr_idx L n_eye (B - n_eye) (j - n_eye)). split; [|apply bump_peak].
      pose proof (@ctr_bound L n_eye (B - n_eye) (j - n_eye) ltac:(lia) ltac:(lia)).
      assert (S (L / 2) < L)%nat.
      { pose proof (Nat.div_mod L 2 ltac:(lia)). lia. }
      lia. }
  destruct Hp as (p & Hp & Hraw).
  set (h := dt_max / INR (L - 1)) in *.
  assert (Hh : dt <= h).
  { unfold h. apply (Rmult_le_reg_r (INR (L - 1))); [auto|].
    unfold Rdiv. rewrite Rmult_assoc, Rinv_l by lra. lra. }
  (* the first sample at or after p*h *)
  set (i := Z.to_nat (ceilZ (INR p * h / dt))).
  assert (Hc := ceilZ_spec (INR p * h / dt)).
  assert (Hnn : 0 <= INR p * h / dt).
  { apply Rmult_le_pos; [apply Rmult_le_pos; [apply pos_INR|lra]|left; now apply Rinv_0_lt_compat]. }
  assert (Hiz : IZR (ceilZ (INR p * h / dt)) = INR i).
  { unfold i. rewrite (INR_IZR_INZ (Z.to_nat _)). rewrite Z2Nat.id; [reflexivity|].
    apply le_IZR. lra. }
  rewrite Hiz in Hc.
  assert (Hcell : INR p * h <= INR i * dt < INR (S p) * h).
  { rewrite S_INR.
    assert (Hq : INR p * h / dt * dt = INR p * h) by (field; lra).
    assert (Hc1 : INR p * h / dt * dt <= INR i * dt) by (apply Rmult_le_compat_r; lra).
    assert (Hc2 : (INR i - 1) * dt < INR p * h / dt * dt) by (apply Rmult_lt_compat_r; lra).
    lra. }
  assert (Hin : (i < arange_len dt_max dt)%nat).
  { unfold arange_len.
    assert (Hlt : INR i * dt < dt_max).
    { assert (INR (S p) * h <= dt_max); [|lra].
      unfold h. apply (Rmult_le_reg_r (INR (L - 1))); [auto|].
      replace (INR (S p) * (dt_max / INR (L - 1)) * INR (L - 1)) with (dt_max * INR (S p))
        by (field; lra).
      apply Rmult_le_compat_l; [lra|]. apply le_INR; lia. }
    assert (Hlt2 : INR i < dt_max / dt).
    { apply (Rmult_lt_reg_r dt); [auto|]. unfold Rdiv. rewrite (Rmult_assoc dt_max), Rinv_l by lra. lra. }
    pose proof (ceilZ_spec (dt_max / dt)).
    assert (Z.of_nat i < ceilZ (dt_max / dt))%Z by (apply lt_IZR; rewrite <- INR_IZR_INZ; lra).
    lia. }
  apply (@unit_volume_of_sample B dt dt_max inst n_eye a b L bo j i p); auto.
  - split; [auto|right]. now apply width_nonzero.
  - rewrite Hraw. lra.
Qed.

(* ---- default numbers: a = 1/120, b = 1/2, L = 100, n_eye = 0, B = 5 ---- *)

Lemma lin5 i : linspace (INR 0) (INR 100 / 2) 5 i = INR i * (25 / 2).
Proof.
  unfold linspace. cbn [Nat.eqb].
  replace (INR 0) with 0 by reflexivity.
  replace (INR 100) with 100 by (rewrite INR_IZR_INZ; reflexivity).
  replace (INR (5 - 1)) with 4 by (rewrite INR_IZR_INZ; reflexivity). lra.
Qed.

Lemma ctr5 : cos_ctr_idx 100 0 5 0 = 0%nat /\ cos_ctr_idx 100 0 5 1 = 12%nat /\
  cos_ctr_idx 100 0 5 2 = 25%nat /\ cos_ctr_idx 100 0 5 3 = 37%nat /\ cos_ctr_idx 100 0 5 4 = 50%nat.
Proof.
  assert (G : forall i n, IZR n <= INR i * (25 / 2) < IZR n + 1 ->
              cos_ctr_idx 100 0 5 i = Z.to_nat n).
  { intros i n H. unfold cos_ctr_idx. rewrite lin5. f_equal. now apply floorZ_unique. }
  repeat split.
  - rewrite (@G 0%nat 0%Z); [reflexivity|cbn; lra].
  - rewrite (@G 1%nat 12%Z); [reflexivity|cbn; lra].
  - rewrite (@G 2%nat 25%Z); [reflexivity|cbn; lra].
  - rewrite (@G 3%nat 37%Z); [reflexivity|cbn; lra].
  - rewrite (@G 4%nat 50%Z); [reflexivity|cbn; lra].
Qed.

Lemma width5 : cos_width (1/120) (1/2) 100 0 5 = ln (11 / 6) / 4.
Proof.
  unfold cos_width. cbn [Nat.eqb].
  destruct ctr5 as (C0 & _ & _ & _ & C4).
  change (5 - 1)%nat with 4%nat. rewrite C0, C4. unfold cos_u_ir.
  replace (INR 4) with 4 by (rewrite INR_IZR_INZ; reflexivity).
  replace (INR 50) with 50 by (rewrite INR_IZR_INZ; reflexivity). cbn [INR].
  rewrite <- ln_div by lra. do 2 f_equal. lra.
Qed.

Lemma ln_11_6_pos : 0 < ln (11 / 6).
Proof. rewrite <- ln_1. apply ln_increasing; lra. Qed.

(** With w = ln(11/6)/4 the bump at u = ln x centred on c = ln y is positive as
    soon as (x/y)^2 is strictly within (6/11, 11/6). *)
Lemma bump5_pos x y :
  0 < x -> 0 < y -> x * x * 6 < y * y * 11 -> y * y * 6 < x * x * 11 ->
  0 < bump (ln x) (ln y) (ln (11 / 6) / 4).
Proof.
  intros Hx Hy H1 H2. pose proof ln_11_6_pos as Hp. apply bump_pos; [lra|].
  rewrite (Rabs_right (ln (11/6) / 4)) by lra.
  assert (Hxx : 0 < x * x) by now apply Rmult_lt_0_compat.
  assert (Hyy : 0 < y * y) by now apply Rmult_lt_0_compat.
  assert (E1 : ln (x * x) = 2 * ln x) by (rewrite ln_mult by auto; lra).
  assert (E2 : ln (y * y) = 2 * ln y) by (rewrite ln_mult by auto; lra).
  assert (L1 : ln (x * x) < ln (11 / 6 * (y * y))) by (apply ln_increasing; lra).
  assert (L2 : ln (y * y) < ln (11 / 6 * (x * x))) by (apply ln_increasing; lra).
  rewrite (ln_mult (11 / 6)) in L1, L2 by lra.
  apply Rabs_def1; lra.
Qed.

Lemma bump5_zero x y :
  0 < x -> 0 < y -> x * x * 11 <= y * y * 6 ->
  bump (ln x) (ln y) (ln (11 / 6) / 4) = 0.
Proof.
  intros Hx Hy H. pose proof ln_11_6_pos as Hp. apply bump_zero; [lra|].
  assert (Hxx : 0 < x * x) by now apply Rmult_lt_0_compat.
  assert (Hyy : 0 < y * y) by now apply Rmult_lt_0_compat.
  assert (E1 : ln (x * x) = 2 * ln x) by (rewrite ln_mult by auto; lra).
  assert (E2 : ln (y * y) = 2 * ln y) by (rewrite ln_mult by auto; lra).
  assert (L1 : ln (11 / 6 * (x * x)) <= ln (y * y)) by (apply ln_le_mono; lra).
  rewrite (ln_mult (11 / 6)) in L1 by lra. lra.
Qed.

Lemma arange_10_1 : arange_len 10 1 = 10%nat.
Proof.
  unfold arange_len. rewrite (@ceilZ_unique (10 / 1) 10%Z); [reflexivity|lra].
Qed.

Lemma INR_IZR z : INR (Z.to_nat z) = IZR (Z.max 0 z).
Proof. rewrite INR_IZR_INZ. f_equal. lia. Qed.

(** The default discrete-time basis (B = 5, dt = 1, dt_max = 10) is proper. *)
Lemma default_basis_proper :
  exists bo, CosineBasis 5 1 10 true false 0 (1/120) (1/2) 100 = Ok bo /\
    bt_cols (bo_tab bo) = 5%nat /\ bt_rows (bo_tab bo) = 11%nat /\
    (forall j, bt_at (bo_tab bo) 0 j = Fin 0) /\
    forall j, (j < 5)%nat -> unit_volume 1 11 (fun l => bt_at (bo_tab bo) l j).
Proof.
  destruct (@cosine_ok 0 5 1 10 true false (1/120) (1/2) 100) as (bo & E);
    [lra|lra|lia|lia|lia|].
  exists bo. split; [exact E|].
  destruct (@column_dichotomy 5 1 10 false 0 (1/120) (1/2) 100 bo ltac:(lra) ltac:(lra) E)
    as (D1 & D2 & D3 & _).
  rewrite arange_10_1 in D2. cbn in D2.
  split; [exact D1|]. split; [exact D2|]. split; [intros; now apply D3|].
  intros j Hj. rewrite <- D2 at 1.
  destruct ctr5 as (C0 & C1 & C2 & C3 & C4).
  assert (Hg : forall j, (j < 5)%nat -> good_col 100 5 0 (1/120) (1/2) j).
  { intros j' Hj'. split; [auto|right]. apply width_nonzero; [lra|lra|lia|lia|lia]. }
  assert (I : forall n, INR n = IZR (Z.of_nat n)) by (intros; apply INR_IZR_INZ).
  assert (G : forall i l c, cos_ctr_idx 100 0 5 j = c -> (i < 10)%nat -> (S l < 100)%nat ->
     IZR (Z.of_nat l) * (10 / 99) <= IZR (Z.of_nat i) * 1 < IZR (Z.of_nat (S l)) * (10 / 99) ->
     let x := 1 / 120 * IZR (Z.of_nat l) + 1 / 2 in let y := 1 / 120 * IZR (Z.of_nat c) + 1 / 2 in
     0 < x -> 0 < y -> x * x * 6 < y * y * 11 -> y * y * 6 < x * x * 11 ->
     unit_volume 1 (bt_rows (bo_tab bo)) (fun l => bt_at (bo_tab bo) l j)).
  { intros i l c Hc Hi Hl Hcell x y Hx Hy H1 H2.
    apply (@unit_volume_of_sample 5 1 10 false 0 (1/120) (1/2) 100 bo j i l); auto; try lra.
    - now rewrite arange_10_1.
    - rewrite !I. exact Hcell.
    - unfold raw_entry. cbn [Nat.ltb Nat.leb]. change (5 - 0)%nat with 5%nat.
      rewrite Nat.sub_0_r, Hc, width5. unfold cos_u_ir. rewrite !I. now apply bump5_pos. }
  destruct j as [|[|[|[|[|j]]]]]; [| | | | |lia].
  - apply (G 0%nat 0%nat 0%nat); auto; cbn; lra || lia.
  - apply (G 0%nat 0%nat 12%nat); auto; cbn; lra || lia.
  - apply (G 1%nat 9%nat 25%nat); auto; cbn; lra || lia.
  - apply (G 2%nat 19%nat 37%nat); auto; cbn; lra || lia.
  - apply (G 3%nat 29%nat 50%nat); auto; cbn; lra || lia.
Qed.

(** A window of a single bin (dt = dt_max = 1): column 2 is NaN. *)
Lemma one_bin_basis_NaN :
  exists bo, CosineBasis 5 1 1 true false 0 (1/120) (1/2) 100 = Ok bo /\
    bt_cols (bo_tab bo) = 5%nat /\ bt_rows (bo_tab bo) = 2%nat /\
    bt_at (bo_tab bo) 1 2 = NaN.
Proof.
  destruct (@cosine_ok 0 5 1 1 true false (1/120) (1/2) 100) as (bo & E);
    [lra|lra|lia|lia|lia|].
  exists bo. split; [exact E|].
  assert (Ha : arange_len 1 1 = 1%nat).
  { unfold arange_len. rewrite (@ceilZ_unique (1 / 1) 1%Z); [reflexivity|lra]. }
  destruct (@column_dichotomy 5 1 1 false 0 (1/120) (1/2) 100 bo ltac:(lra) ltac:(lra) E)
    as (D1 & D2 & _ & _).
  rewrite Ha in D2. split; [exact D1|]. split; [exact D2|].
  unfold CosineBasis in E.
  destruct (create_cosine_basis 100 5 0 (1/120) (1/2) true) as [cb|] eqn:Ec; [|discriminate].
  cbn in E. injection E as <-. cbn [bo_tab].
  destruct (create_inv _ _ _ _ _ _ Ec) as (_ & _ & _ & H4 & _ & H6 & H7 & _).
  assert (Hg : good_col 100 5 0 (1/120) (1/2) 2).
  { split; [lia|right]. apply width_nonzero; [lra|lra|lia|lia|lia]. }
  assert (Hz : bt_at cb 0 2 = Fin 0).
  { rewrite (H7 0%nat 2%nat ltac:(lia) Hg). f_equal.
    assert (Hr : raw_entry 100 0 (5 - 0) (1/120) (1/2) 0 2 = 0).
    { unfold raw_entry. cbn [Nat.ltb Nat.leb]. change (5 - 0)%nat with 5%nat.
      change (2 - 0)%nat with 2%nat.
      destruct ctr5 as (_ & _ & C2 & _). rewrite C2, width5. unfold cos_u_ir. apply bump5_zero.
      - cbn; lra.
      - rewrite INR_IZR_INZ; cbn; lra.
      - rewrite !INR_IZR_INZ; cbn; lra. }
    rewrite Hr. unfold Rdiv. rewrite !Rmult_0_l. reflexivity. }
  unfold interpolate_basis. rewrite Ha. cbn [bt_at].
  assert (Hi : interp (bt_rows cb) (fun i => linspace 0 1 (bt_rows cb) i) (fun l => bt_at cb l 2)
                 (INR 0 * 1) = Fin 0).
  { rewrite H4. unfold interp. cbn [INR]. rewrite linspace_0.
    destruct (Rltb (0 * 1) 0) eqn:El; [exact Hz|].
    assert (Hidx : interp_idx (fun i => linspace 0 1 100 i) (0 * 1) (100 - 1) = 0%nat).
    { apply interp_idx_unique; [intros; apply linspace_inc; [lia|lra]|lia|].
      rewrite linspace_S, linspace_0 by lia. rewrite INR_IZR_INZ. cbn. lra. }
    rewrite Hidx. cbn [Nat.eqb Nat.sub]. rewrite Hz.
    assert (Hg1 : exists r, bt_at cb 1 2 = Fin r) by (eexists; apply H7; [lia|exact Hg]).
    destruct Hg1 as (r & ->). rewrite linspace_S, !linspace_0 by lia.
    rewrite esub_fin, ediv_fin.
    - rewrite emul_fin, eadd_fin. f_equal. lra.
    - rewrite INR_IZR_INZ. cbn. lra. }
  cbn [esum]. rewrite Hi. rewrite eadd_fin.
  replace (1 * (0 + 0)) with 0 by lra. apply ediv_0_0.
Qed.

(* ---- identity basis ---- *)
Lemma identity_proper dt dt_max inst bo :
  0 < dt ->
  IdentityBasis dt dt_max true inst = Ok bo ->
  (inst = false -> forall j, (j < bt_cols (bo_tab bo))%nat -> bt_at (bo_tab bo) 0 j = Fin 0) /\
  forall j, (j < bt_cols (bo_tab bo))%nat ->
    unit_volume dt (bt_rows (bo_tab bo)) (fun l => bt_at (bo_tab bo) l j).
Proof.
  intros Hdt H. unfold IdentityBasis in H.
  cbv zeta in H. destruct (Z.ltb _ 0); [discriminate|].
  set (B := Z.to_nat (floorZ (dt_max / dt) + (if inst then 1 else 0))) in *.
  match type of H with context [if negb ?c then _ else _] => destruct c; [|discriminate] end.
  cbn [negb] in H. injection H as <-. cbn [bo_tab bt_rows bt_cols bt_at].
  set (tab := fun i j : nat => if inst then (if Nat.eqb i j then 1 else 0)
              else match i with O => 0 | S i' => (if Nat.eqb i' j then 1 else 0) end).
  assert (Hsum : forall j, (j < B)%nat ->
            Rsum (if inst then B else S B) (fun i => tab i j) = 1).
  { intros j Hj. unfold tab. destruct inst.
    - rewrite (Rsum_ind B j (fun _ => 1)). destruct (Nat.ltb_spec j B); [reflexivity|lia].
    - rewrite Rsum_S_l, (Rsum_ind B j (fun _ => 1)).
      destruct (Nat.ltb_spec j B); [lra|lia]. }
  assert (Hent : forall i j, (j < B)%nat ->
      ediv (Fin (tab i j)) (emul (Fin dt) (esum (if inst then B else S B) (fun i' => Fin (tab i' j))))
      = Fin (tab i j / dt)).
  { intros i j Hj. rewrite (esum_fin _ (fun i' => tab i' j)) by auto.
    rewrite Hsum by auto. rewrite emul_fin, ediv_fin by lra. f_equal. field. lra. }
  split.
  - intros Ei j Hj. specialize (Hent 0%nat j Hj).
    replace (tab 0%nat j) with 0 in Hent by (unfold tab; now rewrite Ei).
    unfold tab in Hent. subst inst. cbn [Nat.add] in *.
    etransitivity; [exact Hent|]. f_equal. unfold Rdiv; lra.
  - intros j Hj. exists (fun l => tab l j / dt). split.
    + intros l _. split; [exact (Hent l j Hj)|].
      apply Rmult_le_pos; [|left; now apply Rinv_0_lt_compat].
      unfold tab. destruct inst; [destruct (Nat.eqb l j); lra|].
      destruct l as [|l]; [lra|destruct (Nat.eqb l j); lra].
    + rewrite Rsum_div, Hsum by auto. field. lra.
Qed.
