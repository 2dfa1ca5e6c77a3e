(** * L_Basis: lemmas about M_Basis *)
From Verif Require Import Prelude ExtReal Arrays M_Basis.
Set Implicit Arguments.
Open Scope R_scope.

(* ---------------- convolution ---------------- *)

Lemma conv_full_causal T R_ S_ col t :
  (t < T)%nat ->
  conv_full T R_ S_ col t
  = Rsum (S t) (fun l => if Nat.ltb l R_ then col l * S_ (t - l)%nat else 0).
Proof.
  intros Ht. unfold conv_full.
  assert (E : Rsum R_ (fun l => if (Nat.leb l t && Nat.ltb (t - l) T)%bool
                                then S_ (t - l)%nat * col l else 0)
            = Rsum R_ (fun l => if Nat.leb l t then col l * S_ (t - l)%nat else 0)).
  { apply Rsum_ext; intros l Hl. destruct (Nat.leb_spec l t); cbn [andb]; [|reflexivity].
    destruct (Nat.ltb_spec (t - l) T); [ring|lia]. }
  rewrite E; clear E.
  destruct (le_lt_dec R_ (S t)) as [H|H].
  - replace (S t) with (R_ + (S t - R_))%nat by lia. rewrite Rsum_app.
    rewrite (Rsum_0 (n := S t - R_)).
    + rewrite Rplus_0_r. apply Rsum_ext; intros l Hl.
      destruct (Nat.leb_spec l t), (Nat.ltb_spec l R_); try lia; reflexivity.
    + intros l Hl. destruct (Nat.ltb_spec (R_ + l) R_); [lia|reflexivity].
  - replace R_ with (S t + (R_ - S t))%nat at 1 by lia. rewrite Rsum_app.
    rewrite (Rsum_0 (n := R_ - S t)).
    + rewrite Rplus_0_r. apply Rsum_ext; intros l Hl.
      destruct (Nat.leb_spec l t), (Nat.ltb_spec l R_); try lia; reflexivity.
    + intros l Hl. destruct (Nat.leb_spec (S t + l) t); [lia|reflexivity].
Qed.

Lemma conv_full_nonneg T R_ S_ col t :
  (forall s, (s < T)%nat -> 0 <= S_ s) -> (forall l, (l < R_)%nat -> 0 <= col l) ->
  0 <= conv_full T R_ S_ col t.
Proof.
  intros HS Hc. apply Rsum_nonneg; intros l Hl.
  destruct (Nat.leb_spec l t); cbn [andb]; [|lra].
  destruct (Nat.ltb_spec (t - l) T); [|lra].
  apply Rmult_le_pos; auto.
Qed.

(** The filter as the code returns it, entry by entry. *)
Lemma convolve_entry T K S_ R_ B bas F :
  convolve_with_basis T K S_ R_ B bas = Ok F ->
  forall t k b, (t < T)%nat -> (k < K)%nat -> (b < B)%nat ->
  F t k b = conv_full T R_ (fun s => IZR (S_ s k)) (fun l => bas l b) t.
Proof.
  unfold convolve_with_basis. intros H t k b Ht Hk Hb.
  destruct (Nat.eqb R_ 0 || Nat.eqb B 0 || Nat.eqb T 0 || Nat.eqb K 0)%bool; [discriminate|].
  match type of H with context [if (?c1 && ?c2)%bool then _ else _] =>
    destruct c1 eqn:E1; destruct c2 eqn:E2 end; cbn [andb] in H.
  - match type of H with context [if ?c then _ else _] => destruct c; [|discriminate] end.
    injection H as <-. unfold clip_lo. apply Rmax_right.
    rewrite forall_lt_true in E1, E2. apply conv_full_nonneg.
    + intros s Hs. specialize (E2 s Hs). rewrite forall_lt_true in E2.
      specialize (E2 k Hk). apply Z.leb_le in E2. apply IZR_le in E2; auto.
    + intros l Hl. specialize (E1 l Hl). rewrite forall_lt_true in E1.
      specialize (E1 b Hb). now apply Rleb_true in E1.
  - injection H as <-. reflexivity.
  - injection H as <-. reflexivity.
  - injection H as <-. reflexivity.
Qed.

Lemma convolve_ok T K S_ R_ B bas :
  (0 < T)%nat -> (0 < K)%nat -> (0 < R_)%nat -> (0 < B)%nat ->
  exists F, convolve_with_basis T K S_ R_ B bas = Ok F.
Proof.
  intros HT HK HR HB. unfold convolve_with_basis.
  destruct (Nat.eqb_spec R_ 0), (Nat.eqb_spec B 0), (Nat.eqb_spec T 0), (Nat.eqb_spec K 0); try lia.
  cbn [orb].
  match goal with |- context [if ?c then _ else Ok ?f] => destruct c; [|now exists f] end.
  match goal with |- context [if ?c then Ok ?f else _] => destruct c eqn:E; [now exists f|] end.
  exfalso. apply forall_lt_false in E as (t & Ht & E). apply forall_lt_false in E as (k & Hk & E).
  apply forall_lt_false in E as (b & Hb & E). apply Rleb_false in E.
  unfold clip_lo in E. pose proof (Rmax_l 0 (conv_full T R_ (fun s => IZR (S_ s k)) (fun l => bas l b) t)).
  lra.
Qed.

Lemma convolve_empty T K S_ R_ B bas :
  (T = 0 \/ K = 0 \/ R_ = 0 \/ B = 0)%nat ->
  convolve_with_basis T K S_ R_ B bas = Raise ValueError.
Proof.
  intros H. unfold convolve_with_basis.
  destruct (Nat.eqb_spec R_ 0), (Nat.eqb_spec B 0), (Nat.eqb_spec T 0), (Nat.eqb_spec K 0);
    try reflexivity; lia.
Qed.

Lemma Rsum_split_at n m f : (m <= n)%nat ->
  Rsum n f = Rsum m f + Rsum (n - m) (fun i => f (m + i)%nat).
Proof. intros H. replace n with (m + (n - m))%nat at 1 by lia. apply Rsum_app. Qed.

(** Mass: the time-sum of the filter regroups by event. *)
Lemma conv_mass T R_ S_ col :
  Rsum T (fun t => conv_full T R_ S_ col t)
  = Rsum T (fun s => S_ s * Rsum R_ (fun l => if Nat.ltb (s + l) T then col l else 0)).
Proof.
  unfold conv_full. rewrite Rsum_swap.
  assert (E : Rsum R_ (fun l => Rsum T (fun t =>
              if (Nat.leb l t && Nat.ltb (t - l) T)%bool then S_ (t - l)%nat * col l else 0))
            = Rsum R_ (fun l => Rsum T (fun s => if Nat.ltb (s + l) T then S_ s * col l else 0))).
  { apply Rsum_ext; intros l Hl.
    destruct (le_lt_dec T l) as [H|H].
    - rewrite !Rsum_0; auto; intros s Hs.
      + destruct (Nat.ltb_spec (s + l) T); [lia|reflexivity].
      + destruct (Nat.leb_spec l s); [lia|reflexivity].
    - rewrite (@Rsum_split_at T l) by lia.
      rewrite (Rsum_0 (n := l)), Rplus_0_l.
      2:{ intros t Ht. destruct (Nat.leb_spec l t); [lia|reflexivity]. }
      rewrite (@Rsum_split_at T (T - l) (fun s => if Nat.ltb (s + l) T then _ else _)) by lia.
      rewrite (Rsum_0 (n := T - (T - l))), Rplus_0_r.
      2:{ intros t Ht. destruct (Nat.ltb_spec (T - l + t + l) T); [lia|reflexivity]. }
      apply Rsum_ext; intros s Hs.
      replace (l + s - l)%nat with s by lia.
      destruct (Nat.leb_spec l (l + s)), (Nat.ltb_spec s T), (Nat.ltb_spec (s + l) T); try lia.
      reflexivity. }
  rewrite E, Rsum_swap. apply Rsum_ext; intros s Hs.
  rewrite <- Rsum_scal. apply Rsum_ext; intros l Hl.
  destruct (Nat.ltb (s + l) T); lra.
Qed.

(* ---------------- interpolation ---------------- *)

Lemma interp_idx_le xp x n : (interp_idx xp x n <= n)%nat.
Proof. induction n as [|n IH]; cbn; [lia|]. destruct (Rleb (xp (S n)) x); lia. Qed.

Lemma interp_idx_lower xp x n : xp 0%nat <= x -> xp (interp_idx xp x n) <= x.
Proof.
  intros H. induction n as [|n IH]; cbn; [auto|].
  destruct (Rleb (xp (S n)) x) eqn:E; [now apply Rleb_true in E|auto].
Qed.

Lemma interp_idx_upper xp x n j :
  (interp_idx xp x n < j <= n)%nat -> x < xp j.
Proof.
  induction n as [|n IH]; intros H; [lia|]. cbn in H.
  destruct (Rleb (xp (S n)) x) eqn:E; [lia|]. apply Rleb_false in E.
  destruct (Nat.eq_dec j (S n)) as [->|Hne]; [auto|]. apply IH. lia.
Qed.

Lemma interp_idx_unique xp x n j :
  (forall i, (i < n)%nat -> xp i < xp (S i)) ->
  (j < n)%nat -> xp j <= x < xp (S j) -> interp_idx xp x n = j.
Proof.
  intros Hinc Hj [H1 H2].
  assert (Hmono : forall i k, (i <= k <= n)%nat -> xp i <= xp k).
  { intros i k [Hik Hk]. induction Hik as [|k Hik IH]; [lra|].
    specialize (Hinc k ltac:(lia)). specialize (IH ltac:(lia)). lra. }
  induction n as [|n IH]; [lia|]. cbn.
  destruct (Rleb (xp (S n)) x) eqn:E.
  - apply Rleb_true in E. assert (xp (S j) <= xp (S n)) by (apply Hmono; lia). lra.
  - destruct (Nat.eq_dec j n) as [->|Hne].
    + clear IH E. destruct n as [|n]; [reflexivity|]. cbn.
      destruct (Rleb (xp (S n)) x) eqn:E; [reflexivity|]. apply Rleb_false in E. lra.
    + apply IH; [intros; apply Hinc; lia|lia|intros; apply Hmono; lia].
Qed.

(** [interp] on finite data is the piecewise-linear interpolant: a convex
    combination of the two neighbouring samples. *)
Lemma interp_convex L xp fp f x :
  (1 <= L)%nat ->
  (forall i, (S i < L)%nat -> xp i < xp (S i)) ->
  (forall i, (i < L)%nat -> fp i = Fin (f i)) ->
  xp 0%nat <= x ->
  exists j th, (j < L)%nat /\ 0 <= th < 1 /\ (th = 0 \/ (S j < L)%nat) /\
    interp L xp fp x = Fin ((1 - th) * f j + th * f (S j)) /\
    ((S j < L)%nat -> x = (1 - th) * xp j + th * xp (S j)) /\
    (S j = L -> xp j <= x).
Proof.
  intros HL Hinc Hf Hx. unfold interp.
  destruct (Rltb x (xp 0%nat)) eqn:E; [apply Rltb_true in E; lra|]. clear E.
  set (j := interp_idx xp x (L - 1)).
  assert (Hj : (j <= L - 1)%nat) by apply interp_idx_le.
  destruct (Nat.eqb_spec j (L - 1)) as [E|E].
  - exists (L - 1)%nat, 0. split; [lia|]. split; [lra|]. split; [auto|].
    rewrite Hf by lia. split; [f_equal; lra|]. split; [lia|].
    intros _. rewrite <- E. now apply interp_idx_lower.
  - assert (HS : xp j < xp (S j)) by (apply Hinc; lia).
    assert (Hl : xp j <= x) by now apply interp_idx_lower.
    assert (Hu : x < xp (S j)) by (apply (@interp_idx_upper xp x (L - 1)); subst j; lia).
    exists j, ((x - xp j) / (xp (S j) - xp j)).
    split; [lia|]. split.
    + split; [apply Rmult_le_pos; [lra|left; apply Rinv_0_lt_compat; lra]|].
      apply (Rmult_lt_reg_r (xp (S j) - xp j)); [lra|].
      unfold Rdiv. rewrite Rmult_assoc, Rinv_l by lra. lra.
    + split; [right; lia|]. rewrite !Hf by lia. rewrite esub_fin, ediv_fin by lra.
      rewrite emul_fin, eadd_fin. split; [f_equal; field; lra|].
      split; [intros _; field; lra|lia].
Qed.

Lemma linspace_S start stop num i :
  (1 < num)%nat ->
  linspace start stop num (S i) = linspace start stop num i + (stop - start) / INR (num - 1).
Proof.
  intros H. unfold linspace. destruct (Nat.eqb_spec num 1); [lia|]. rewrite S_INR. lra.
Qed.

Lemma linspace_inc start stop num i :
  (1 < num)%nat -> start < stop ->
  linspace start stop num i < linspace start stop num (S i).
Proof.
  intros H Hlt. rewrite linspace_S by auto.
  assert (0 < INR (num - 1)) by (apply lt_0_INR; lia).
  assert (0 < (stop - start) / INR (num - 1)) by (apply Rdiv_lt_0_compat; lra). lra.
Qed.

Lemma linspace_0 start stop num : linspace start stop num 0 = start.
Proof. unfold linspace. destruct (Nat.eqb num 1); [reflexivity|]. cbn. lra. Qed.

(* ---------------- the cosine bump ---------------- *)

Definition bump (u c w : R) : R :=
  (cos (Rmax (- PI) (Rmin PI ((u - c) * PI / w / 2))) + 1) / 2.

Lemma basis_fn_fin u c w : w <> 0 -> basis_fn u c w = Fin (bump u c w).
Proof.
  intros Hw. unfold basis_fn, bump.
  rewrite ediv_fin by exact Hw. rewrite ediv_fin by lra.
  rewrite emin_fin, emax_fin. cbn [ecos]. rewrite eadd_fin, ediv_fin by lra. reflexivity.
Qed.

Lemma bump_nonneg u c w : 0 <= bump u c w.
Proof. unfold bump. pose proof (COS_bound (Rmax (- PI) (Rmin PI ((u - c) * PI / w / 2)))). lra. Qed.

Lemma bump_peak c w : bump c c w = 1.
Proof.
  unfold bump. replace ((c - c) * PI / w / 2) with 0 by (unfold Rdiv; ring).
  pose proof PI_RGT_0. rewrite Rmin_right by lra. rewrite Rmax_right by lra.
  rewrite cos_0. lra.
Qed.

Lemma cos_gt_m1 x : - PI < x < PI -> -1 < cos x.
Proof.
  intros [H1 H2]. pose proof PI_RGT_0.
  assert (G : forall y, 0 <= y < PI -> -1 < cos y).
  { intros y [Hy1 Hy2]. rewrite <- cos_PI. apply cos_decreasing_1; lra. }
  destruct (Rle_dec 0 x); [apply G; lra|].
  rewrite <- cos_neg. apply G; lra.
Qed.

Lemma bump_pos u c w : w <> 0 -> Rabs (u - c) < 2 * Rabs w -> 0 < bump u c w.
Proof.
  intros Hw H. unfold bump. pose proof PI_RGT_0 as HP.
  assert (Hx : - PI < (u - c) * PI / w / 2 < PI).
  { replace ((u - c) * PI / w / 2) with (((u - c) / (2 * w)) * PI) by (field; auto).
    assert (Habs : Rabs ((u - c) / (2 * w)) < 1).
    { unfold Rdiv. rewrite Rabs_mult, Rabs_inv.
      assert (H2w : 0 < Rabs (2 * w)) by (apply Rabs_pos_lt; lra).
      apply (Rmult_lt_reg_r (Rabs (2 * w))); [auto|].
      rewrite Rmult_assoc, Rinv_l by lra. rewrite Rabs_mult, (Rabs_right 2) by lra. lra. }
    apply Rabs_def2 in Habs. split.
    - replace (- PI) with ((-1) * PI) by lra. apply Rmult_lt_compat_r; lra.
    - replace PI with (1 * PI) at 2 by lra. apply Rmult_lt_compat_r; lra. }
  rewrite Rmin_right by lra. rewrite Rmax_right by lra.
  pose proof (cos_gt_m1 Hx). lra.
Qed.

Lemma bump_zero u c w : 0 < w -> 2 * w <= c - u -> bump u c w = 0.
Proof.
  intros Hw H. unfold bump. pose proof PI_RGT_0 as HP.
  assert (Hx : (u - c) * PI / w / 2 <= - PI).
  { replace ((u - c) * PI / w / 2) with (((u - c) / (2 * w)) * PI) by (field; lra).
    replace (- PI) with ((-1) * PI) by lra. apply Rmult_le_compat_r; [lra|].
    apply (Rmult_le_reg_r (2 * w)); [lra|]. unfold Rdiv. rewrite Rmult_assoc, Rinv_l by lra. lra. }
  rewrite Rmin_right by lra. rewrite Rmax_left by lra. rewrite cos_neg, cos_PI. lra.
Qed.

(* ---------------- create_basis ---------------- *)

Definition raw_entry (n_pts n_eye n_cos : nat) (a b : R) (i j : nat) : R :=
  if Nat.ltb j n_eye then (if Nat.eqb i j then 1 else 0)
  else bump (cos_u_ir a b i) (cos_u_ir a b (cos_ctr_idx n_pts n_eye n_cos (j - n_eye)))
            (cos_width a b n_pts n_eye n_cos).

Lemma raw_entry_nonneg n_pts n_eye n_cos a b i j : 0 <= raw_entry n_pts n_eye n_cos a b i j.
Proof.
  unfold raw_entry. destruct (Nat.ltb j n_eye); [destruct (Nat.eqb i j); lra|apply bump_nonneg].
Qed.

Lemma basis_fn_NaN u : basis_fn u u 0 = NaN.
Proof.
  unfold basis_fn. replace ((u - u) * PI) with 0 by ring. rewrite ediv_0_0. reflexivity.
Qed.

Definition good_col (n_pts B n_eye : nat) (a b : R) (j : nat) : Prop :=
  (j < B)%nat /\ ((j < n_eye)%nat \/ cos_width a b n_pts n_eye (B - n_eye) <> 0).

Lemma create_inv n_pts B n_eye a b norm tab :
  create_cosine_basis n_pts B n_eye a b norm = Ok tab ->
  (n_eye < B)%nat /\ (1 <= n_pts)%nat /\
  (forall i, (i < B - n_eye)%nat -> (cos_ctr_idx n_pts n_eye (B - n_eye) i < n_pts)%nat) /\
  bt_rows tab = n_pts /\ bt_cols tab = B /\
  (forall j, good_col n_pts B n_eye a b j ->
     0 < Rsum n_pts (fun i => raw_entry n_pts n_eye (B - n_eye) a b i j)) /\
  (forall i j, (i < n_pts)%nat -> good_col n_pts B n_eye a b j ->
     bt_at tab i j =
     Fin (if norm then raw_entry n_pts n_eye (B - n_eye) a b i j
                       / Rsum n_pts (fun i' => raw_entry n_pts n_eye (B - n_eye) a b i' j)
                       * INR n_pts
          else raw_entry n_pts n_eye (B - n_eye) a b i j)) /\
  (norm = true ->
   forall i j, (i < n_pts)%nat -> (j < B)%nat -> ~ good_col n_pts B n_eye a b j ->
     bt_at tab i j = NaN).
Proof.
  intros H. unfold create_cosine_basis in H.
  destruct (Nat.ltb_spec B n_eye); [discriminate|].
  destruct (Nat.eqb_spec (B - n_eye) 0); [discriminate|].
  match type of H with context [if negb ?c then _ else _] => destruct c eqn:Ec; [|discriminate] end.
  cbn [negb] in H. rewrite forall_lt_true in Ec.
  assert (Hidx : forall i, (i < B - n_eye)%nat -> (cos_ctr_idx n_pts n_eye (B - n_eye) i < n_pts)%nat).
  { intros i Hi. specialize (Ec i Hi). now apply Nat.ltb_lt in Ec. }
  assert (Hraw : forall i j, good_col n_pts B n_eye a b j ->
    (if Nat.ltb j n_eye then (if Nat.eqb i j then Fin 1 else Fin 0)
     else basis_fn (cos_u_ir a b i)
            (cos_u_ir a b (cos_ctr_idx n_pts n_eye (B - n_eye) (j - n_eye)))
            (cos_width a b n_pts n_eye (B - n_eye)))
    = Fin (raw_entry n_pts n_eye (B - n_eye) a b i j)).
  { intros i j [Hj Hor]. unfold raw_entry. destruct (Nat.ltb_spec j n_eye).
    - destruct (Nat.eqb i j); reflexivity.
    - apply basis_fn_fin. destruct Hor; [lia|auto]. }
  assert (Heye : (n_eye <= n_pts)%nat).
  { specialize (Hidx 0%nat ltac:(lia)). unfold cos_ctr_idx in Hidx. rewrite linspace_0 in Hidx.
    replace (floorZ (INR n_eye)) with (Z.of_nat n_eye) in Hidx.
    - lia.
    - symmetry. apply floorZ_unique. rewrite <- INR_IZR_INZ. lra. }
  assert (Hpos : (1 <= n_pts)%nat) by (specialize (Hidx 0%nat ltac:(lia)); lia).
  assert (Hsum : forall j, good_col n_pts B n_eye a b j ->
            0 < Rsum n_pts (fun i => raw_entry n_pts n_eye (B - n_eye) a b i j)).
  { intros j [Hj _].
    assert (Hone : exists i, (i < n_pts)%nat /\ raw_entry n_pts n_eye (B - n_eye) a b i j = 1).
    { unfold raw_entry. destruct (Nat.ltb_spec j n_eye).
      - exists j. rewrite Nat.eqb_refl. split; [lia|reflexivity].
      - exists (cos_ctr_idx n_pts n_eye (B - n_eye) (j - n_eye)). split; [apply Hidx; lia|].
        apply bump_peak. }
    destruct Hone as (i & Hi & E).
    pose proof (@Rsum_term_le n_pts (fun i => raw_entry n_pts n_eye (B - n_eye) a b i j) i
      (fun i' _ => raw_entry_nonneg n_pts n_eye (B - n_eye) a b i' j) Hi) as Hle.
    cbn beta in Hle. rewrite E in Hle. lra. }
  destruct norm.
  - match type of H with context [if negb ?c then _ else _] => destruct c; [|discriminate] end.
    cbn [negb] in H. injection H as <-. cbn [bt_rows bt_cols bt_at]. repeat split; auto; try lia.
    + intros i j Hi Hj. rewrite Hraw by auto.
      rewrite (esum_fin _ (fun i' => raw_entry n_pts n_eye (B - n_eye) a b i' j))
        by (intros; now apply Hraw).
      specialize (Hsum j Hj). rewrite ediv_fin by lra. rewrite ediv_fin.
      * f_equal. assert (INR n_pts <> 0) by (apply not_0_INR; lia).
        field. split; lra.
      * assert (0 < INR n_pts) by (apply lt_0_INR; lia).
        unfold Rdiv. rewrite Rmult_1_l. apply Rinv_neq_0_compat. lra.
    + intros _ i j Hi Hj Hbad. unfold good_col in Hbad.
      destruct (Nat.ltb_spec j n_eye); [tauto|].
      assert (Hw : cos_width a b n_pts n_eye (B - n_eye) = 0).
      { destruct (Req_dec (cos_width a b n_pts n_eye (B - n_eye)) 0); [auto|tauto]. }
      rewrite Hw.
      rewrite (@esum_NaN n_pts _ (cos_ctr_idx n_pts n_eye (B - n_eye) (j - n_eye)));
        [ |apply Hidx; lia|apply basis_fn_NaN].
      destruct (basis_fn _ _ _); reflexivity.
  - injection H as <-. cbn [bt_rows bt_cols bt_at]. repeat split; auto; try lia; discriminate.
Qed.

Lemma create_ok n_pts B n_eye a b norm :
  cos_width a b n_pts n_eye (B - n_eye) <> 0 ->
  (n_eye < B)%nat ->
  (forall i, (i < B - n_eye)%nat -> (cos_ctr_idx n_pts n_eye (B - n_eye) i < n_pts)%nat) ->
  exists tab, create_cosine_basis n_pts B n_eye a b norm = Ok tab.
Proof.
  intros Hw HB Hidx. unfold create_cosine_basis.
  destruct (Nat.ltb_spec B n_eye); [lia|].
  destruct (Nat.eqb_spec (B - n_eye) 0); [lia|].
  match goal with |- context [if negb ?c then _ else _] => assert (Ec : c = true) end.
  { apply forall_lt_true. intros i Hi. apply Nat.ltb_lt. auto. }
  rewrite Ec. cbn [negb]. destruct norm; [|eexists; reflexivity].
  match goal with |- context [if negb ?c then _ else _] => assert (Ed : c = true) end.
  { apply forall_lt_true; intros i Hi. apply forall_lt_true; intros j Hj.
    destruct (Nat.ltb j n_eye).
    - destruct (Nat.eqb i j); cbn; unfold Rltb; destruct (Rlt_dec _ _); try reflexivity; lra.
    - rewrite basis_fn_fin by auto. cbn. apply Bool.negb_true_iff, Rltb_false, bump_nonneg. }
  rewrite Ed. cbn [negb]. eexists; reflexivity.
Qed.

(* ---------------- interpolate_basis ---------------- *)

(** Column [b] of the interpolated samples, as reals. *)
Lemma interpolate_inv (cb : basis_tab) (c : mat) dt dt_max norm inst :
  (1 <= bt_rows cb)%nat -> 0 < dt -> 0 < dt_max ->
  forall good : nat -> Prop,
  (forall i j, (i < bt_rows cb)%nat -> good j ->
     bt_at cb i j = Fin (c i j) /\ 0 <= c i j) ->
  exists s : mat,
  (forall i j, good j ->
     0 <= s i j /\
     interp (bt_rows cb) (linspace 0 dt_max (bt_rows cb)) (fun l => bt_at cb l j) (INR i * dt)
     = Fin (s i j)) /\
  bt_cols (interpolate_basis cb dt dt_max norm inst) = bt_cols cb /\
  bt_rows (interpolate_basis cb dt dt_max norm inst)
    = ((if inst then 0 else 1) + arange_len dt_max dt)%nat /\
  forall j, good j ->
  let off := (if inst then 0 else 1)%nat in
  let tot := Rsum (arange_len dt_max dt) (fun i => s i j) in
  (inst = false -> bt_at (interpolate_basis cb dt dt_max norm inst) 0 j = Fin 0) /\
  (forall i, (i < arange_len dt_max dt)%nat ->
     bt_at (interpolate_basis cb dt dt_max norm inst) (off + i) j
     = if norm then (if Reqb tot 0 then NaN else Fin (s i j / (dt * tot)))
       else Fin (s i j)).
Proof.
  intros HL Hdt Hdm good Hc.
  assert (HS : forall j, good j -> forall i, exists r, 0 <= r /\
     interp (bt_rows cb) (linspace 0 dt_max (bt_rows cb)) (fun l => bt_at cb l j) (INR i * dt) = Fin r).
  { intros j Hj i.
    destruct (@interp_convex (bt_rows cb) (linspace 0 dt_max (bt_rows cb))
                (fun l => bt_at cb l j) (fun l => c l j) (INR i * dt))
      as (k & th & Hk & Hth & Hor & E & _); try lia.
    - intros; apply linspace_inc; [lia|lra].
    - intros i' Hi'. now apply Hc.
    - rewrite linspace_0. apply Rmult_le_pos; [apply pos_INR|lra].
    - eexists; split; [|exact E].
      assert (0 <= c k j) by now apply Hc.
      destruct Hor as [->|Hlt]; [lra|].
      assert (0 <= c (S k) j) by now apply Hc.
      assert (0 <= (1 - th) * c k j) by (apply Rmult_le_pos; lra).
      assert (0 <= th * c (S k) j) by (apply Rmult_le_pos; lra). lra. }
  set (s := fun i j => fval (interp (bt_rows cb) (linspace 0 dt_max (bt_rows cb))
                               (fun l => bt_at cb l j) (INR i * dt))).
  assert (Hs : forall i j, good j ->
     0 <= s i j /\
     interp (bt_rows cb) (linspace 0 dt_max (bt_rows cb)) (fun l => bt_at cb l j) (INR i * dt)
     = Fin (s i j)).
  { intros i j Hj. destruct (HS j Hj i) as (r & Hr & E). unfold s. rewrite E. auto. }
  exists s. split; [exact Hs|].
  split; [destruct inst; reflexivity|]. split; [destruct inst; reflexivity|].
  intros j Hj. set (tot := Rsum (arange_len dt_max dt) (fun i => s i j)).
  set (off := (if inst then 0 else 1)%nat). cbv zeta.
  split; [intros ->; reflexivity|].
  intros i Hi.
  assert (Hgoal : (if norm then
             ediv (interp (bt_rows cb) (linspace 0 dt_max (bt_rows cb)) (fun l => bt_at cb l j) (INR i * dt))
               (emul (Fin dt) (esum (arange_len dt_max dt) (fun i' =>
                  interp (bt_rows cb) (linspace 0 dt_max (bt_rows cb)) (fun l => bt_at cb l j) (INR i' * dt))))
           else interp (bt_rows cb) (linspace 0 dt_max (bt_rows cb)) (fun l => bt_at cb l j) (INR i * dt))
         = (if norm then if Reqb tot 0 then NaN else Fin (s i j / (dt * tot)) else Fin (s i j))).
  { destruct norm; [|now apply Hs].
    rewrite (esum_fin _ (fun i' => s i' j)) by (intros; now apply Hs).
    fold tot. rewrite (proj2 (Hs i j Hj)). rewrite emul_fin.
    destruct (Reqb tot 0) eqn:Et.
    - apply Reqb_true in Et. rewrite Et, Rmult_0_r.
      assert (s i j = 0) as ->; [|apply ediv_0_0].
      apply (@Rsum_nonneg_zero (arange_len dt_max dt) (fun i => s i j)); auto.
      intros; now apply Hs.
    - apply Reqb_false in Et. apply ediv_fin. apply Rmult_integral_contrapositive; lra. }
  unfold interpolate_basis.
  destruct inst, norm; subst off; cbn [Nat.add bt_at]; exact Hgoal.
Qed.

Lemma interp_NaN L xp fp x :
  (1 <= L)%nat -> (forall i, (i < L)%nat -> fp i = NaN) -> interp L xp fp x = NaN.
Proof.
  intros HL H. unfold interp. destruct (Rltb x (xp 0%nat)); [apply H; lia|].
  pose proof (interp_idx_le xp x (L - 1)).
  destruct (Nat.eqb_spec (interp_idx xp x (L - 1)) (L - 1)); [apply H; lia|].
  rewrite (H (interp_idx xp x (L - 1))) by lia. apply eadd_NaN_r.
Qed.

(** The interpolated, normalised table: column by column, either all NaN or a
    non-negative column of volume one.  [s] are the interpolated samples. *)
Lemma cosine_columns B dt dt_max inst n_eye a b L bo :
  0 < dt -> 0 < dt_max ->
  CosineBasis B dt dt_max true inst n_eye a b L = Ok bo ->
  let n := arange_len dt_max dt in
  let off := (if inst then 0 else 1)%nat in
  bt_cols (bo_tab bo) = B /\ bt_rows (bo_tab bo) = (off + n)%nat /\ bo_inst bo = inst /\
  (forall j, inst = false -> bt_at (bo_tab bo) 0 j = Fin 0) /\
  forall j, (j < B)%nat ->
  (forall i, (i < n)%nat -> bt_at (bo_tab bo) (off + i)%nat j = NaN) \/
  (exists s : vec, (forall i, 0 <= s i) /\ 0 < Rsum n s /\
     forall i, (i < n)%nat -> bt_at (bo_tab bo) (off + i)%nat j = Fin (s i / (dt * Rsum n s))).
Proof.
  intros Hdt Hdm H n off. unfold CosineBasis in H.
  destruct (create_cosine_basis L B n_eye a b true) as [cb|] eqn:E; [|discriminate].
  cbn in H. injection H as <-. cbn [bo_tab bo_inst].
  destruct (create_inv _ _ _ _ _ _ E) as (H1 & H2 & H3 & H4 & H5 & H6 & H7 & H8).
  set (good := good_col L B n_eye a b).
  set (c := fun i j => raw_entry L n_eye (B - n_eye) a b i j
                       / Rsum L (fun i' => raw_entry L n_eye (B - n_eye) a b i' j) * INR L).
  destruct (@interpolate_inv cb c dt dt_max true inst ltac:(lia) Hdt Hdm good) as (s & G1 & G2 & G3 & G4).
  { intros i j Hi Hj. rewrite H4 in Hi. split; [now apply H7|]. unfold c.
    specialize (H6 j Hj). apply Rmult_le_pos; [|apply pos_INR].
    apply Rmult_le_pos; [apply raw_entry_nonneg|left; now apply Rinv_0_lt_compat]. }
  split; [congruence|]. split; [exact G3|]. split; [reflexivity|].
  split; [intros j ->; reflexivity|].
  intros j Hj.
  assert (Hn : (0 < n)%nat) by now apply arange_len_pos.
  destruct (Classical_Prop.classic (good j)) as [Hg|Hb].
  - destruct (G4 j Hg) as [_ G5]. cbv zeta in G5.
    destruct (Req_dec (Rsum n (fun i => s i j)) 0) as [E0|E0].
    + left. intros i Hi. unfold off. rewrite (G5 i Hi). fold n. apply Reqb_true in E0. now rewrite E0.
    + right. exists (fun i => s i j). split; [intros; now apply G1|].
      assert (0 <= Rsum n (fun i => s i j)) by (apply Rsum_nonneg; intros; now apply G1).
      split; [lra|]. intros i Hi. unfold off. rewrite (G5 i Hi). fold n. apply Reqb_false in E0. now rewrite E0.
  - left. intros i Hi.
    assert (HN : forall x, interp (bt_rows cb) (fun i => linspace 0 dt_max (bt_rows cb) i)
                     (fun l => bt_at cb l j) x = NaN).
    { intros x. apply interp_NaN; [lia|]. intros l Hl. rewrite H4 in Hl. now apply H8. }
    unfold interpolate_basis. destruct inst; subst off; cbn [Nat.add bt_at]; rewrite HN; reflexivity.
Qed.

(** A column stays finite as soon as one sampled lag falls where its raw
    samples are positive. *)
Lemma cosine_finite_column B dt dt_max inst n_eye a b L bo j i l :
  0 < dt -> 0 < dt_max ->
  CosineBasis B dt dt_max true inst n_eye a b L = Ok bo ->
  (j < B)%nat -> (S l < L)%nat -> (i < arange_len dt_max dt)%nat ->
  INR l * (dt_max / INR (L - 1)) <= INR i * dt < INR (S l) * (dt_max / INR (L - 1)) ->
  good_col L B n_eye a b j ->
  0 < raw_entry L n_eye (B - n_eye) a b l j ->
  exists r, bt_at (bo_tab bo) ((if inst then 0 else 1) + i) j = Fin r.
Proof.
  intros Hdt Hdm H Hj Hl Hi Hcell Hg Hraw. unfold CosineBasis in H.
  destruct (create_cosine_basis L B n_eye a b true) as [cb|] eqn:E; [|discriminate].
  cbn in H. injection H as <-. cbn [bo_tab bo_inst].
  destruct (create_inv _ _ _ _ _ _ E) as (H1 & H2 & H3 & H4 & H5 & H6 & H7 & H8).
  set (good := good_col L B n_eye a b).
  set (c := fun i j => raw_entry L n_eye (B - n_eye) a b i j
                       / Rsum L (fun i' => raw_entry L n_eye (B - n_eye) a b i' j) * INR L).
  assert (Hc : forall i j, good j -> 0 <= c i j).
  { intros i' j' Hj'. unfold c.
    specialize (H6 j' Hj'). apply Rmult_le_pos; [|apply pos_INR].
    apply Rmult_le_pos; [apply raw_entry_nonneg|left; now apply Rinv_0_lt_compat]. }
  destruct (@interpolate_inv cb c dt dt_max true inst ltac:(lia) Hdt Hdm good) as (s & G1 & G2 & G3 & G4).
  { intros i' j' Hi' Hj'. rewrite H4 in Hi'. split; [now apply H7|]. now apply Hc. }
  destruct (G4 j Hg) as [_ G5]. cbv zeta in G5. rewrite (G5 i Hi).
  assert (Hpos : 0 < s i j).
  { destruct (G1 i j Hg) as [_ Hint]. rewrite H4 in Hint. unfold interp in Hint.
    assert (Hxp : forall m, linspace 0 dt_max L m = INR m * (dt_max / INR (L - 1))).
    { intros m. unfold linspace. destruct (Nat.eqb_spec L 1); [lia|]. rewrite Rminus_0_r. ring. }
    assert (Hidx : interp_idx (linspace 0 dt_max L) (INR i * dt) (L - 1) = l).
    { apply interp_idx_unique; [intros; apply linspace_inc; [lia|lra]|lia|].
      rewrite !Hxp. exact Hcell. }
    rewrite Hidx in Hint.
    assert (0 <= INR i * dt) by (apply Rmult_le_pos; [apply pos_INR|lra]).
    destruct (Rltb (INR i * dt) (linspace 0 dt_max L 0)) eqn:Elt.
    { apply Rltb_true in Elt. rewrite linspace_0 in Elt. lra. }
    destruct (Nat.eqb_spec l (L - 1)); [lia|].
    rewrite !H7 in Hint by (auto; lia). fold (c l j) (c (S l) j) in Hint.
    assert (Hstep : 0 < linspace 0 dt_max L (S l) - linspace 0 dt_max L l).
    { pose proof (@linspace_inc 0 dt_max L l ltac:(lia) Hdm). lra. }
    rewrite esub_fin, ediv_fin in Hint by lra.
    rewrite emul_fin, eadd_fin in Hint. injection Hint as <-.
    set (d := linspace 0 dt_max L (S l) - linspace 0 dt_max L l) in *.
    set (x := INR i * dt - linspace 0 dt_max L l).
    assert (Hx : 0 <= x < d).
    { unfold x, d. rewrite !Hxp. lra. }
    replace ((c (S l) j - c l j) / d * x + c l j)
      with (c (S l) j * (x / d) + c l j * ((d - x) / d)) by (field; lra).
    assert (0 <= x / d) by (apply Rmult_le_pos; [lra|left; apply Rinv_0_lt_compat; lra]).
    assert (0 < (d - x) / d) by (apply Rdiv_lt_0_compat; lra).
    assert (0 < c l j).
    { unfold c. specialize (H6 j Hg). apply Rmult_lt_0_compat; [|apply lt_0_INR; lia].
      now apply Rdiv_lt_0_compat. }
    assert (0 <= c (S l) j * (x / d)) by (apply Rmult_le_pos; [now apply Hc|auto]).
    assert (0 < c l j * ((d - x) / d)) by (apply Rmult_lt_0_compat; auto). lra. }
  destruct (Reqb (Rsum (arange_len dt_max dt) (fun i => s i j)) 0) eqn:Er.
  - exfalso. apply Reqb_true in Er.
    pose proof (@Rsum_nonneg_zero (arange_len dt_max dt) (fun i => s i j)
      (fun i' _ => proj1 (G1 i' j Hg)) Er i Hi). cbn in *. lra.
  - eexists; reflexivity.
Qed.
