(** * L_Float: rounding errors of sums and quotients. *)
From Verif Require Import Prelude ExtReal Arrays Spec_Float.
From Flocq Require Import Core Relative Plus_error.
From Coq Require Import Permutation Lia.
Set Implicit Arguments.
Open Scope R_scope.

Definition u64 : R := / 2 ^ 53.
Definition eta64 : R := bpow radix2 (-1075).

Global Instance prec53 : Prec_gt_0 53. Proof. unfold Prec_gt_0. lia. Qed.
Lemma u_ro64 : u_ro radix2 53 = u64.
Proof. unfold u_ro, u64. cbn. lra. Qed.
Lemma u64_pos : 0 < u64.
Proof. apply Rinv_0_lt_compat, pow_lt. lra. Qed.
Lemma u64_val : u64 = / 9007199254740992.
Proof. unfold u64. cbn. lra. Qed.
Lemma u64_le_1 : u64 <= 1.
Proof. rewrite u64_val. lra. Qed.
Lemma eta64_pos : 0 < eta64. Proof. apply bpow_gt_0. Qed.

Lemma b64_format x : is64 (b64 x).
Proof. apply generic_format_round; typeclasses eauto. Qed.
Lemma b64_id x : is64 x -> b64 x = x.
Proof. intros H. apply round_generic; [typeclasses eauto|exact H]. Qed.
Lemma b64_le x y : x <= y -> b64 x <= b64 y.
Proof. apply round_le; typeclasses eauto. Qed.
Lemma is64_0 : is64 0. Proof. apply generic_format_0. Qed.
Lemma is64_bpow e : (-1074 <= e)%Z -> is64 (bpow radix2 e).
Proof. intros H. apply generic_format_bpow. unfold FLT_exp. lia. Qed.
Lemma is64_1 : is64 1. Proof. apply (is64_bpow (e := 0)). lia. Qed.
Lemma b64_nonneg x : 0 <= x -> 0 <= b64 x.
Proof. intros H. rewrite <- (b64_id is64_0). now apply b64_le. Qed.
Lemma b64_le_1 x : x <= 1 -> b64 x <= 1.
Proof. intros H. rewrite <- (b64_id is64_1). now apply b64_le. Qed.

Lemma b64_plus x y : is64 x -> is64 y -> exists e, Rabs e <= u64 /\ b64 (x + y) = (x + y) * (1 + e).
Proof.
  intros Hx Hy. destruct (@FLT_plus_error_N_ex radix2 (-1074) 53 _ (fun x => negb (Z.even x)) x y Hx Hy) as (e & He & E).
  exists e. split; [|exact E]. rewrite <- u_ro64. eapply Rle_trans; [exact He|]. apply u_rod1pu_ro_le_u_ro.
Qed.
Lemma b64_err x : exists e d, Rabs e <= u64 /\ Rabs d <= eta64 /\ b64 x = x * (1 + e) + d.
Proof.
  destruct (@relative_error_N_FLT'_ex radix2 (-1074) 53 eq_refl (fun x => negb (Z.even x)) x) as (e & d & He & Hd & _ & E).
  exists e, d. split; [|split; [|exact E]].
  - rewrite <- u_ro64. eapply Rle_trans; [exact He|]. apply u_rod1pu_ro_le_u_ro.
  - unfold eta64. eapply Rle_trans; [exact Hd|]. rewrite (bpow_plus radix2 (-1074) (-1) : bpow radix2 (-1075) = _). change (bpow radix2 (-1)) with (/ 2). lra.
Qed.
(** No underflow: relative error only. *)
Lemma b64_rel x : x = 0 \/ bpow radix2 (-1022) <= Rabs x -> exists e, Rabs e <= u64 /\ b64 x = x * (1 + e).
Proof.
  intros [->|H].
  - exists 0. split; [rewrite Rabs_R0; left; apply u64_pos|]. rewrite (b64_id is64_0). ring.
  - destruct (@relative_error_N_FLT_ex radix2 (-1074) 53 eq_refl (fun x => negb (Z.even x)) x) as (e & He & E); [exact H|].
    exists e. split; [|exact E]. rewrite <- u_ro64. exact He.
Qed.

Lemma fround_fin x : 0 <= x -> b64 x < bpow radix2 1024 -> fround (Fin x) = Fin (b64 x).
Proof.
  intros H0 H. cbn [fround]. rewrite Rabs_pos_eq by now apply b64_nonneg. now rewrite (proj2 (Rltb_true _ _)).
Qed.
Lemma b64_small x : 0 <= x -> x <= bpow radix2 1023 -> b64 x < bpow radix2 1024.
Proof.
  intros H0 H. apply Rle_lt_trans with (bpow radix2 1023); [|apply bpow_lt; lia].
  rewrite <- (b64_id (is64_bpow (e := 1023) ltac:(lia))). now apply b64_le.
Qed.

(** ** Sums *)
Fixpoint rsum (o : order) (v : vec) : R := match o with Entry i => v i | Plus l r => b64 (rsum l v + rsum r v) end.

Lemma pow_1m_le n m : (n <= m)%nat -> (1 - u64) ^ m <= (1 - u64) ^ n.
Proof.
  intros H. pose proof u64_pos. pose proof u64_le_1.
  replace m with (n + (m - n))%nat by lia. rewrite pow_add. apply Rle_trans with ((1 - u64) ^ n * 1); [|lra].
  apply Rmult_le_compat_l; [apply pow_le; lra|]. apply Rle_trans with (1 ^ (m - n)); [apply pow_incr; lra|rewrite pow1; lra].
Qed.
Lemma pow_1p_le n m : (n <= m)%nat -> (1 + u64) ^ n <= (1 + u64) ^ m.
Proof. intros H. apply Rle_pow; auto. pose proof u64_pos. lra. Qed.

Lemma rsum_bounds o v : (forall i, In i (entries o) -> is64 (v i) /\ 0 <= v i) ->
  is64 (rsum o v) /\ 0 <= rsum o v /\ (forall i, In i (entries o) -> v i <= rsum o v) /\
  lsum (map v (entries o)) * (1 - u64) ^ depth o <= rsum o v <= lsum (map v (entries o)) * (1 + u64) ^ depth o.
Proof.
  pose proof u64_pos as Hu. pose proof u64_le_1 as Hu1.
  induction o as [i|l IHl r IHr]; intros H; cbn [entries rsum depth map lsum pow].
  - destruct (H i) as [H1 H2]; [now left|]. split; [exact H1|]. split; [exact H2|]. split; [intros j [->|[]]; lra|lra].
  - destruct IHl as (Fl & Pl & Ll & Bl); [intros; apply H, in_or_app; auto|].
    destruct IHr as (Fr & Pr & Lr & Br); [intros; apply H, in_or_app; auto|].
    split; [apply b64_format|]. split; [apply b64_nonneg; lra|]. split.
    + intros i Hi. apply in_app_or in Hi. destruct Hi as [Hi|Hi].
      * apply Rle_trans with (b64 (rsum l v)); [rewrite b64_id by auto; auto|]. apply b64_le. lra.
      * apply Rle_trans with (b64 (rsum r v)); [rewrite b64_id by auto; auto|]. apply b64_le. lra.
    + destruct (b64_plus Fl Fr) as (e & He & ->). apply Rabs_le_inv in He.
      rewrite map_app, lsum_app.
      assert (Nl : 0 <= lsum (map v (entries l))). { apply lsum_nonneg. intros x Hx. apply in_map_iff in Hx. destruct Hx as (i & <- & Hi). apply H, in_or_app; auto. }
      assert (Nr : 0 <= lsum (map v (entries r))). { apply lsum_nonneg. intros x Hx. apply in_map_iff in Hx. destruct Hx as (i & <- & Hi). apply H, in_or_app; auto. }
      set (a := lsum (map v (entries l))) in *. set (b := lsum (map v (entries r))) in *. set (h := Nat.max (depth l) (depth r)).
      pose proof (@pow_1m_le (depth l) h (Nat.le_max_l _ _)) as M1. pose proof (@pow_1m_le (depth r) h (Nat.le_max_r _ _)) as M2.
      pose proof (@pow_1p_le (depth l) h (Nat.le_max_l _ _)) as P1. pose proof (@pow_1p_le (depth r) h (Nat.le_max_r _ _)) as P2.
      assert (Hm : 0 <= (1 - u64) ^ h) by (apply pow_le; lra). assert (Hp : 0 <= (1 + u64) ^ h) by (apply pow_le; lra).
      split.
      * apply Rle_trans with ((a + b) * (1 - u64) ^ h * (1 - u64)); [right; ring|].
        apply Rmult_le_compat; [|lra| |lra].
        -- apply Rmult_le_pos; lra.
        -- assert (a * (1 - u64) ^ h <= rsum l v) by (eapply Rle_trans; [|apply Bl]; apply Rmult_le_compat_l; auto).
           assert (b * (1 - u64) ^ h <= rsum r v) by (eapply Rle_trans; [|apply Br]; apply Rmult_le_compat_l; auto). lra.
      * apply Rle_trans with ((a + b) * (1 + u64) ^ h * (1 + u64)); [|right; ring].
        apply Rmult_le_compat; [lra|lra| |lra].
        assert (rsum l v <= a * (1 + u64) ^ h) by (eapply Rle_trans; [apply Bl|]; apply Rmult_le_compat_l; auto).
        assert (rsum r v <= b * (1 + u64) ^ h) by (eapply Rle_trans; [apply Br|]; apply Rmult_le_compat_l; auto). lra.
Qed.

Lemma bernoulli_1m n : 1 - INR n * u64 <= (1 - u64) ^ n.
Proof.
  pose proof u64_pos. pose proof u64_le_1. induction n as [|n IH]; [cbn; lra|]. rewrite S_INR. cbn [pow].
  pose proof (pos_INR n).
  apply Rle_trans with ((1 - u64) * (1 - INR n * u64)); [nra|]. apply Rmult_le_compat_l; lra.
Qed.
Definition lo64 : R := 1 - 4000 * u64.
Lemma lo64_bounds : 999 / 1000 <= lo64 < 1.
Proof. unfold lo64. rewrite u64_val. lra. Qed.
Lemma depth_lo h : (h <= 4000)%nat -> lo64 <= (1 - u64) ^ h.
Proof.
  intros H. pose proof u64_pos. eapply Rle_trans; [|apply bernoulli_1m]. unfold lo64. apply le_INR in H.
  replace (INR 4000) with 4000 in H by (rewrite INR_IZR_INZ; reflexivity). nra.
Qed.
Lemma depth_hi h : (h <= 4000)%nat -> (1 + u64) ^ h * lo64 <= 1.
Proof.
  intros H. pose proof u64_pos. pose proof u64_le_1. pose proof lo64_bounds.
  apply Rle_trans with ((1 + u64) ^ h * (1 - u64) ^ h).
  - apply Rmult_le_compat_l; [apply pow_le; lra|now apply depth_lo].
  - rewrite <- Rpow_mult_distr. apply Rle_trans with (1 ^ h); [apply pow_incr; nra|rewrite pow1; lra].
Qed.

Lemma lsum_perm (l l' : list R) : Permutation l l' -> lsum l = lsum l'.
Proof. induction 1; cbn [lsum]; lra. Qed.
Lemma lsum_seq M (v : vec) o : sums_all M o -> lsum (map v (entries o)) = Rsum M v.
Proof. intros H. rewrite (lsum_perm (Permutation_map v H)). apply lsum_map_seq. Qed.

Lemma fsum_fin o (v : vec) (p : nat -> er) : (depth o <= 4000)%nat ->
  (forall i, In i (entries o) -> p i = Fin (v i) /\ is64 (v i) /\ 0 <= v i) -> lsum (map v (entries o)) <= bpow radix2 1022 ->
  fsum o p = Fin (rsum o v).
Proof.
  pose proof lo64_bounds as Hlo.
  induction o as [i|l IHl r IHr]; intros Hd H Hb; cbn [fsum rsum]; [apply H; now left|].
  cbn [depth] in Hd. cbn [entries] in H, Hb. rewrite map_app, lsum_app in Hb.
  assert (Nl : 0 <= lsum (map v (entries l))). { apply lsum_nonneg. intros x Hx. apply in_map_iff in Hx. destruct Hx as (i & <- & Hi). apply H, in_or_app; auto. }
  assert (Nr : 0 <= lsum (map v (entries r))). { apply lsum_nonneg. intros x Hx. apply in_map_iff in Hx. destruct Hx as (i & <- & Hi). apply H, in_or_app; auto. }
  rewrite IHl; [|lia|intros; apply H, in_or_app; auto|lra]. rewrite IHr; [|lia|intros; apply H, in_or_app; auto|lra].
  destruct (@rsum_bounds l v) as (Fl & Pl & _ & Bl); [intros; apply H, in_or_app; auto|].
  destruct (@rsum_bounds r v) as (Fr & Pr & _ & Br); [intros; apply H, in_or_app; auto|].
  unfold fadd. cbn [eadd]. apply fround_fin; [lra|]. apply b64_small; [lra|].
  pose proof (@depth_hi (depth l) ltac:(lia)) as Hl. pose proof (@depth_hi (depth r) ltac:(lia)) as Hr.
  assert (Ul : (1 + u64) ^ depth l <= 2) by nra. assert (Ur : (1 + u64) ^ depth r <= 2) by nra.
  change 1023%Z with (1022 + 1)%Z. rewrite bpow_plus. change (bpow radix2 1) with 2.
  nra.
Qed.

(** Normalising M non-negative doubles: finite, within [0,1], the sum over the first entries hardly above one, and each
    entry hardly different from the exact quotient. *)
Lemma normalised_ok M o (v : vec) (p : nat -> er) :
  sums_all M o -> (depth o <= 4000)%nat -> INR M <= bpow radix2 64 ->
  (forall c, (c < M)%nat -> p c = Fin (v c) /\ is64 (v c) /\ 0 <= v c) -> 0 < Rsum M v <= bpow radix2 1022 ->
  exists w : vec, (forall c, (c < M)%nat -> fdiv (p c) (fsum o p) = Fin (w c) /\ 0 <= w c <= 1 /\
     Rabs (w c - v c / Rsum M v) <= 9 / 10 * / 10 ^ 12 * (v c / Rsum M v) + bpow radix2 (-1075)) /\
   Rsum (M - 1) w <= 1 + 9 / 10 * / 10 ^ 12.
Proof.
  intros Ho Hd HM Hp [Hpos Hbig]. pose proof lo64_bounds as Hlo. pose proof u64_pos as Hu. pose proof u64_val as Hv.
  assert (Hin : forall i, In i (entries o) <-> (i < M)%nat).
  { intros i. split; intros H.
    - apply (Permutation_in _ Ho) in H. apply in_seq in H. lia.
    - apply (Permutation_in _ (Permutation_sym Ho)). apply in_seq. lia. }
  assert (Hp' : forall i, In i (entries o) -> p i = Fin (v i) /\ is64 (v i) /\ 0 <= v i) by (intros i Hi; apply Hp; now apply Hin).
  rewrite (@fsum_fin o v p Hd Hp') by (rewrite (@lsum_seq M v o Ho); exact Hbig).
  destruct (@rsum_bounds o v) as (_ & Ps & Ls & Bs); [intros i Hi; apply (Hp' i Hi)|]. rewrite (@lsum_seq M v o Ho) in Bs.
  set (s := Rsum M v) in *. set (t := rsum o v) in *.
  assert (B1 : s * lo64 <= t) by (eapply Rle_trans; [|apply Bs]; apply Rmult_le_compat_l; [lra|now apply depth_lo]).
  assert (B2 : t * lo64 <= s). { pose proof (depth_hi Hd). apply Rle_trans with (s * ((1 + u64) ^ depth o * lo64)); [|nra]. rewrite <- Rmult_assoc. apply Rmult_le_compat_r; [lra|apply Bs]. }
  assert (Ht : 0 < t) by nra.
  exists (fun c => b64 (v c / t)).
  assert (Hq : forall c, (c < M)%nat -> 0 <= v c / t <= 1).
  { intros c Hc. destruct (Hp c Hc) as (_ & _ & H0). split; [apply Rmult_le_pos; [auto|left; now apply Rinv_0_lt_compat]|].
    apply (Rmult_le_reg_r t); [auto|]. unfold Rdiv. rewrite Rmult_assoc, Rinv_l, Rmult_1_r, Rmult_1_l by lra. apply Ls. now apply Hin. }
  assert (Hfac : forall c, (c < M)%nat -> v c / s * lo64 <= v c / t <= v c / s * / lo64).
  { intros c Hc. destruct (Hp c Hc) as (_ & _ & H0). unfold Rdiv.
    assert (Hi : 0 < / s * / t) by (apply Rmult_lt_0_compat; now apply Rinv_0_lt_compat).
    rewrite !Rmult_assoc. split; apply Rmult_le_compat_l; auto.
    - apply Rle_trans with (t * lo64 * (/ s * / t)); [right; field; lra|]. apply Rle_trans with (s * (/ s * / t)); [apply Rmult_le_compat_r; lra|right; field; lra].
    - assert (Hl : 0 < / lo64) by (apply Rinv_0_lt_compat; lra).
      apply Rle_trans with (s * lo64 * (/ s * / t * / lo64)); [right; field; lra|]. apply Rle_trans with (t * (/ s * / t * / lo64)); [|right; field; lra].
      apply Rmult_le_compat_r; [|lra]. apply Rmult_le_pos; lra. }
  assert (Hloi : / lo64 <= 1 + 8 / 10 * / 10 ^ 12 /\ / lo64 * (1 + u64) <= 1 + 8 / 10 * / 10 ^ 12 /\ 1 - 8 / 10 * / 10 ^ 12 <= lo64 * (1 - u64)).
  { assert (E1 : lo64 = 9007199254736992 / 9007199254740992) by (unfold lo64; rewrite Hv; lra).
    assert (E2 : / lo64 = 9007199254740992 / 9007199254736992) by (rewrite E1; field).
    rewrite E2, E1, Hv. cbn [pow]. repeat split; lra. }
  assert (He : 0 < bpow radix2 (-1075)) by apply bpow_gt_0.
  split.
  - intros c Hc. destruct (Hp c Hc) as (-> & _ & H0). destruct (Hq c Hc) as [Q0 Q1]. destruct (Hfac c Hc) as [F1 F2]. split; [|split].
    + unfold fdiv. assert (E : ediv (Fin (v c)) (Fin t) = Fin (v c / t)).
      { cbn [ediv]. rewrite (proj2 (Reqb_false _ _)) by lra. reflexivity. }
      rewrite E. apply fround_fin; auto. apply b64_small; auto. apply Rle_trans with 1; [lra|]. apply (bpow_le radix2 0 1023). lia.
    + split; [now apply b64_nonneg|now apply b64_le_1].
    + destruct (b64_err (v c / t)) as (e & d & Be & Bd & ->). apply Rabs_le_inv in Be. apply Rabs_le_inv in Bd. fold eta64.
      assert (Hvs : 0 <= v c / s) by (apply Rmult_le_pos; [auto|left; now apply Rinv_0_lt_compat]).
      set (x := v c / s) in *. set (y := v c / t) in *.
      assert (y * (1 + e) <= x * (1 + 8 / 10 * / 10 ^ 12)).
      { apply Rle_trans with (x * / lo64 * (1 + u64)); [apply Rmult_le_compat; lra|]. rewrite Rmult_assoc. apply Rmult_le_compat_l; [auto|apply Hloi]. }
      assert (x * (1 - 8 / 10 * / 10 ^ 12) <= y * (1 + e)).
      { apply Rle_trans with (x * lo64 * (1 - u64)); [rewrite Rmult_assoc; apply Rmult_le_compat_l; [auto|apply Hloi]|]. apply Rmult_le_compat; try lra. apply Rmult_le_pos; lra. }
      apply Rabs_le. split; nra.
  - apply Rle_trans with (Rsum (M - 1) (fun c => v c / s * (/ lo64 * (1 + u64)) + eta64)).
    { apply Rsum_le. intros c Hc. assert (Hc' : (c < M)%nat) by lia. destruct (b64_err (v c / t)) as (e & d & Be & Bd & ->).
      apply Rabs_le_inv in Be. apply Rabs_le_inv in Bd. destruct (Hfac c Hc') as [F1 F2]. destruct (Hq c Hc') as [Q0 Q1].
      apply Rplus_le_compat; [|lra]. rewrite <- Rmult_assoc. apply Rmult_le_compat; lra. }
    rewrite Rsum_plus, Rsum_scal_r, Rsum_const, Rsum_div.
    assert (S1 : Rsum (M - 1) v <= s).
    { unfold s. destruct M as [|M']; [cbn in *; lra|]. cbn [Nat.sub]. rewrite Nat.sub_0_r. cbn [Rsum]. destruct (Hp M') as (_ & _ & H0); [lia|]. lra. }
    assert (S2 : Rsum (M - 1) v / s <= 1) by (apply (Rmult_le_reg_r s); [auto|]; unfold Rdiv; rewrite Rmult_assoc, Rinv_l by lra; lra).
    assert (S3 : INR (M - 1) * eta64 <= / 10 * / 10 ^ 12).
    { apply Rle_trans with (bpow radix2 64 * eta64).
      - apply Rmult_le_compat_r; [left; apply eta64_pos|]. eapply Rle_trans; [|exact HM]. apply le_INR. lia.
      - unfold eta64. rewrite <- bpow_plus. apply Rle_trans with (bpow radix2 (-50)); [apply bpow_le; lia|]. cbn. lra. }
    assert (S4 : 0 < / lo64 * (1 + u64)) by (apply Rmult_lt_0_compat; [apply Rinv_0_lt_compat|]; lra).
    apply Rle_trans with (1 * (/ lo64 * (1 + u64)) + / 10 * / 10 ^ 12); [|lra].
    apply Rplus_le_compat; [|exact S3]. apply Rmult_le_compat_r; lra.
Qed.
