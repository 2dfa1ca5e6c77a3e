(** * Props_FloatMf: C127, the mean-field parent update in double precision. *)
From Verif Require Import Prelude ExtReal Arrays Spec_Parents Spec_Float M_Parents M_FloatParents M_FloatMf M_MeanField L_Discrete L_Parents L_Float Props_Float.
From Flocq Require Import Core.
From Coq Require Import Permutation Lia.
Set Implicit Arguments.
Open Scope R_scope.

(** NumPy's exp: a non-negative double within a few units in the last place of the exponential; results below the smallest
    double (2^-1074) may be off by half of it. *)
Definition accurate_exp (expd : R -> R) : Prop :=
  forall x, x <= 190 -> is64 (expd x) /\ 0 <= expd x /\ Rabs (expd x - exp x) <= exp x * bpow radix2 (-50) + bpow radix2 (-1075).
(** Filtered counts are doubles of ordinary size, or zero; at most 2^64 possible causes. *)
Definition ordinary_data (p : parents) : Prop :=
  (forall t k b, (t < pa_T p)%nat -> (k < pa_K p)%nat -> (b < pa_B p)%nat -> double_in (pa_F p t k b) /\ not_tiny (pa_F p t k b)) /\
  INR (1 + pa_K p * pa_B p) <= bpow radix2 64.
(** No expected log parameter is large; the one of the background rate is not below -700. *)
Definition bounded_logs (p : parents) (L : logs) : Prop :=
  (forall k, (k < pa_K p)%nat -> -700 <= l_lam L k <= 190) /\
  (forall k1 k2, (k1 < pa_K p)%nat -> (k2 < pa_K p)%nat -> l_W L k1 k2 <= 190) /\
  (forall k1 k2 b, (k1 < pa_K p)%nat -> (k2 < pa_K p)%nat -> (b < pa_B p)%nat -> l_g L k1 k2 b <= 190).
(** ... and none is below -190. *)
Definition ordinary_logs (p : parents) (L : logs) : Prop :=
  (forall k, (k < pa_K p)%nat -> -190 <= l_lam L k) /\
  (forall k1 k2, (k1 < pa_K p)%nat -> (k2 < pa_K p)%nat -> -190 <= l_W L k1 k2) /\
  (forall k1 k2 b, (k1 < pa_K p)%nat -> (k2 < pa_K p)%nat -> (b < pa_B p)%nat -> -190 <= l_g L k1 k2 b).

(** The exact share of the events in the r-th non-empty bin of process k attributed to cause c: proportional to
    exp E[ln lambda0_k] for the background and to F exp(E[ln W] + E[ln g]) for the b-th basis response of process k1. *)
Definition affinity (p : parents) (L : logs) (k r : nat) : vec :=
  fun c => match c with
           | O => exp (l_lam L k)
           | S i => let k1 := (i / pa_B p)%nat in let b := (i mod pa_B p)%nat in
                    pa_F p (pa_row p k r) k1 b * exp (l_W L k1 k + l_g L k1 k b)
           end.
Definition share (p : parents) (L : logs) (k r c : nat) : R :=
  IZR (pa_S p (pa_row p k r) k) * (affinity p L k r c / Rsum (1 + pa_K p * pa_B p) (affinity p L k r)).

(* ---- the exponential ---- *)
Lemma exp_INR_pow x n : exp (INR n * x) = exp x ^ n.
Proof. induction n as [|n IH]; [cbn [INR pow]; rewrite Rmult_0_l; apply exp_0|]. rewrite S_INR, Rmult_plus_distr_r, Rmult_1_l, exp_plus, IH. cbn [pow]. ring. Qed.
Lemma exp_m2 : / 8 <= exp (-2).
Proof.
  replace (-2) with (INR 32 * (- / 16)) by (cbn [INR]; lra). rewrite exp_INR_pow.
  assert (H : 15 / 16 <= exp (- / 16)) by (pose proof (exp_ineq1_le (- / 16)); lra).
  apply Rle_trans with ((15 / 16) ^ 32); [cbn [pow]; lra|apply pow_incr; lra].
Qed.
Lemma exp_m3 : exp (-3) <= / 16.
Proof.
  replace (-3) with (Ropp 3) by lra. rewrite exp_Ropp. apply Rinv_le; [lra|].
  replace 3 with (INR 24 * / 8) by (cbn [INR]; lra). rewrite exp_INR_pow.
  assert (H : 9 / 8 <= exp (/ 8)) by (pose proof (exp_ineq1_le (/ 8)); lra).
  apply Rle_trans with ((9 / 8) ^ 24); [cbn [pow]; lra|apply pow_incr; lra].
Qed.
Lemma bpow_pow e n : bpow radix2 e ^ n = bpow radix2 (Z.of_nat n * e).
Proof. induction n as [|n IH]; [reflexivity|]. cbn [pow]. rewrite IH, <- bpow_plus. f_equal. lia. Qed.
(** exp(-2n) >= 2^(-3n) and exp(-3n) <= 2^(-4n) *)
Lemma exp_lower n x : - (2 * INR n) <= x -> bpow radix2 (- (3 * Z.of_nat n)) <= exp x.
Proof.
  intros H. apply Rle_trans with (exp (INR n * -2)).
  - rewrite exp_INR_pow. replace (- (3 * Z.of_nat n))%Z with (Z.of_nat n * -3)%Z by lia. rewrite <- bpow_pow.
    apply pow_incr. split; [apply bpow_ge_0|]. apply exp_m2.
  - destruct (Rle_lt_or_eq_dec _ _ H) as [H'|H']; [left; apply exp_increasing; lra|right; f_equal; lra].
Qed.
Lemma exp_upper n x : x <= 2 * INR n -> exp x <= bpow radix2 (3 * Z.of_nat n).
Proof.
  intros H. rewrite <- (Ropp_involutive x), exp_Ropp. rewrite <- (Z.opp_involutive (3 * Z.of_nat n)), bpow_opp.
  apply Rinv_le; [apply bpow_gt_0|]. apply exp_lower. lra.
Qed.
Lemma exp_vanishes n x : x <= - (3 * INR n) -> exp x <= bpow radix2 (- (4 * Z.of_nat n)).
Proof.
  intros H. apply Rle_trans with (exp (INR n * -3)).
  - destruct (Rle_lt_or_eq_dec _ _ H) as [H'|H']; [left; apply exp_increasing; lra|right; f_equal; lra].
  - rewrite exp_INR_pow. replace (- (4 * Z.of_nat n))%Z with (Z.of_nat n * -4)%Z by lia. rewrite <- bpow_pow.
    apply pow_incr. split; [left; apply exp_pos|]. apply exp_m3.
Qed.
Lemma is64_tiny x : is64 x -> 0 <= x < bpow radix2 (-1074) -> x = 0.
Proof.
  intros Hf [H0 H1]. destruct (Req_dec x 0) as [E|N]; [exact E|exfalso]. unfold is64 in Hf.
  assert (Hx : 0 < x) by lra.
  pose proof (@generic_format_ge_bpow radix2 (FLT_exp (-1074) 53) (-1074) ltac:(intros e; unfold FLT_exp; lia) x Hx Hf). lra.
Qed.

Lemma expd_double expd x : accurate_exp expd -> x <= 190 -> double_in (expd x).
Proof.
  intros HA Hx. destruct (HA x Hx) as (F & P & E). split; [exact F|]. split; [exact P|].
  assert (U : exp x <= bpow radix2 285) by (apply (@exp_upper 95); cbn [INR]; lra).
  assert (B50 : bpow radix2 (-50) <= 1) by (change 1 with (bpow radix2 0); apply bpow_le; lia).
  assert (B75 : bpow radix2 (-1075) <= bpow radix2 285) by (apply bpow_le; lia).
  assert (S : bpow radix2 300 = bpow radix2 285 * 32768) by (rewrite (bpow_plus radix2 285 15 : bpow radix2 300 = _); reflexivity).
  apply Rabs_le_inv in E. pose proof (exp_pos x). pose proof (bpow_gt_0 radix2 285).
  assert (exp x * bpow radix2 (-50) <= bpow radix2 285 * 1) by (apply Rmult_le_compat; try lra; apply bpow_ge_0). lra.
Qed.
Lemma expd_pos expd x : accurate_exp expd -> -700 <= x <= 190 -> 0 < expd x.
Proof.
  intros HA [Hx Hx']. destruct (HA x Hx') as (_ & _ & E). apply Rabs_le_inv in E.
  assert (Lo : bpow radix2 (-1050) <= exp x) by (apply (@exp_lower 350); rewrite INR_IZR_INZ; cbn [Z.of_nat]; simpl IZR; lra).
  assert (B50 : bpow radix2 (-50) <= / 2) by (change (/ 2) with (bpow radix2 (-1)); apply bpow_le; lia).
  assert (S : bpow radix2 (-1075) <= / 4 * bpow radix2 (-1050)).
  { change (/ 4) with (bpow radix2 (-2)). rewrite <- bpow_plus. apply bpow_le. lia. }
  pose proof (bpow_gt_0 radix2 (-1050)).
  assert (exp x * bpow radix2 (-50) <= exp x * / 2) by (apply Rmult_le_compat_l; lra). lra.
Qed.
Lemma expd_close expd x : accurate_exp expd -> -190 <= x <= 190 ->
  exp x * (1 - / 10 ^ 14) <= expd x <= exp x * (1 + / 10 ^ 14) /\ not_tiny (expd x).
Proof.
  intros HA [Hx Hx']. destruct (HA x Hx') as (_ & _ & E). apply Rabs_le_inv in E.
  assert (Lo : bpow radix2 (-285) <= exp x) by (apply (@exp_lower 95); cbn [INR]; lra).
  assert (V : bpow radix2 (-50) = / 1125899906842624) by reflexivity.
  assert (S : bpow radix2 (-1075) <= bpow radix2 (-50) * exp x).
  { apply Rle_trans with (bpow radix2 (-50) * bpow radix2 (-285)); [rewrite <- bpow_plus; apply bpow_le; lia|].
    apply Rmult_le_compat_l; [apply bpow_ge_0|exact Lo]. }
  rewrite V in S, E. pose proof (bpow_gt_0 radix2 (-285)). cbn [pow].
  split; [split; lra|]. right.
  assert (S2 : bpow radix2 (-300) <= / 2 * bpow radix2 (-285)) by (change (/ 2) with (bpow radix2 (-1)); rewrite <- bpow_plus; apply bpow_le; lia). lra.
Qed.
Lemma expd_zero expd x : accurate_exp expd -> x <= -1000 -> expd x = 0.
Proof.
  intros HA Hx. destruct (HA x ltac:(lra)) as (F & P & E). apply is64_tiny; auto. split; auto. apply Rabs_le_inv in E.
  assert (U : exp x <= bpow radix2 (-1332)) by (apply (@exp_vanishes 333); rewrite INR_IZR_INZ; cbn [Z.of_nat]; simpl IZR; lra).
  assert (B50 : bpow radix2 (-50) <= 1) by (change 1 with (bpow radix2 0); apply bpow_le; lia).
  assert (S : bpow radix2 (-1332) <= / 8 * bpow radix2 (-1074)) by (change (/ 8) with (bpow radix2 (-3)); rewrite <- bpow_plus; apply bpow_le; lia).
  assert (S2 : bpow radix2 (-1075) = / 2 * bpow radix2 (-1074)) by (change (/ 2) with (bpow radix2 (-1)); rewrite <- bpow_plus; reflexivity).
  pose proof (bpow_gt_0 radix2 (-1074)). pose proof (exp_pos x).
  assert (exp x * bpow radix2 (-50) <= exp x * 1) by (apply Rmult_le_compat_l; lra). lra.
Qed.

(* ---- adding up: the sum of the columns first, then the background ---- *)
Fixpoint shift (o : order) : order := match o with Entry i => Entry (S i) | Plus l r => Plus (shift l) (shift r) end.
Lemma entries_shift o : entries (shift o) = map S (entries o).
Proof. induction o as [i|l IHl r IHr]; cbn [shift entries map]; [reflexivity|]. now rewrite map_app, IHl, IHr. Qed.
Lemma depth_shift o : depth (shift o) = depth o.
Proof. induction o as [i|l IHl r IHr]; cbn [shift depth]; congruence. Qed.
Lemma fsum_shift o v : fsum (shift o) v = fsum o (fun i => v (S i)).
Proof. induction o as [i|l IHl r IHr]; cbn [shift fsum]; congruence. Qed.
Lemma shift_order M o : sums_all M o -> (depth o < 4000)%nat -> numpy_order (1 + M) (Plus (Entry 0) (shift o)).
Proof.
  intros H D. split; [|cbn [depth]; rewrite depth_shift; lia]. unfold sums_all. cbn [entries app Nat.add seq]. rewrite entries_shift.
  apply perm_skip. rewrite <- seq_shift. now apply Permutation_map.
Qed.

(** Relative errors of the summands and of their normalised values. *)
Lemma ratio_close M (x y : vec) c d : (c < M)%nat -> 0 <= d <= / 10 ^ 3 ->
  (forall c', (c' < M)%nat -> 0 <= x c') -> (forall c', (c' < M)%nat -> x c' * (1 - d) <= y c' <= x c' * (1 + d)) -> 0 < Rsum M x ->
  Rabs (y c / Rsum M y - x c / Rsum M x) <= 3 * d * (x c / Rsum M x).
Proof.
  intros Hc Hd Hx Hy HS. set (X := Rsum M x) in *.
  assert (S1 : X * (1 - d) <= Rsum M y) by (unfold X; rewrite <- Rsum_scal_r; apply Rsum_le; intros c' Hc'; now apply Hy).
  assert (S2 : Rsum M y <= X * (1 + d)) by (unfold X; rewrite <- Rsum_scal_r; apply Rsum_le; intros c' Hc'; now apply Hy).
  destruct (Hy c Hc) as [Y1 Y2]. specialize (Hx c Hc). set (Y := Rsum M y) in *. set (a := x c) in *. set (e := y c) in *.
  assert (Hd3 : d <= / 1000) by (destruct Hd as [_ H]; cbn [pow] in H; lra). destruct Hd as [Hd0 _].
  assert (HY : 0 < Y) by nra.
  replace (3 * d * (a / X)) with (a * (3 * d) * / X) by (unfold Rdiv; ring).
  replace (e / Y - a / X) with ((e * X - a * Y) * / (Y * X)) by (field; lra).
  assert (Hi : 0 < / (Y * X)) by (apply Rinv_0_lt_compat, Rmult_lt_0_compat; lra).
  rewrite Rabs_mult, (Rabs_pos_eq (/ _)) by lra. apply (Rmult_le_reg_r (Y * X)); [apply Rmult_lt_0_compat; lra|].
  rewrite Rmult_assoc, Rinv_l by (apply Rgt_not_eq; apply Rmult_lt_0_compat; lra). rewrite Rmult_1_r.
  replace (a * (3 * d) * / X * (Y * X)) with (a * (3 * d) * Y) by (field; lra).
  assert (P : 0 <= a * X) by (apply Rmult_le_pos; lra).
  assert (E1 : a * X * (1 - d) <= e * X <= a * X * (1 + d)) by nra.
  assert (E2 : a * X * (1 - d) <= a * Y <= a * X * (1 + d)) by nra.
  assert (E3 : a * (X * (1 - d)) * (3 * d) <= a * Y * (3 * d)) by (apply Rmult_le_compat_r; [lra|]; apply Rmult_le_compat_l; lra).
  assert (E4 : a * X * (2 * d) <= a * (X * (1 - d)) * (3 * d)).
  { replace (a * (X * (1 - d)) * (3 * d)) with (a * X * (3 * d * (1 - d))) by ring. apply Rmult_le_compat_l; nra. }
  apply Rabs_le. split; nra.
Qed.

Lemma affinity_close expd p L k r : accurate_exp expd -> ordinary_data p -> bounded_logs p L -> ordinary_logs p L ->
  (k < pa_K p)%nat -> (r < pa_Tk p k)%nat -> forall c, (c < 1 + pa_K p * pa_B p)%nat -> 0 <= affinity p L k r c /\
  affinity p L k r c * (1 - 3 * / 10 ^ 14) <= pvec_python p (f_exps expd L) k r c <= affinity p L k r c * (1 + 3 * / 10 ^ 14).
Proof.
  intros HA [HF _] (B1 & B2 & B3) (O1 & O2 & O3) Hk Hr c Hc. destruct (@pa_row_in p k r Hr) as [Ht _]. destruct c as [|i].
  - cbn [affinity pvec_python f_exps q_lam]. specialize (B1 k Hk). specialize (O1 k Hk).
    destruct (@expd_close expd (l_lam L k) HA ltac:(lra)) as [C _]. pose proof (exp_pos (l_lam L k)). cbn [pow] in *. split; nra.
  - destruct (@idx_bound (pa_K p) (pa_B p) i) as [H1 H2]; [lia|]. cbn [affinity pvec_python f_exps q_W q_g]. cbv zeta. unfold pa_Fs.
    set (k1 := (i / pa_B p)%nat) in *. set (b := (i mod pa_B p)%nat) in *.
    destruct (HF (pa_row p k r) k1 b Ht H1 H2) as [(_ & F0 & _) _]. set (f := pa_F p (pa_row p k r) k1 b) in *.
    specialize (B2 k1 k H1 Hk). specialize (O2 k1 k H1 Hk). specialize (B3 k1 k b H1 Hk H2). specialize (O3 k1 k b H1 Hk H2).
    destruct (@expd_close expd (l_W L k1 k) HA ltac:(lra)) as [C1 _]. destruct (@expd_close expd (l_g L k1 k b) HA ltac:(lra)) as [C2 _].
    rewrite exp_plus. pose proof (exp_pos (l_W L k1 k)) as P1. pose proof (exp_pos (l_g L k1 k b)) as P2.
    set (w := exp (l_W L k1 k)) in *. set (g := exp (l_g L k1 k b)) in *. set (w' := expd (l_W L k1 k)) in *. set (g' := expd (l_g L k1 k b)) in *.
    assert (P : 0 <= f * (w * g)) by (apply Rmult_le_pos; [auto|left; now apply Rmult_lt_0_compat]). split; [exact P|].
    set (d := / 10 ^ 14) in *. assert (Hd : 0 < d <= / 1000) by (unfold d; cbn [pow]; lra).
    clear HA HF B1 O1. destruct C1 as [C1 C1']. destruct C2 as [C2 C2'].
    assert (N1 : 0 <= w * (1 - d)) by (apply Rmult_le_pos; lra). assert (N2 : 0 <= g * (1 - d)) by (apply Rmult_le_pos; lra).
    assert (Q1 : w * (1 - d) * (g * (1 - d)) <= w' * g') by (apply Rmult_le_compat; lra).
    assert (Q2 : w' * g' <= w * (1 + d) * (g * (1 + d))) by (apply Rmult_le_compat; lra).
    assert (Q1' : w * g * (1 - 3 * d) <= w' * g') by (assert (0 < w * g) by (now apply Rmult_lt_0_compat); nra).
    assert (Q2' : w' * g' <= w * g * (1 + 3 * d)) by (assert (0 < w * g) by (now apply Rmult_lt_0_compat); nra).
    replace (f * w' * g') with (f * (w' * g')) by ring. rewrite !(Rmult_assoc f). split; apply Rmult_le_compat_l; auto.
Qed.

Lemma is64_count z : (0 <= z < 2 ^ 32)%Z -> is64 (IZR z).
Proof.
  intros Hz. unfold is64. apply generic_format_FLT. exists (Float radix2 z 0); [unfold F2R; cbn; ring| |cbn; lia].
  cbn [Fnum]. rewrite Z.abs_eq by apply Hz. apply Z.lt_trans with (2 ^ 32)%Z; [apply Hz|reflexivity].
Qed.

(** The update succeeds; every expected count is a finite number between 0 and the count of its bin, and (unless some expected
    log parameter is extremely small) within a relative error of 2*10^-12 of the exact share, the row adding up to the count
    of its bin with the same accuracy. *)
Theorem C127_update_accurate_partial : forall (o : nat -> nat -> order) expd p L,
  accurate_exp expd -> fits p -> ordinary_data p -> bounded_logs p L ->
  (forall k r, (k < pa_K p)%nat -> (r < pa_Tk p k)%nat -> sums_all (pa_K p * pa_B p) (o k r) /\ (depth (o k r) < 4000)%nat) ->
  exists EZ (w : nat -> nat -> nat -> R), f_mf_update o expd p L = Ok EZ /\
    forall k r, (k < pa_K p)%nat -> (r < pa_Tk p k)%nat ->
      (forall c, (c < 1 + pa_K p * pa_B p)%nat -> EZ k r c = Fin (w k r c) /\ 0 <= w k r c <= IZR (pa_S p (pa_row p k r) k) /\
        (ordinary_logs p L -> Rabs (w k r c - share p L k r c) <= 2 * / 10 ^ 12 * share p L k r c + bpow radix2 (-1000))) /\
      (ordinary_logs p L ->
        Rabs (Rsum (1 + pa_K p * pa_B p) (w k r) - IZR (pa_S p (pa_row p k r) k)) <= 2 * / 10 ^ 12 * IZR (pa_S p (pa_row p k r) k) + bpow radix2 (-900)).
Proof.
  intros o expd p L HA Hf HF HB Ho. set (M := (1 + pa_K p * pa_B p)%nat). set (q := f_exps expd L).
  assert (HI : double_inputs p q).
  { destruct HB as (B1 & B2 & B3). destruct HF as [F1 F2]. unfold double_inputs, q. cbn [f_exps q_lam q_W q_g].
    split; [intros k Hk; specialize (B1 k Hk); split; [apply expd_double; [auto|lra]|now apply expd_pos]|].
    split; [intros k1 k2 H1 H2; apply expd_double; auto|]. split; [intros k1 k2 b H1 H2 H3; apply expd_double; auto|].
    split; [intros t k b H1 H2 H3; now apply F1|exact F2]. }
  assert (HO : ordinary_logs p L -> ordinary_inputs p q).
  { intros (O1 & O2 & O3). destruct HB as (B1 & B2 & B3). destruct HF as [F1 F2]. unfold ordinary_inputs, q. cbn [f_exps q_lam q_W q_g].
    split; [intros; eapply expd_close; eauto|]. split; [intros; eapply expd_close; eauto|]. intros; now apply F1. }
  assert (R : forall k r, (k < pa_K p)%nat -> (r < pa_Tk p k)%nat ->
    exists w : vec, forall c, (c < M)%nat -> f_mf_row (o k r) p q k r c = Fin (w c) /\ 0 <= w c <= IZR (pa_S p (pa_row p k r) k) /\
       (ordinary_logs p L -> Rabs (w c - share p L k r c) <= 2 * / 10 ^ 12 * share p L k r c + bpow radix2 (-1000))).
  { intros k r Hk Hr. destruct (Ho k r Hk Hr) as [Ho1 Ho2]. pose proof (@shift_order (pa_K p * pa_B p) (o k r) Ho1 Ho2) as Hn.
    destruct (@C118_probabilities_accurate false _ p q k r HI Hk Hr Hn) as (w & Hw & _). fold M in Hw.
    destruct (@fits_Ss p k r Hf Hk Hr) as [Es Hs]. destruct (@pa_row_in p k r Hr) as [Ht _]. pose proof (Hf _ k Ht Hk) as Hn32. rewrite Es in Hs.
    set (n := pa_S p (pa_row p k r) k) in *. pose proof (is64_count Hn32) as In.
    assert (Hn0 : 0 < IZR n) by now apply IZR_lt. assert (Hn1 : IZR n <= bpow radix2 32) by (change (bpow radix2 32) with (IZR (2 ^ 32)); apply IZR_le; lia).
    exists (fun c => b64 (w c * IZR n)). intros c Hc. destruct (Hw c Hc) as (E & [W0 W1] & A).
    assert (P : 0 <= w c * IZR n <= IZR n) by (split; [apply Rmult_le_pos; lra|nra]).
    assert (Bn : b64 (w c * IZR n) <= IZR n) by (rewrite <- (b64_id In); apply b64_le; rewrite (b64_id In); lra).
    split; [|split; [split; [apply b64_nonneg; lra|exact Bn]|]].
    - unfold f_mf_row, f_mf_norm. rewrite Es. fold n.
      change (fadd (f_pvec_python p q k r 0%nat) (fsum (o k r) (fun i => f_pvec_python p q k r (S i))))
        with (fadd (f_pvec_python p q k r 0%nat) (fsum (o k r) (fun i => (f_pvec_python p q k r) (S i)))).
      rewrite <- (fsum_shift (o k r) (f_pvec_python p q k r)).
      change (fdiv (f_pvec_python p q k r c) (fadd (f_pvec_python p q k r 0%nat) (fsum (shift (o k r)) (f_pvec_python p q k r))))
        with (f_probs false (Plus (Entry 0) (shift (o k r))) p q k r c).
      rewrite E. unfold fmul. cbn [emul]. apply fround_fin; [lra|]. apply Rle_lt_trans with (bpow radix2 32); [lra|apply bpow_lt; lia].
    - intros OL. specialize (A (HO OL)). unfold share. fold n. fold M. cbn [request_python snd] in A. fold M in A. unfold normalise in A.
      assert (Hcl : forall c', (c' < M)%nat -> 0 <= affinity p L k r c' /\
         affinity p L k r c' * (1 - 3 * / 10 ^ 14) <= pvec_python p q k r c' <= affinity p L k r c' * (1 + 3 * / 10 ^ 14)).
      { intros c' Hc'. now apply affinity_close. }
      assert (HSx : 0 < Rsum M (affinity p L k r)).
      { unfold M. cbn [Nat.add]. rewrite Rsum_S_l. apply Rplus_lt_le_0_compat; [apply exp_pos|]. apply Rsum_nonneg. intros i Hi.
        destruct (Hcl (S i)) as [H _]; [unfold M; lia|exact H]. }
      assert (Rc := @ratio_close M (affinity p L k r) (pvec_python p q k r) c (3 * / 10 ^ 14) Hc ltac:(cbn [pow]; lra)
        ltac:(intros; now apply Hcl) ltac:(intros; now apply Hcl) HSx).
      set (x := affinity p L k r c / Rsum M (affinity p L k r)) in *. set (y := pvec_python p q k r c / Rsum M (pvec_python p q k r)) in *.
      assert (Hx : 0 <= x) by (apply Rmult_le_pos; [now apply Hcl|left; now apply Rinv_0_lt_compat]).
      destruct (b64_err (w c * IZR n)) as (e & d & E1 & E2 & ->). unfold eta64 in E2.
      apply Rabs_le_inv in E1. apply Rabs_le_inv in E2. apply Rabs_le_inv in A. apply Rabs_le_inv in Rc.
      assert (V : u64 <= / 10 ^ 15) by (rewrite u64_val; cbn [pow]; lra). pose proof u64_pos as Hu.
      set (t := bpow radix2 (-1075)) in *. assert (Ht0 : 0 < t) by apply bpow_gt_0.
      assert (T1 : t * IZR n <= / 8 * bpow radix2 (-1000)).
      { apply Rle_trans with (t * bpow radix2 32); [apply Rmult_le_compat_l; lra|]. unfold t. change (/ 8) with (bpow radix2 (-3)). rewrite <- !bpow_plus. apply bpow_le. lia. }
      assert (T2 : t <= / 8 * bpow radix2 (-1000)) by (unfold t; change (/ 8) with (bpow radix2 (-3)); rewrite <- !bpow_plus; apply bpow_le; lia).
      assert (T3 : Rabs d <= t) by (apply Rabs_le; lra). apply Rabs_le_inv in T3.
      set (s := bpow radix2 (-1000)) in *. cbn [pow] in *.
      assert (Wx : x * (1 - 12 / 10 * / 1000000000000) - t <= w c <= x * (1 + 12 / 10 * / 1000000000000) + t) by (split; lra).
      set (N := IZR n) in *.
      assert (X1 : (x * (1 - 12 / 10 * / 1000000000000) - t) * N <= w c * N) by (apply Rmult_le_compat_r; lra).
      assert (X2 : w c * N <= (x * (1 + 12 / 10 * / 1000000000000) + t) * N) by (apply Rmult_le_compat_r; lra).
      assert (X3 : - (w c * N * / 1000000000000000) <= w c * N * e <= w c * N * / 1000000000000000) by (split; nra).
      assert (Xn : 0 <= N * x) by (apply Rmult_le_pos; lra).
      apply Rabs_le. split; lra. }
  exists (fun k r => f_mf_row (o k r) p q k r), (fun k r c => fval (f_mf_row (o k r) p q k r c)).
  assert (W' : forall k r, (k < pa_K p)%nat -> (r < pa_Tk p k)%nat -> forall c, (c < M)%nat ->
    f_mf_row (o k r) p q k r c = Fin (fval (f_mf_row (o k r) p q k r c)) /\ 0 <= fval (f_mf_row (o k r) p q k r c) <= IZR (pa_S p (pa_row p k r) k) /\
    (ordinary_logs p L -> Rabs (fval (f_mf_row (o k r) p q k r c) - share p L k r c) <= 2 * / 10 ^ 12 * share p L k r c + bpow radix2 (-1000))).
  { intros k r Hk Hr c Hc. destruct (R k r Hk Hr) as (w & Hw). destruct (Hw c Hc) as (E & B & A). rewrite E. cbn [fval]. auto. }
  split.
  - unfold f_mf_update. fold q. fold M.
    replace (all_rows p _) with true; [reflexivity|]. symmetry. apply all_rows_true. intros k r Hk Hr. apply forall_lt_true. intros c Hc.
    destruct (W' k r Hk Hr c Hc) as [E _]. rewrite E. reflexivity.
  - intros k r Hk Hr. split; [exact (W' k r Hk Hr)|]. intros OL. fold M. set (n := IZR (pa_S p (pa_row p k r) k)).
    assert (Hn : 0 <= n).
    { destruct (@pa_row_in p k r Hr) as [Ht _]. destruct (Hf _ k Ht Hk). now apply IZR_le. }
    assert (Pa : forall c', (c' < M)%nat -> 0 <= affinity p L k r c') by (intros c' Hc'; now apply (@affinity_close expd)).
    assert (HSx : 0 < Rsum M (affinity p L k r)).
    { unfold M. cbn [Nat.add]. rewrite Rsum_S_l. apply Rplus_lt_le_0_compat; [apply exp_pos|]. apply Rsum_nonneg. intros i Hi. apply (Pa (S i)). unfold M; lia. }
    assert (Sh : Rsum M (share p L k r) = n).
    { unfold share. fold n. fold M. rewrite Rsum_scal. unfold Rdiv. rewrite Rsum_scal_r, Rinv_r by lra. ring. }
    assert (B : Rsum M (fun c => Rabs (fval (f_mf_row (o k r) p q k r c) - share p L k r c)) <= 2 * / 10 ^ 12 * n + bpow radix2 (-900)).
    { apply Rle_trans with (Rsum M (fun c => 2 * / 10 ^ 12 * share p L k r c + bpow radix2 (-1000))).
      - apply Rsum_le. intros c Hc. now apply (W' k r Hk Hr c Hc).
      - rewrite Rsum_plus, Rsum_scal, Sh, Rsum_const. apply Rplus_le_compat_l.
        apply Rle_trans with (bpow radix2 64 * bpow radix2 (-1000)); [apply Rmult_le_compat_r; [apply bpow_ge_0|apply HF]|].
        rewrite <- bpow_plus. apply bpow_le. lia. }
    rewrite <- Sh at 1. rewrite <- Rsum_minus. eapply Rle_trans; [|exact B].
    clear. induction M as [|m IH]; cbn [Rsum]; [rewrite Rabs_R0; lra|]. eapply Rle_trans; [apply Rabs_triang|]. lra.
Qed.
Print Assumptions C127_update_accurate_partial.

(** The filtered counts of a bin before which nothing happened are zero. *)
Definition causal_filter (p : parents) : Prop :=
  forall t k b, (t < pa_T p)%nat -> (forall t' k', (t' < t)%nat -> (k' < pa_K p)%nat -> pa_S p t' k' = 0%Z) ->
  (k < pa_K p)%nat -> (b < pa_B p)%nat -> pa_F p t k b = 0.

Lemma fsum_zero o (v : nat -> er) : (forall i, In i (entries o) -> v i = Fin 0) -> fsum o v = Fin 0.
Proof.
  induction o as [i|l IHl r IHr]; intros H; cbn [fsum]; [apply H; now left|]. cbn [entries] in H.
  rewrite IHl, IHr by (intros i Hi; apply H; apply in_or_app; auto). unfold fadd. cbn [eadd]. rewrite Rplus_0_r.
  rewrite fround_fin; rewrite ?(b64_id is64_0); [reflexivity|lra|apply bpow_gt_0].
Qed.

(** A gamma prior with a shape of about 0.001 or less on the background rates ("vague", E[ln lambda0] below -1000) and any
    data at all: the very first mean-field update fails.  exp(E[ln lambda0]) is zero in double precision, so the first
    event has no possible cause, and its row is 0/0. *)
Theorem C127_vague_prior_refuted : forall (psi : R -> R) alpha beta (o : nat -> nat -> order) expd p L t k,
  accurate_exp expd -> fits p -> ordinary_data p -> causal_filter p ->
  (forall k r, (k < pa_K p)%nat -> (r < pa_Tk p k)%nat -> sums_all (pa_K p * pa_B p) (o k r)) ->
  (forall k1 k2, (k1 < pa_K p)%nat -> (k2 < pa_K p)%nat -> l_W L k1 k2 <= 190) ->
  (forall k1 k2 b, (k1 < pa_K p)%nat -> (k2 < pa_K p)%nat -> (b < pa_B p)%nat -> l_g L k1 k2 b <= 190) ->
  psi (alpha * 1) - ln (beta * 1) <= -1000 ->
  (forall k, (k < pa_K p)%nat -> l_lam L k = expected_log_lambda0 psi (mfbias_init alpha beta) k) ->
  (t < pa_T p)%nat -> (k < pa_K p)%nat -> (0 < pa_S p t k)%Z ->
  f_mf_update o expd p L = Raise AssertionError.
Proof.
  intros psi alpha beta o expd p L t k HA Hf HF HC Ho BW Bg Hpsi HL Ht Hk Hs.
  (* the first bin with an event *)
  assert (D : exists t0 k0, (t0 < pa_T p)%nat /\ (k0 < pa_K p)%nat /\ pa_S p t0 k0 <> 0%Z /\
            forall t' k', (t' < t0)%nat -> (k' < pa_K p)%nat -> pa_S p t' k' = 0%Z).
  { assert (G : forall n, (exists t0 k0, (t0 < n)%nat /\ (k0 < pa_K p)%nat /\ pa_S p t0 k0 <> 0%Z /\
            forall t' k', (t' < t0)%nat -> (k' < pa_K p)%nat -> pa_S p t' k' = 0%Z) \/
            (forall t' k', (t' < n)%nat -> (k' < pa_K p)%nat -> pa_S p t' k' = 0%Z)).
    { induction n as [|n [IH|IH]]; [right; intros; lia| |].
      - left. destruct IH as (t0 & k0 & H1 & H2). exists t0, k0. split; [lia|exact H2].
      - destruct (forall_lt (pa_K p) (fun k' => Z.eqb (pa_S p n k') 0)) eqn:E.
        + right. rewrite forall_lt_true in E. intros t' k' H1 H2. destruct (Nat.eq_dec t' n) as [->|N]; [now apply Z.eqb_eq, E|apply IH; lia].
        + left. apply forall_lt_false in E as (k0 & H1 & H2). exists n, k0. split; [lia|]. split; [exact H1|]. split; [now apply Z.eqb_neq|exact IH]. }
    destruct (G (pa_T p)) as [H|H]; [exact H|]. rewrite (H t k Ht Hk) in Hs. lia. }
  destruct D as (t0 & k0 & Ht0 & Hk0 & Hs0 & Hb). destruct (@pa_row_surj p k0 t0 Ht0 Hs0) as (r & Hr & Er).
  unfold f_mf_update. set (q := f_exps expd L).
  replace (all_rows p _) with false; [reflexivity|]. symmetry. apply Bool.not_true_iff_false. intros H.
  rewrite all_rows_true in H. specialize (H k0 r Hk0 Hr). rewrite forall_lt_true in H. specialize (H 0%nat ltac:(lia)).
  assert (P0 : f_pvec_python p q k0 r 0%nat = Fin 0).
  { cbn [f_pvec_python]. unfold q. cbn [f_exps q_lam]. rewrite HL by auto. rewrite expd_zero; auto. }
  assert (Z0 : fround (Fin 0) = Fin 0) by (rewrite fround_fin; rewrite ?(b64_id is64_0); [reflexivity|lra|apply bpow_gt_0]).
  assert (PS : fsum (o k0 r) (fun i => f_pvec_python p q k0 r (S i)) = Fin 0).
  { apply fsum_zero. intros i Hi. apply (Permutation_in _ (Ho k0 r Hk0 Hr)) in Hi. apply in_seq in Hi.
    destruct (@idx_bound (pa_K p) (pa_B p) i) as [H1 H2]; [lia|]. cbn [f_pvec_python]. cbv zeta. unfold pa_Fs. rewrite Er, HC by auto.
    unfold fmul. cbn [emul]. rewrite Rmult_0_l, Z0. cbn [emul]. rewrite Rmult_0_l. exact Z0. }
  unfold f_mf_row, f_mf_norm in H. rewrite PS, P0 in H. unfold fadd in H. cbn [eadd] in H. rewrite Rplus_0_r, Z0 in H.
  unfold fdiv in H. cbn [ediv] in H. rewrite (proj2 (Reqb_true 0 0) eq_refl) in H. unfold einf_sign in H.
  destruct (Rltb 0 0) eqn:E; [apply Rltb_true in E; lra|]. try rewrite E in H. cbn in H.
  repeat match goal with H : context[Rltb 0 0] |- _ => rewrite E in H end. cbn in H. discriminate.
Qed.
Print Assumptions C127_vague_prior_refuted.

(** The correctly rounded exponential qualifies. *)
Lemma rounded_exp_accurate : accurate_exp (fun x => b64 (exp x)).
Proof.
  intros x _. split; [apply b64_format|]. pose proof (exp_pos x) as P. split; [apply b64_nonneg; lra|].
  destruct (b64_err (exp x)) as (e & d & E1 & E2 & ->). unfold eta64 in E2.
  replace (exp x * (1 + e) + d - exp x) with (exp x * e + d) by ring. eapply Rle_trans; [apply Rabs_triang|].
  rewrite Rabs_mult, (Rabs_pos_eq (exp x)) by lra. apply Rplus_le_compat; [|exact E2]. apply Rmult_le_compat_l; [lra|].
  eapply Rle_trans; [exact E1|]. rewrite u64_val. change (bpow radix2 (-50)) with (/ 1125899906842624). lra.
Qed.

(** The data of C118 (two events of the first process, then one of the second), all expected logs zero. *)
Definition ex_L : logs := {| l_lam := fun _ => 0; l_W := fun _ _ => 0; l_g := fun _ _ _ => 0 |}.
Example C127_nonvacuous :
  fits ex_fp /\ ordinary_data ex_fp /\ bounded_logs ex_fp ex_L /\ ordinary_logs ex_fp ex_L /\ causal_filter ex_fp /\
  sums_all (pa_K ex_fp * pa_B ex_fp) (Plus (Entry 0) (Entry 1)) /\ pa_Tk ex_fp 1 = 1%nat /\ share ex_fp ex_L 1 0 1 = 2 / 3 /\
  (exists psi : R -> R, psi (/ 1000 * 1) - ln (1 * 1) <= -1000) /\ (0 < pa_S ex_fp 0%nat 0%nat)%Z.
Proof.
  pose proof (@power_in 1 ltac:(lia)) as [H2 N2]. destruct zero_in as [H0 N0]. change (bpow radix2 1) with 2 in *.
  split; [intros t k _ _; cbn [ex_fp pa_S]; destruct (_ && _)%bool; [lia|]; destruct (_ && _)%bool; lia|].
  split.
  { split; [intros; cbn [ex_fp pa_F]; destruct (_ && _)%bool; auto|]. cbn [ex_fp pa_K pa_B]. apply Rle_trans with (bpow radix2 2); [cbn; lra|apply bpow_le; lia]. }
  split; [repeat split; intros; cbn [ex_L l_lam l_W l_g]; lra|]. split; [repeat split; intros; cbn [ex_L l_lam l_W l_g]; lra|].
  split.
  { intros t k b Ht Hb Hk _. cbn [ex_fp pa_F]. destruct (_ && _)%bool eqn:E; [|reflexivity]. apply andb_prop in E as [E _]. apply Nat.eqb_eq in E as ->.
    specialize (Hb 0%nat 0%nat ltac:(lia) ltac:(cbn; lia)). discriminate. }
  split; [apply Permutation_refl|]. split; [reflexivity|]. split.
  { unfold share, affinity, pa_row, pa_ts. cbn. rewrite Rplus_0_r, exp_0. field. }
  split; [|cbn; lia]. exists (fun _ => -1001). rewrite Rmult_1_r, ln_1. lra.
Qed.
