(** * L_FloatConv: rounded bin edges and event times. *)
From Verif Require Import Prelude ExtReal Arrays Spec_Float M_Utils M_FloatConv L_Float.
From Flocq Require Import Core.
From Coq Require Import Lia.
Set Implicit Arguments.
Open Scope R_scope.

(** Rounding a number whose scaled value is close to a 53-bit integer. *)
Lemma b64_eval x (m e : Z) : (-1074 <= e)%Z -> (2 ^ 52 <= m < 2 ^ 53)%Z -> bpow radix2 52 <= x * bpow radix2 (- e) < bpow radix2 53 ->
  Rabs (x * bpow radix2 (- e) - IZR m) < / 2 -> b64 x = IZR m * bpow radix2 e.
Proof.
  intros He Hm Hx Hr. unfold b64, round.
  assert (Hx' : bpow radix2 (52 + e) <= x < bpow radix2 (53 + e)).
  { rewrite !bpow_plus. assert (E : x = x * bpow radix2 (- e) * bpow radix2 e) by (rewrite Rmult_assoc, <- bpow_plus, Z.add_opp_diag_l; cbn [bpow]; ring).
    pose proof (bpow_gt_0 radix2 e). rewrite E. split; [apply Rmult_le_compat_r; lra|apply Rmult_lt_compat_r; lra]. }
  assert (Hpos : 0 < x) by (pose proof (bpow_gt_0 radix2 (52 + e)); lra).
  assert (Hmag : mag_val _ _ (mag radix2 x) = (53 + e)%Z).
  { apply mag_unique. rewrite Rabs_pos_eq by lra. replace (53 + e - 1)%Z with (52 + e)%Z by ring. exact Hx'. }
  assert (Hc : cexp radix2 (FLT_exp (-1074) 53) x = e) by (unfold cexp, FLT_exp; rewrite Hmag; lia).
  unfold F2R, scaled_mantissa. rewrite Hc. cbn [Fnum Fexp].
  f_equal. f_equal. apply Znearest_imp. exact Hr.
Qed.
Lemma is64_nat n : INR n <= bpow radix2 53 -> is64 (INR n).
Proof.
  intros H. rewrite INR_IZR_INZ. apply generic_format_FLT. rewrite INR_IZR_INZ in H.
  assert (Hz : (Z.of_nat n <= 2 ^ 53)%Z) by (apply le_IZR; exact H).
  destruct (Z.eq_dec (Z.of_nat n) (2 ^ 53)) as [->|Hne].
  - exists (Float radix2 1 53); [unfold F2R; cbn [Fnum Fexp]; rewrite Rmult_1_l; reflexivity|reflexivity|cbn [Fexp]; lia].
  - exists (Float radix2 (Z.of_nat n) 0); [unfold F2R; cbn [Fnum Fexp bpow]; ring| |]; cbn [Fnum Fexp]; [|lia].
    rewrite Z.abs_eq by lia. change (Zaux.radix_val radix2) with 2%Z. lia.
Qed.

(** Bin width neither tiny nor huge, at most 2^50 bins. *)
Definition width_ok (dt : R) : Prop := is64 dt /\ bpow radix2 (-900) <= dt <= bpow radix2 900.
Lemma width_pos dt : width_ok dt -> 0 < dt.
Proof. intros (_ & H & _). pose proof (bpow_gt_0 radix2 (-900)). lra. Qed.

Definition edge64 (dt : R) (i : nat) : R := b64 (INR i * dt).
Lemma edge64_le dt i j : width_ok dt -> (i <= j)%nat -> edge64 dt i <= edge64 dt j.
Proof. intros H Hij. apply width_pos in H. apply b64_le. apply Rmult_le_compat_r; [lra|now apply le_INR]. Qed.
Lemma edge64_rel dt i : width_ok dt -> exists e, Rabs e <= u64 /\ edge64 dt i = INR i * dt * (1 + e).
Proof.
  intros H. pose proof (width_pos H) as Hp. destruct H as (_ & Hl & _). apply b64_rel. destruct i as [|i]; [left; cbn; ring|right].
  assert (1 <= INR (S i)) by (rewrite S_INR; pose proof (pos_INR i); lra).
  rewrite Rabs_pos_eq by (apply Rmult_le_pos; lra). apply Rle_trans with (bpow radix2 (-900)); [apply bpow_le; lia|]. nra.
Qed.
Lemma f_arange_0 dt i : width_ok dt -> f_arange 0 dt i = edge64 dt i.
Proof.
  intros (H & _). unfold f_arange, edge64. rewrite !Rplus_0_l, Rminus_0_r, !(b64_id H).
  destruct i as [|[|i]].
  - cbn [INR]. rewrite Rmult_0_l. symmetry. apply b64_id, is64_0.
  - cbn [INR]. rewrite Rmult_1_l. symmetry. now apply b64_id.
  - apply b64_id, b64_format.
Qed.

(** A number np.random.rand can return: a double in [0,1), a multiple of 2^-53. *)
Definition uniform64 (r : R) : Prop := is64 r /\ 0 <= r < 1 /\ (r = 0 \/ bpow radix2 (-53) <= r).
Definition time64 (dt : R) (t : nat) (r : R) : R := b64 (b64 (dt * INR t) + b64 (dt * r)).
Lemma time64_bounds dt t r : width_ok dt -> uniform64 r ->
  edge64 dt t <= time64 dt t r /\ (INR t + r) * dt * (1 - u64) ^ 2 <= time64 dt t r <= (INR t + r) * dt * (1 + u64) ^ 2.
Proof.
  intros Hw (_ & Hr & Hr0). pose proof (width_pos Hw) as Hp. unfold time64.
  assert (Ea : b64 (dt * INR t) = edge64 dt t) by (unfold edge64; f_equal; ring). rewrite Ea.
  assert (Fa : is64 (edge64 dt t)) by apply b64_format. assert (Fb : is64 (b64 (dt * r))) by apply b64_format.
  assert (Pb : 0 <= b64 (dt * r)) by (apply b64_nonneg, Rmult_le_pos; lra).
  split.
  { rewrite <- (b64_id Fa) at 1. apply b64_le. lra. }
  destruct (@edge64_rel dt t Hw) as (e1 & B1 & E1). destruct (b64_plus Fa Fb) as (e2 & B2 & ->).
  destruct (@b64_rel (dt * r)) as (e3 & B3 & E3).
  { destruct Hr0 as [->|Hr0]; [left; ring|right]. rewrite Rabs_pos_eq by (apply Rmult_le_pos; lra).
    destruct Hw as (_ & Hl & _). apply Rle_trans with (bpow radix2 (-900) * bpow radix2 (-53)); [rewrite <- bpow_plus; apply bpow_le; lia|].
    apply Rmult_le_compat; auto using bpow_ge_0. }
  rewrite E1, E3. pose proof u64_pos as Hu. pose proof u64_le_1 as Hu1. pose proof (pos_INR t) as Ht.
  apply Rabs_le_inv in B1, B2, B3. assert (0 <= INR t * dt) by (apply Rmult_le_pos; lra). assert (0 <= dt * r) by (apply Rmult_le_pos; lra).
  set (a := INR t * dt) in *. set (b := dt * r) in *.
  replace ((INR t + r) * dt) with (a + b) by (unfold a, b; ring). cbn [pow]. rewrite !Rmult_1_r.
  assert (L : (a + b) * (1 - u64) <= a * (1 + e1) + b * (1 + e3) <= (a + b) * (1 + u64)) by nra.
  assert (0 <= (a + b) * (1 - u64)) by (apply Rmult_le_pos; lra).
  split; rewrite <- Rmult_assoc; apply Rmult_le_compat; lra.
Qed.

(** Far enough from the end of the bin, the rounded time stays in the bin. *)
Lemma time64_in_bin dt t r (T : nat) : width_ok dt -> uniform64 r -> (t < T)%nat -> r <= 1 - 4 * INR T * u64 -> time64 dt t r < edge64 dt (S t).
Proof.
  intros Hw Hr HT Hr1. destruct (time64_bounds t Hw Hr) as (_ & _ & Hb). destruct (@edge64_rel dt (S t) Hw) as (e & Be & ->).
  pose proof (width_pos Hw) as Hp. pose proof u64_pos as Hu. pose proof u64_val as Hv. apply Rabs_le_inv in Be.
  assert (HtT : INR (S t) <= INR T) by (apply le_INR; lia). rewrite S_INR in *. pose proof (pos_INR t) as Ht. destruct Hr as (_ & Hr & _).
  eapply Rle_lt_trans; [exact Hb|].
  assert (Hr2 : r <= 1 - 4 * (INR t + 1) * u64) by nra.
  apply Rlt_le_trans with ((INR t + 1) * dt * (1 - u64)).
  2:{ apply Rmult_le_compat_l; [apply Rmult_le_pos; lra|lra]. }
  cbn [pow]. rewrite !Rmult_1_r.
  replace ((INR t + r) * dt * ((1 + u64) * (1 + u64))) with (dt * ((INR t + r) * ((1 + u64) * (1 + u64)))) by ring.
  replace ((INR t + 1) * dt * (1 - u64)) with (dt * ((INR t + 1) * (1 - u64))) by ring. apply Rmult_lt_compat_l; [exact Hp|].
  apply Rle_lt_trans with ((INR t + 1) * (1 - 4 * u64) * ((1 + u64) * (1 + u64))).
  { apply Rmult_le_compat_r; [nra|]. lra. }
  rewrite Rmult_assoc. apply Rmult_lt_compat_l; [lra|]. rewrite Hv. lra.
Qed.
(** In any case it is before the end of the next bin. *)
Lemma time64_near_bin dt t r (T : nat) : width_ok dt -> uniform64 r -> (t < T)%nat -> INR T <= bpow radix2 50 -> time64 dt t r < edge64 dt (S (S t)).
Proof.
  intros Hw Hr HT HT50. destruct (time64_bounds t Hw Hr) as (_ & _ & Hb). destruct (@edge64_rel dt (S (S t)) Hw) as (e & Be & ->).
  pose proof (width_pos Hw) as Hp. pose proof u64_pos as Hu. pose proof u64_val as Hv. apply Rabs_le_inv in Be.
  assert (HtT : INR (S t) <= INR T) by (apply le_INR; lia). rewrite !S_INR in *. pose proof (pos_INR t) as Ht. destruct Hr as (_ & Hr & _).
  eapply Rle_lt_trans; [exact Hb|].
  apply Rlt_le_trans with ((INR t + 1 + 1) * dt * (1 - u64)).
  2:{ apply Rmult_le_compat_l; [apply Rmult_le_pos; lra|lra]. }
  cbn [pow]. rewrite !Rmult_1_r.
  replace ((INR t + r) * dt * ((1 + u64) * (1 + u64))) with (dt * ((INR t + r) * ((1 + u64) * (1 + u64)))) by ring.
  replace ((INR t + 1 + 1) * dt * (1 - u64)) with (dt * ((INR t + 1 + 1) * (1 - u64))) by ring. apply Rmult_lt_compat_l; [exact Hp|].
  apply Rle_lt_trans with ((INR t + 1) * ((1 + u64) * (1 + u64))); [apply Rmult_le_compat_r; [nra|lra]|].
  change (bpow radix2 50) with 1125899906842624 in HT50. rewrite Hv. nra.
Qed.

(** The grid built by the way back: T bins with edges [edge64 dt]. *)
Lemma f_arange_len_0 dt T : width_ok dt -> (0 < T)%nat -> INR T <= bpow radix2 50 ->
  f_arange_len 0 (edge64 dt T) dt = T \/ f_arange_len 0 (edge64 dt T) dt = S T.
Proof.
  intros Hw HT HT50. unfold f_arange_len. rewrite Rminus_0_r. assert (F : is64 (edge64 dt T)) by apply b64_format. rewrite (b64_id F).
  destruct (@edge64_rel dt T Hw) as (e & Be & E). pose proof (width_pos Hw) as Hp. rewrite E. apply Rabs_le_inv in Be.
  assert (HT1 : 1 <= INR T) by (apply (le_INR 1); lia). pose proof u64_val as Hv. change (bpow radix2 50) with 1125899906842624 in HT50.
  replace (INR T * dt * (1 + e) / dt) with (INR T * (1 + e)) by (field; lra).
  destruct (@b64_rel (INR T * (1 + e))) as (d & Bd & Ed).
  { right. rewrite Rabs_pos_eq by (apply Rmult_le_pos; lra). apply Rle_trans with (bpow radix2 (-1)); [apply bpow_le; lia|]. change (bpow radix2 (-1)) with (/ 2). rewrite Hv in Be. nra. }
  rewrite Ed. apply Rabs_le_inv in Bd. set (q := INR T * (1 + e) * (1 + d)).
  assert (Hq : INR T - 1 < q < INR T + 1).
  { unfold q. rewrite Hv in Be, Bd. assert (-  / 4503599627370495 <= (1 + e) * (1 + d) - 1 <= / 4503599627370495) by nra.
    set (z := (1 + e) * (1 + d) - 1) in *. replace (INR T * (1 + e) * (1 + d)) with (INR T + INR T * z) by (unfold z; ring). nra. }
  clearbody q. destruct (Rle_lt_dec q (INR T)) as [H|H]; [left|right].
  - rewrite (@ceilZ_unique q (Z.of_nat T)); [lia|]. rewrite <- INR_IZR_INZ. lra.
  - rewrite (@ceilZ_unique q (Z.of_nat (S T))); [lia|]. rewrite <- INR_IZR_INZ, S_INR. lra.
Qed.
Lemma edge64_lt_last dt T : width_ok dt -> (0 < T)%nat -> INR T <= bpow radix2 50 -> edge64 dt (T - 1) < edge64 dt T.
Proof.
  intros Hw HT HT50. destruct (@edge64_rel dt T Hw) as (e & Be & ->). destruct (@edge64_rel dt (T - 1) Hw) as (d & Bd & ->).
  pose proof (width_pos Hw) as Hp. apply Rabs_le_inv in Be, Bd. pose proof u64_val as Hv. change (bpow radix2 50) with 1125899906842624 in HT50.
  rewrite minus_INR by lia. cbn [INR]. assert (HT1 : 1 <= INR T) by (apply (le_INR 1); lia).
  replace ((INR T - 1) * dt * (1 + d)) with (dt * ((INR T - 1) * (1 + d))) by ring. replace (INR T * dt * (1 + e)) with (dt * (INR T * (1 + e))) by ring.
  apply Rmult_lt_compat_l; [exact Hp|]. rewrite Hv in Be, Bd. nra.
Qed.
