(** * Arrays: vocabulary for NumPy arrays.

    An array is a function of its indices; dimensions are passed explicitly.
    Nothing here models pyhawkes. *)
From Verif Require Import Prelude ExtReal.
Set Implicit Arguments.
Open Scope R_scope.

Definition vec := nat -> R.
Definition mat := nat -> nat -> R.
Definition ten := nat -> nat -> nat -> R.
Definition imat := nat -> nat -> Z.          (* integer matrix *)
Definition bmat := nat -> nat -> bool.       (* 0/1 matrix *)

Definition b2R (b : bool) : R := if b then 1 else 0.
Definition b2Z (b : bool) : Z := if b then 1%Z else 0%Z.

(** np.floor on reals, and the length of np.arange(0.0, stop, step). *)
Definition floorZ (x : R) : Z := Int_part x.
Definition ceilZ (x : R) : Z := (- Int_part (- x))%Z.
Definition arange_len (stop step : R) : nat := Z.to_nat (ceilZ (stop / step)).

(** x.astype(np.uint32) *)
Definition u32 (z : Z) : Z := (z mod 2 ^ 32)%Z.

(** np.clip(x, lo, np.inf) on finite values *)
Definition clip_lo (lo x : R) : R := Rmax lo x.
(** np.clip(x, lo, hi) on finite values *)
Definition clip (lo hi x : R) : R := Rmin (Rmax x lo) hi.

Lemma floorZ_spec x : IZR (floorZ x) <= x < IZR (floorZ x) + 1.
Proof. unfold floorZ. destruct (base_Int_part x). lra. Qed.
Lemma floorZ_unique x n : IZR n <= x < IZR n + 1 -> floorZ x = n.
Proof.
  intros [H1 H2]. destruct (floorZ_spec x) as [H3 H4].
  assert (floorZ x < n + 1)%Z by (apply lt_IZR; rewrite plus_IZR; lra).
  assert (n < floorZ x + 1)%Z by (apply lt_IZR; rewrite plus_IZR; lra). lia.
Qed.
Lemma ceilZ_spec x : IZR (ceilZ x) - 1 < x <= IZR (ceilZ x).
Proof.
  unfold ceilZ. rewrite opp_IZR. pose proof (floorZ_spec (- x)) as H.
  unfold floorZ in H. lra.
Qed.
Lemma ceilZ_unique x n : IZR n - 1 < x <= IZR n -> ceilZ x = n.
Proof.
  intros H. pose proof (ceilZ_spec x) as Hc.
  assert (ceilZ x < n + 1)%Z by (apply lt_IZR; rewrite plus_IZR; lra).
  assert (n < ceilZ x + 1)%Z by (apply lt_IZR; rewrite plus_IZR; lra). lia.
Qed.
Lemma arange_len_pos stop step : 0 < stop -> 0 < step -> (0 < arange_len stop step)%nat.
Proof.
  intros Hs Ht. unfold arange_len.
  assert (0 < stop / step) by (apply Rdiv_lt_0_compat; auto).
  pose proof (ceilZ_spec (stop / step)).
  assert (0 < ceilZ (stop / step))%Z by (apply lt_IZR; lra). lia.
Qed.
Lemma b2R_01 b : b2R b = 0 \/ b2R b = 1.
Proof. destruct b; cbn; auto. Qed.
Lemma b2R_range b : 0 <= b2R b <= 1.
Proof. destruct b; cbn; lra. Qed.

(** Index arithmetic of C-order reshape (K,B) <-> K*B. *)
Lemma div_idx k B b : (b < B)%nat -> ((k * B + b) / B = k)%nat.
Proof. intros. rewrite Nat.div_add_l by lia. rewrite Nat.div_small by lia. lia. Qed.
Lemma mod_idx k B b : (b < B)%nat -> ((k * B + b) mod B = b)%nat.
Proof.
  intros. rewrite Nat.add_comm, Nat.mod_add by lia. now apply Nat.mod_small.
Qed.
