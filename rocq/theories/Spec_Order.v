(** * Spec_Order: the same recordings in another order.  Nothing here models pyhawkes. *)
From Verif Require Import Prelude.
Set Implicit Arguments.
Open Scope nat_scope.

(** A rearrangement of the first n positions: new position i holds what was at [s i]; later positions stay. *)
Definition rearrangement (n : nat) (s : nat -> nat) : Prop :=
  (forall i, i < n -> s i < n) /\ (forall i j, i < n -> j < n -> s i = s j -> i = j) /\ (forall i, n <= i -> s i = i).
(** [l'] is [l] rearranged by [s]. *)
Definition reordered {A} (s : nat -> nat) (l l' : list A) : Prop :=
  length l' = length l /\ forall i, nth_error l' i = nth_error l (s i).
