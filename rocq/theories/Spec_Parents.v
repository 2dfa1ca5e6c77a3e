(** * Spec_Parents: contracts of the random generators, and what a parent
    assignment is. *)
From Verif Require Import Prelude ExtReal Arrays.
Set Implicit Arguments.
Open Scope R_scope.

(** A probability vector with M categories. *)
Definition prob_vec (M : nat) (v : vec) : Prop :=
  (forall c, (c < M)%nat -> 0 <= v c) /\ Rsum M v = 1.

(** Support of a Multinomial(n, v) outcome over M categories: non-negative
    integers adding up to n, nothing in a category of probability 0. *)
Definition multinomial_outcome (M : nat) (n : Z) (v : vec) (x : nat -> Z) : Prop :=
  (forall c, (c < M)%nat -> (0 <= x c)%Z) /\ Zsum M x = n /\
  (forall c, (c < M)%nat -> v c = 0 -> x c = 0%Z).

(** A generator that always returns an outcome in the support of what it is asked for. *)
Definition multinomial_contract (M : nat) (mult : nat -> nat -> Z -> vec -> nat -> Z) : Prop :=
  forall k r n v, (0 <= n)%Z -> prob_vec M v -> multinomial_outcome M n v (mult k r n v).
