(** * Spec_Labels: averaging over independent random labels. *)
From Verif Require Import Prelude Arrays.
Set Implicit Arguments.
Open Scope R_scope.

(** [label_mean C q n F]: the expectation of F(c) when the labels c(0), ..., c(n-1) are independent and c(k) = a
    with probability q k a (a < C); labels of other nodes are 0. *)
Definition set_label (c : nat -> nat) (k a : nat) : nat -> nat := fun i => if Nat.eqb i k then a else c i.
Fixpoint label_mean_from (C : nat) (q : nat -> nat -> R) (n : nat) (c : nat -> nat) (F : (nat -> nat) -> R) : R :=
  match n with
  | O => F c
  | S n' => Rsum C (fun a => q n' a * label_mean_from C q n' (set_label c n' a) F)
  end.
Definition label_mean (C : nat) (q : nat -> nat -> R) (n : nat) (F : (nat -> nat) -> R) : R :=
  label_mean_from C q n (fun _ => 0%nat) F.
