(** * Spec_CtCut: two continuous-time recordings played one after the other (C138). *)
From Verif Require Import Prelude Arrays.
Set Implicit Arguments.
Open Scope R_scope.

(** A list of [N1] things followed by another list. *)
Definition then_ {A} (N1 : nat) (x y : nat -> A) (n : nat) : A := if Nat.ltb n N1 then x n else y (n - N1)%nat.
(** Times of the second recording are counted from its own start, the end T1 of the first. *)
Definition times_then (N1 : nat) (T1 : R) (s1 s2 : vec) : vec := then_ N1 s1 (fun n => T1 + s2 n).
(** Nobody has an event in the last D units of time before T1. *)
Definition silent_end (N1 : nat) (T1 D : R) (s1 : vec) : Prop := forall n, (n < N1)%nat -> s1 n <= T1 - D.
(** Parents: -1 is the background, otherwise the number of an event; events of the second recording are counted on. *)
Definition parents_then (N1 : nat) (z1 z2 : nat -> Z) : nat -> Z :=
  then_ N1 z1 (fun n => if Z.ltb (z2 n) 0 then z2 n else (Z.of_nat N1 + z2 n)%Z).
