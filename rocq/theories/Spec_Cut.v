(** * Spec_Cut: two recordings played one after the other (C137). *)
From Verif Require Import Prelude Arrays.
Set Implicit Arguments.

(** The counts of a recording of [T1] bins followed by another one. *)
Definition glue (T1 : nat) (S1 S2 : nat -> nat -> Z) (t k : nat) : Z :=
  if Nat.ltb t T1 then S1 t k else S2 (t - T1)%nat k.
(** No process has an event in the last [L - 1] bins of [T1]: nothing in the recording is within reach of what comes next. *)
Definition quiet_end (T1 L K : nat) (S1 : nat -> nat -> Z) : Prop :=
  forall t k, (t < T1)%nat -> (T1 < t + L)%nat -> (k < K)%nat -> S1 t k = 0%Z.
