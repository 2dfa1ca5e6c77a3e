(** * Spec_Simulation: the law of a table of counts.  Plain mathematics. *)
From Verif Require Import Prelude Arrays Spec_CtJoint.
From Coquelicot Require Import Coquelicot.
Set Implicit Arguments.
Open Scope R_scope.

(** Poisson probability of n events when mu are expected. *)
Definition pmf (mu : R) (n : nat) : R := exp (- mu) * mu ^ n / INR (fact n).

(** Sum over all rows of K counts, entry by entry (infinite sums). *)
Fixpoint over_row (K : nat) (F : (nat -> nat) -> R) : R :=
  match K with
  | O => F (fun _ => O)
  | S k => over_row k (fun v => Series (fun n => F (upd v k n)))
  end.
(** Sum over all T x K tables of counts. *)
Fixpoint over_counts (T K : nat) (F : (nat -> nat -> nat) -> R) : R :=
  match T with
  | O => F (fun _ _ => O)
  | S t => over_counts t K (fun c => over_row K (fun v => F (upd c t v)))
  end.

(** The table as the integer array the library handles. *)
Definition ints (c : nat -> nat -> nat) : imat := fun t k => Z.of_nat (c t k).

(** Probability of the table when bin t of process k holds Poisson(mean t k) events and the means of a bin are computed
    from the table itself. *)
Definition table_prob (T K : nat) (mean : imat -> nat -> nat -> R) (c : nat -> nat -> nat) : R :=
  Rprod T (fun t => Rprod K (fun k => pmf (mean (ints c) t k) (c t k))).

(** Two tables agree on the T x K window. *)
Definition same_table (T K : nat) (S1 S2 : imat) : Prop :=
  forall t k, (t < T)%nat -> (k < K)%nat -> S1 t k = S2 t k.
