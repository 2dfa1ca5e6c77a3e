(** * Spec_Marginal: attributing every counted event to one of M causes, and summing over all attributions.
    Plain mathematics. *)
From Verif Require Import Prelude Arrays Spec_CtJoint Spec_Simulation.
Set Implicit Arguments.
Open Scope R_scope.

(** Sum of F over all ways to split n events among the causes 0, ..., M-1. *)
Fixpoint over_splits (M n : nat) (F : (nat -> nat) -> R) : R :=
  match M with
  | O => if Nat.eqb n 0 then F (fun _ => O) else 0
  | S M' => Rsum (S n) (fun j => over_splits M' (n - j) (fun x => F (upd x M' j)))
  end.
(** Sum over all attributions of one bin of K processes, process k holding n k events. *)
Fixpoint over_bin (K M : nat) (n : nat -> nat) (F : (nat -> nat -> nat) -> R) : R :=
  match K with
  | O => F (fun _ _ => O)
  | S k => over_bin k M n (fun X => over_splits M (n k) (fun x => F (upd X k x)))
  end.
(** Sum over all attributions of a T x K table of counts. *)
Fixpoint over_attributions (T K M : nat) (c : nat -> nat -> nat) (F : (nat -> nat -> nat -> nat) -> R) : R :=
  match T with
  | O => F (fun _ _ _ => O)
  | S t => over_attributions t K M c (fun Y => over_bin K M (c t) (fun X => F (upd Y t X)))
  end.

(** Y attributes every event of the table c: bin t of process k has [Y t k a] events of cause a. *)
Definition attributes (T K M : nat) (c : nat -> nat -> nat) (Y : nat -> nat -> nat -> nat) : Prop :=
  forall t k, (t < T)%nat -> (k < K)%nat -> Zsum M (fun a => Z.of_nat (Y t k a)) = Z.of_nat (c t k).

(** Multinomial probability of the outcome x of n trials with probabilities q. *)
Definition multinomial_pmf (M n : nat) (q : vec) (x : nat -> nat) : R :=
  INR (fact n) * Rprod M (fun c => q c ^ x c / INR (fact (x c))).

(** Probability of the table together with the attribution Y (cause 0: background; cause 1 + k1*B + b: an earlier event
    of k1, through basis b).  Background events of process k: Poisson(lam k * dt) in every bin.  Offspring on k of the
    nev k1 events of k1: Poisson with mean W k1 k * nev k1 over the record, of which the share
    g k1 k b * F t k1 b * dt / nev k1 belongs to bin t and basis b. *)
Definition complete_density (T K B : nat) (dt : R) (nev : vec) (F : ten) (lam : vec) (W : mat) (g : ten)
  (Y : nat -> nat -> nat -> nat) : R :=
  Rprod T (fun t => Rprod K (fun k => pmf (lam k * dt) (Y t k 0%nat)))
  * Rprod K (fun k => Rprod K (fun k1 => exp (- (W k1 k * nev k1))
     * Rprod T (fun t => Rprod B (fun b =>
        let y := Y t k (1 + (k1 * B + b))%nat in (W k1 k * g k1 k b * F t k1 b * dt) ^ y / INR (fact y))))).
