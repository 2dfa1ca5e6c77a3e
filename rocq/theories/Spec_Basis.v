(** * Spec_Basis: what a basis and a filtered array should be.  Plain mathematics,
    independent of the model. *)
From Verif Require Import Prelude ExtReal.
Set Implicit Arguments.
Open Scope R_scope.

(** Column [col] with [rows] lags is a finite, non-negative column of volume 1. *)
Definition unit_volume (dt : R) (rows : nat) (col : nat -> er) : Prop :=
  exists f : nat -> R,
    (forall l, (l < rows)%nat -> col l = Fin (f l) /\ 0 <= f l) /\
    dt * Rsum rows f = 1.

(** The causal convolution: sum over lags 0..t of basis[l,b] * S[t-l,k], with a
    basis of [rows] lags. *)
Definition causal_conv (rows : nat) (basis : nat -> nat -> R) (S_ : nat -> nat -> Z)
           (t k b : nat) : R :=
  Rsum (S t) (fun l => if Nat.ltb l rows then basis l b * IZR (S_ (t - l)%nat k) else 0).

(** Number of events of process k in T bins. *)
Definition n_events (T : nat) (S_ : nat -> nat -> Z) (k : nat) : Z :=
  Zsum T (fun t => S_ t k).
