(** * Spec_Stability: eigenvalues and growth.  Plain mathematics. *)
From Verif Require Import Prelude Arrays.
From Coquelicot Require Import Coquelicot.
Set Implicit Arguments.
Open Scope R_scope.

Definition Csum (n : nat) (f : nat -> C) : C := (Rsum n (fun i => fst (f i)), Rsum n (fun i => snd (f i))).
(** z is an eigenvalue of the K x K matrix W. *)
Definition eigenvalue (K : nat) (W : mat) (z : C) : Prop :=
  exists x : nat -> C, (exists i, (i < K)%nat /\ x i <> RtoC 0) /\
  forall i, (i < K)%nat -> Csum K (fun j => Cmult (RtoC (W i j)) (x j)) = Cmult z (x i).
(** The list holds exactly the eigenvalues. *)
Definition spectrum (K : nat) (W : mat) (l : list C) : Prop := forall z, In z l <-> eigenvalue K W z.
(** z is an eigenvalue of largest modulus; it is the only one. *)
Definition dominant (K : nat) (W : mat) (z : C) : Prop :=
  eigenvalue K W z /\ forall z', eigenvalue K W z' -> Cmod z' <= Cmod z.
Definition strictly_dominant (K : nat) (W : mat) (z : C) : Prop :=
  eigenvalue K W z /\ forall z', eigenvalue K W z' -> z' <> z -> Cmod z' < Cmod z.

(** Mean number of events in generation n of the cascade started by one event of process k, when an event of a has on average
    w a b children on b. *)
Fixpoint generation (K : nat) (w : mat) (n k : nat) : R :=
  match n with O => 1 | S p => Rsum K (fun b => w k b * generation K w p b) end.
(** Mean size of the cascade up to generation n. *)
Definition cascade (K : nat) (w : mat) (n k : nat) : R := Rsum (S n) (fun i => generation K w i k).
