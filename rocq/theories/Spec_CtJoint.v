(** * Spec_CtJoint: joint density of the continuous-time network Hawkes model.  Plain mathematics.

    Background events of process k arrive at rate lam k.  Every event of a has Poisson(w a b) children on b, each after an
    independent delay with density f a b.  The cause of event n is the background (0) or an earlier event p (S p). *)
From Verif Require Import Prelude Arrays Spec_Continuous.
Set Implicit Arguments.
Open Scope R_scope.

Fixpoint Rprod (n : nat) (f : nat -> R) : R := match n with O => 1 | S k => Rprod k f * f k end.

(** Events (times, processes) on [0, T) with the cause of each. *)
Record caused := { ev_N : nat; ev_t : vec; ev_k : nat -> nat; ev_T : R; ev_z : nat -> nat }.

(** Rate at which the recorded cause produces event n. *)
Definition event_rate (lam : vec) (w : mat) (f : nat -> nat -> R -> R) (d : caused) (n : nat) : R :=
  match ev_z d n with
  | O => lam (ev_k d n)
  | S p => w (ev_k d p) (ev_k d n) * f (ev_k d p) (ev_k d n) (ev_t d n - ev_t d p)
  end.
(** Expected number of events: background events on [0, T), children of all recorded events. *)
Definition expected_events (K : nat) (lam : vec) (w : mat) (d : caused) : R :=
  Rsum K (fun k => lam k * ev_T d + Rsum K (fun a => w a k * count (ev_N d) (fun n => Nat.eqb (ev_k d n) a))).
(** Density of the events with their causes (0 when a cause is impossible), and its logarithm. *)
Definition caused_density (K : nat) (lam : vec) (w : mat) (f : nat -> nat -> R -> R) (d : caused) : R :=
  exp (- expected_events K lam w d) * Rprod (ev_N d) (event_rate lam w f d).
Definition caused_ll (K : nat) (lam : vec) (w : mat) (f : nat -> nat -> R -> R) (d : caused) : R :=
  Rsum (ev_N d) (fun n => ln (event_rate lam w f d n)) - expected_events K lam w d.

(** Sum over all assignments of causes: event n has n + 1 candidates. *)
Fixpoint over_causes (N : nat) (F : (nat -> nat) -> R) : R :=
  match N with
  | O => F (fun _ => O)
  | S n => over_causes n (fun z => Rsum (S n) (fun j => F (upd z n j)))
  end.

(** Prior of the impulse parameters: normal-gamma for every ordered pair. *)
Definition delays_lp (lgam : R -> R) (K : nat) (m0 l0 a0 b0 : R) (mu tau : mat) : R :=
  Rsum K (fun a => Rsum K (fun b => normal_gamma_lpdf lgam m0 l0 a0 b0 (mu a b) (tau a b))).
