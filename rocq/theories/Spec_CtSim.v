(** * Spec_CtSim: density of the random draws behind a simulated path.  Plain mathematics about lists of answered calls. *)
From Verif Require Import Prelude Arrays Spec_Continuous Spec_CtJoint Spec_Simulation M_CtGenerate.
Set Implicit Arguments.
Open Scope R_scope.

Fixpoint lprod (l : list R) : R := match l with [] => 1 | x :: l' => x * lprod l' end.

(** Density of one answer: a Poisson count, n standard normals, n uniforms on (0, 1). *)
Definition call_density (c : call) : R :=
  match c with
  | CPois mean n => pmf mean n
  | CNorm n x => Rprod n (fun i => normal_pdf 0 1 (x i))
  | CUnif n u => 1
  end.
Definition draws_density (tr : list call) : R := lprod (map call_density tr).
(** Number of orders in which the members of each drawn group of siblings may come: the data do not show it. *)
Definition orderings (tr : list call) : R := lprod (map (fun c => match c with CPois _ n => INR (fact n) | _ => 1 end) tr).
(** Number of events drawn: the sum of the Poisson counts. *)
Fixpoint drawn (tr : list call) : nat :=
  match tr with [] => O | CPois _ n :: tr' => (n + drawn tr')%nat | _ :: tr' => drawn tr' end.

(** The logistic response time D * sigmoid(mu + x / sqrt tau) of a standard normal draw x. *)
Definition response_time (D mu tau x : R) : R := D * (1 / (1 + exp (- (mu + x / sqrt tau)))).
(** Its derivative in x, written with the delay it returns. *)
Definition response_slope (D tau dt : R) : R := dt * (D - dt) / (D * sqrt tau).
(** Change of variables from the draws to the event times: a uniform draw is stretched by T, a normal draw by [response_slope]. *)
Definition stretch (D : R) (tau : mat) (d : caused) (n : nat) : R :=
  match ev_z d n with
  | O => ev_T d
  | S p => response_slope D (tau (ev_k d p) (ev_k d n)) (ev_t d n - ev_t d p)
  end.
