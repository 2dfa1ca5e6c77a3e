(** * Spec_Gibbs: textbook densities and conditional laws.  Plain mathematics.

    [lgam] is the log-gamma function; identities below hold whatever it is. *)
From Verif Require Import Prelude ExtReal Arrays.
Set Implicit Arguments.
Open Scope R_scope.

(** Log density of Gamma(shape a, rate b) at x > 0. *)
Definition gamma_lpdf (lgam : R -> R) (a b x : R) : R :=
  a * ln b - lgam a + (a - 1) * ln x - b * x.

(** Log density of Dirichlet(al_0..al_{n-1}) at x. *)
Definition dirichlet_lpdf (lgam : R -> R) (n : nat) (al x : vec) : R :=
  lgam (Rsum n al) - Rsum n (fun b => lgam (al b)) + Rsum n (fun b => (al b - 1) * ln (x b)).

(** Log density of Beta(a, b) at x. *)
Definition beta_lpdf (lgam : R -> R) (a b x : R) : R :=
  lgam (a + b) - lgam a - lgam b + (a - 1) * ln x + (b - 1) * ln (1 - x).

(** Two log densities on a domain describe the same law: they differ by a constant. *)
Definition same_law {X} (D : X -> Prop) (f g : X -> R) : Prop :=
  exists c, forall x, D x -> f x = g x + c.

(** Log likelihood of [n] events from a Poisson process of rate [x] observed for
    [exposure] units, up to a constant in x. *)
Definition pois_loglik (n exposure x : R) : R := n * ln x - exposure * x.

Definition open_simplex (n : nat) (x : vec) : Prop :=
  (forall b, (b < n)%nat -> 0 < x b) /\ Rsum n x = 1.

(** Contracts of the generators, for every outcome. *)
Definition unit_interval (u : R) : Prop := 0 <= u < 1.

(** Probability of an edge with log odds weights: prior probability p and log
    likelihoods l1 (with the edge) and l0 (without). *)
Definition edge_posterior (p l0 l1 : R) : R :=
  p * exp l1 / (p * exp l1 + (1 - p) * exp l0).
