(** * Spec_Moments: means under the gamma, beta and Dirichlet distributions, as (improper, iterated) integrals against
    their densities (Spec_Gibbs) with Euler's Gamma function (Spec_Gamma).  Plain mathematics; no model is mentioned. *)
From Coquelicot Require Import Coquelicot.
From Verif Require Import Prelude Arrays Spec_Gibbs Spec_Gamma.
Set Implicit Arguments.
Open Scope R_scope.

(** v is the mean of f(x) for x ~ Gamma(shape a, rate b): the integral over (0, infinity) of density times f. *)
Definition gamma_law (a b : R) (f : R -> R) (v : R) : Prop :=
  is_RInt_gen (fun x => exp (gamma_lpdf log_gamma a b x) * f x) (at_right 0) (Rbar_locally p_infty) v.
(** v is the mean of f(x) for x ~ Beta(a, b): the integral over (0, 1). *)
Definition beta_law (a b : R) (f : R -> R) (v : R) : Prop :=
  is_RInt_gen (fun x => exp (beta_lpdf log_gamma a b x) * f x) (at_right 0) (at_left 1) v.
(** Iterated integral of F over the n positive numbers that add up to s: the first runs over (0, s), the rest over the
    numbers that add up to what is left. *)
Definition vcons (x : R) (y : vec) : vec := fun i => match i with O => x | S j => y j end.
Fixpoint simplex_int (n : nat) (s : R) (F : vec -> R) (v : R) {struct n} : Prop :=
  match n with
  | O => False
  | S O => v = F (vcons s (fun _ => 0))
  | S (S _ as m) => exists h : R -> R, (forall x, 0 < x < s -> simplex_int m (s - x) (fun y => F (vcons x y)) (h x)) /\
                      is_RInt_gen h (at_right 0) (at_left s) v
  end.
(** v is the mean of f(x) for x ~ Dirichlet(g_0 .. g_{n-1}). *)
Definition dirichlet_law (n : nat) (g : vec) (f : vec -> R) (v : R) : Prop :=
  simplex_int n 1 (fun x => exp (dirichlet_lpdf log_gamma n g x) * f x) v.
(** v is the mean of f(x) when x ~ Gamma(a1, b1) with probability p and x ~ Gamma(a0, b0) otherwise. *)
Definition gamma_mixture_law (p a1 b1 a0 b0 : R) (f : R -> R) (v : R) : Prop :=
  exists v1 v0, gamma_law a1 b1 f v1 /\ gamma_law a0 b0 f v0 /\ v = p * v1 + (1 - p) * v0.
