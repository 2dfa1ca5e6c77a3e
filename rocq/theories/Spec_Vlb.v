(** * Spec_Vlb: what the variational theorems assume about gammaln and psi.

    Both facts hold of the logarithm of Euler's Gamma function and its derivative: they say that the
    Kullback-Leibler divergence between two gamma distributions (rates chosen so that the means agree), and
    between two beta distributions, is not negative. *)
From Verif Require Import Prelude.
Set Implicit Arguments.
Open Scope R_scope.

(** The gap between [lgam] and its tangent at [a]. *)
Definition gap (lgam psi : R -> R) (x a : R) : R := lgam x - lgam a - psi a * (x - a).

Record gamma_functions (lgam psi : R -> R) : Prop := {
  gf_gamma : forall x a, 0 < x -> 0 < a -> x * ln (x / a) - x + a <= gap lgam psi x a;
  gf_beta : forall x1 x2 a1 a2, 0 < x1 -> 0 < x2 -> 0 < a1 -> 0 < a2 ->
     gap lgam psi (x1 + x2) (a1 + a2) <= gap lgam psi x1 a1 + gap lgam psi x2 a2 }.

(** How much the small constant 1e-32 inside the logarithms of the compiled bound can matter: for expected counts [EZ]
    (one row of 1 + K*B numbers per non-empty bin), filtered activity [F] and counts [S] on those bins. *)
Definition log_guard_slack (K B : nat) (Tk : nat -> nat) (EZ : nat -> nat -> nat -> R) (F : nat -> nat -> nat -> nat -> R) (S : nat -> nat -> Z) : R :=
  / 10 ^ 32 *
  (Rsum K (fun k => Rsum (Tk k) (fun r => Rsum K (fun k1 => Rsum B (fun b => EZ k r (1 + (k1 * B + b))%nat / F k r k1 b))))
   + INR (1 + K * B) * Rsum K (fun k => Rsum (Tk k) (fun r => IZR (S k r)))).

(** Expected log density, under expectations Eln = E[ln x] and Ex = E[x], of Gamma(a, b); and of a Dirichlet with
    parameters g under Eln b = E[ln x_b]. *)
Definition gamma_elog (lgam : R -> R) (a b Eln Ex : R) : R := a * ln b - lgam a + (a - 1) * Eln - b * Ex.
Definition dirichlet_elog (lgam : R -> R) (n : nat) (g Eln : nat -> R) : R :=
  lgam (Rsum n g) - Rsum n (fun b => lgam (g b)) + Rsum n (fun b => (g b - 1) * Eln b).
(** Minus the Kullback-Leibler divergence from the prior to q: E_q[ln p] - E_q[ln q]. *)
Definition gamma_neg_kl (lgam psi : R -> R) (a b qa qb : R) : R :=
  gamma_elog lgam a b (psi qa - ln qb) (qa / qb) - gamma_elog lgam qa qb (psi qa - ln qb) (qa / qb).
Definition dirichlet_neg_kl (lgam psi : R -> R) (n : nat) (g q : nat -> R) : R :=
  let Eln b := psi (q b) - psi (Rsum n q) in dirichlet_elog lgam n g Eln - dirichlet_elog lgam n q Eln.
