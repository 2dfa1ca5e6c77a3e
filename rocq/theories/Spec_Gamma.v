(** * Spec_Gamma: the logarithm of Euler's Gamma function and its derivative, by Gauss's limit

      Gamma(x) = lim_N  N! (N+1)^x / (x (x+1) ... (x+N)),      x > 0.

    These are the functions scipy.special.gammaln and scipy.special.psi approximate (called throughout
    internals/*.py).  [L_Gamma] proves the limits exist, that [digamma] is the derivative of [log_gamma], the functional
    equation log Gamma(x+1) = log Gamma(x) + ln x, log Gamma(n+1) = ln n!, and that [log_gamma] is the only convex
    function with the first two properties (Bohr-Mollerup). *)
From Coquelicot Require Import Coquelicot.
From Verif Require Import Prelude.
Open Scope R_scope.

Definition gauss_lgam (N : nat) (x : R) : R :=
  ln (INR (fact N)) + x * ln (INR (S N)) - Rsum (S N) (fun n => ln (x + INR n)).
Definition gauss_psi (N : nat) (x : R) : R := ln (INR (S N)) - Rsum (S N) (fun n => / (x + INR n)).

Definition log_gamma (x : R) : R := real (Lim_seq (fun N => gauss_lgam N x)).
Definition digamma (x : R) : R := real (Lim_seq (fun N => gauss_psi N x)).
