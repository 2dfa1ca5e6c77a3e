(** * Spec_Continuous: the continuous-time Hawkes process, as mathematics.  Independent of the model. *)
From Verif Require Import Prelude ExtReal Arrays.
Set Implicit Arguments.
Open Scope R_scope.

(** Time-sorted events. *)
Definition sorted (N : nat) (s : vec) : Prop := forall i j, (i <= j)%nat -> (j < N)%nat -> s i <= s j.

(** Density of a Normal with mean mu and precision tau. *)
Definition normal_pdf (mu tau x : R) : R := sqrt (tau / (2 * PI)) * exp (- (tau / 2) * (x - mu) ^ 2).
(** The map from a delay in (0, D) to the real line. *)
Definition to_line (D dt : R) : R := ln (dt / (D - dt)).
(** Density at delay dt of D * sigmoid(X), X Normal(mu, precision tau): change of variables, with d/d(dt) to_line = D / (dt (D - dt)). *)
Definition delay_pdf (D mu tau dt : R) : R := normal_pdf mu tau (to_line D dt) * (D / (dt * (D - dt))).

(** Earlier event p may influence event n: the delay lies in the response window, less a margin at both ends. *)
Definition in_window (eps D dt : R) : Prop := eps <= dt /\ dt < D - eps.
Definition in_window_b (eps D dt : R) : bool := (Rleb eps dt && Rltb dt (D - eps))%bool.

(** Intensity of process (c n) at event n: background plus the responses to all earlier events in the window.
    [h a b dt] is the response of b to an event of a after delay dt. *)
Definition intensity_at (eps D : R) (s : vec) (c : nat -> nat) (lam : vec) (h : nat -> nat -> R -> R) (n : nat) : R :=
  lam (c n) + Rsum n (fun p => if in_window_b eps D (s n - s p) then h (c p) (c n) (s n - s p) else 0).

(** The candidates for the parent of event n: 0 is the background, S p the earlier event p.  An event counts when its delay
    lies in the window [eps, D - eps]. *)
Definition parent_weight (eps D : R) (s : vec) (c : nat -> nat) (lam : vec) (h : nat -> nat -> R -> R) (n j : nat) : R :=
  match j with
  | O => lam (c n)
  | S p => if (Rleb eps (s n - s p) && Rleb (s n - s p) (D - eps))%bool then h (c p) (c n) (s n - s p) else 0
  end.
Definition parent_prob (eps D : R) (s : vec) (c : nat -> nat) (lam : vec) (h : nat -> nat -> R -> R) (n j : nat) : R :=
  parent_weight eps D s c lam h n j / Rsum (S n) (parent_weight eps D s c lam h n).

(** Inverse-CDF sampling of a categorical variable with probabilities p 0, p 1, ...: u selects j. *)
Definition selects (p : vec) (j : nat) (u : R) : Prop := Rsum j p <= u < Rsum (S j) p.

(** Number of events of process k. *)
Definition count (N : nat) (P : nat -> bool) : R := Rsum N (fun n => if P n then 1 else 0).
Definition total (N : nat) (P : nat -> bool) (x : vec) : R := Rsum N (fun n => if P n then x n else 0).

(** Log density of (mu, tau) under the normal-gamma law: tau ~ Gamma(a, rate b), mu | tau ~ Normal(m, precision l tau);
    [lgam] is the log-gamma function. *)
Definition normal_gamma_lpdf (lgam : R -> R) (m l a b mu tau : R) : R :=
  a * ln b - lgam a + (a - 1) * ln tau - b * tau + ln (sqrt (l * tau / (2 * PI))) - l * tau / 2 * (mu - m) ^ 2.
(** Log likelihood of observations x from Normal(mu, precision tau). *)
Definition normal_loglik (xs : list R) (mu tau : R) : R := lsum (map (fun x => ln (normal_pdf mu tau x)) xs).
