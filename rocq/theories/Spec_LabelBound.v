(** * Spec_LabelBound: the share of the evidence lower bound that depends on the posterior of the block labels.
    Plain mathematics: no model is mentioned. *)
From Verif Require Import Prelude Arrays Spec_Labels.
Set Implicit Arguments.
Open Scope R_scope.

(** What one ordered pair contributes to the expected log joint density when its nodes carry labels a and b:
    an edge indicator with mean A, Bernoulli with mean log probabilities lnp a b (edge) and lnq a b (no edge); and, when there
    is an edge, a weight with mean W and mean logarithm lnW, whose density is Gamma(kappa, rate v a b), lnv being the mean of ln v. *)
Definition pair_score (lgam : R -> R) (kappa : R) (lnp lnq v lnv : mat) (A W lnW : R) (a b : nat) : R :=
  A * lnp a b + (1 - A) * lnq a b + A * (kappa * lnv a b - lgam kappa + (kappa - 1) * lnW - v a b * W).

(** Expected log joint density of labels c, edges and weights: the label prior and every ordered pair that may carry an edge. *)
Definition labelled (K : nat) (allow : bool) (lnpi : vec) (score : nat -> nat -> nat -> nat -> R) (c : nat -> nat) : R :=
  Rsum K (fun k => lnpi (c k))
  + Rsum K (fun i => Rsum K (fun j => if Nat.eqb i j && negb allow then 0 else score i j (c i) (c j))).

(** Evidence lower bound as a function of the label posterior q: mean over independent labels, plus their entropy
    (a probability 0 contributes 0: here ln 0 = 0). *)
Definition label_elbo (K C : nat) (allow : bool) (lnpi : vec) (score : nat -> nat -> nat -> nat -> R) (q : mat) : R :=
  label_mean C q K (labelled K allow lnpi score) - Rsum K (fun k => Rsum C (fun a => q k a * ln (q k a))).
