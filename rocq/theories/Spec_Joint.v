(** * Spec_Joint: the joint density of the network Hawkes model, term by term.  Plain mathematics.

    K processes, B basis functions.  Background rates are Gamma(alpha, beta), impulse responses Dirichlet(gamma), edge
    i->j is present with probability P[i,j] if it is possible at all, its weight is Gamma(kappa, V[i,j]) (absent edges of
    the mixture model: Gamma(kappa0, nu0)).  Each bin of a data set receives Poisson(lambda0 dt) background events, and
    each event of k1 has Poisson(W[k1,k2]) children on k2, distributed over bins by the impulse response. *)
From Verif Require Import Prelude ExtReal Arrays Spec_Gibbs Spec_Network.
Set Implicit Arguments.
Open Scope R_scope.

Definition bias_lp (lgam : R -> R) (K : nat) (alpha beta : R) (lam : vec) : R :=
  Rsum K (fun k => gamma_lpdf lgam alpha beta (lam k)).
Definition impulse_lp (lgam : R -> R) (K B : nat) (gamma : vec) (g : ten) : R :=
  Rsum K (fun i => Rsum K (fun j => dirichlet_lpdf lgam B gamma (g i j))).
(** Weights of every ordered pair, the absent edges' with their own law. *)
Definition all_weights_ll (K : nat) (present absent : nat -> nat -> R -> R) (A : bmat) (W : mat) : R :=
  Rsum K (fun i => Rsum K (fun j => if A i j then present i j (W i j) else absent i j (W i j))).

(** Prior of a stochastic block model: block weights m, labels c, block tables p and v. *)
Definition sbm_lp (lgam : R -> R) (K C : nat) (pi : vec) (tau1 tau0 alpha beta : R) (m : vec) (c : nat -> nat) (p v : mat) : R :=
  dirichlet_lpdf lgam C pi m
  + Rsum C (fun a => Rsum C (fun b => beta_lpdf lgam tau1 tau0 (p a b)))
  + Rsum C (fun a => Rsum C (fun b => gamma_lpdf lgam alpha beta (v a b)))
  + Rsum K (fun k => ln (m (c k))).

(** Poisson log probability mass function. *)
Definition lfact (n : Z) : R := ln (INR (fact (Z.to_nat n))).
Definition poisson_lpmf (n : Z) (mu : R) : R := IZR n * ln mu - mu - lfact n.

(** A data set with its attributions: events of k2 in bin t caused by the background ([at0]) or by the pair (k1, b)
    ([at1]); [nev k1] is the number of events of k1 and F the filtered counts. *)
Record attributions := { at_T : nat; at_dt : R; at_nev : nat -> Z; at_F : ten; at0 : nat -> nat -> Z; at1 : nat -> nat -> nat -> nat -> Z }.
(** Complete-data log likelihood under background rates lam, weights W (0 for absent edges), impulse responses g: the
    children of k1 on k2 number Poisson(W nev) in all. *)
Definition bkgd_ll (d : attributions) (k : nat) (x : R) : R :=
  Rsum (at_T d) (fun t => poisson_lpmf (at0 d t k) (x * at_dt d)).
Definition pair_ll (d : attributions) (B k1 k2 : nat) (w : R) (gb : vec) : R :=
  Rsum (at_T d) (fun t => Rsum B (fun b =>
    IZR (at1 d t k2 k1 b) * ln (w * gb b * at_F d t k1 b * at_dt d) - lfact (at1 d t k2 k1 b)))
  - w * IZR (at_nev d k1).
Definition complete_ll (K B : nat) (d : attributions) (lam : vec) (W : mat) (g : ten) : R :=
  Rsum K (fun k2 => bkgd_ll d k2 (lam k2) + Rsum K (fun k1 => pair_ll d B k1 k2 (W k1 k2) (g k1 k2))).

(** Log probability of a multinomial outcome x of n trials with probabilities q. *)
Definition multinomial_lpmf (M : nat) (n : Z) (q : vec) (x : nat -> Z) : R :=
  lfact n + Rsum M (fun c => IZR (x c) * ln (q c) - lfact (x c)).
