(** * Spec_Network: what the stochastic block model says.  Plain mathematics.

    K nodes with labels c; an ordered pair (i,j) is a possible edge unless i = j and
    self-connections are disallowed.  Edge i->j is present with probability p[c_i,c_j] and, if present,
    has a Gamma(kappa, rate v[c_i,c_j]) weight. *)
From Verif Require Import Prelude ExtReal Arrays Spec_Gibbs.
Set Implicit Arguments.
Open Scope R_scope.

Definition possible (allow : bool) (i j : nat) : bool := allow || negb (i =? j)%nat.
(** Log probability of an edge indicator under connection probability p. *)
Definition bern_ll (p : R) (a : bool) : R := if a then ln p else ln (1 - p).

(** Log probability of the adjacency matrix restricted to pairs selected by [sel]. *)
Definition edges_ll (K : nat) (sel : nat -> nat -> bool) (p : nat -> nat -> R) (A : bmat) : R :=
  Rsum K (fun i => Rsum K (fun j => if sel i j then bern_ll (p i j) (A i j) else 0)).
(** Log density of the weights of the present edges selected by [sel]. *)
Definition weights_ll (lgam : R -> R) (K : nat) (sel : nat -> nat -> bool) (kappa : R)
    (v : nat -> nat -> R) (A : bmat) (W : mat) : R :=
  Rsum K (fun i => Rsum K (fun j =>
    if (sel i j && A i j)%bool then gamma_lpdf lgam kappa (v i j) (W i j) else 0)).

Definition in_block (c : nat -> nat) (c1 c2 i j : nat) : bool := ((c i =? c1) && (c j =? c2))%nat.
Definition touches (k i j : nat) : bool := ((i =? k) || (j =? k))%nat.

(** Log joint density as a function of the probability x of block pair (c1,c2), prior Beta(tau1,tau0). *)
Definition p_joint (lgam : R -> R) (K : nat) (allow : bool) (c : nat -> nat) (tau1 tau0 : R) (A : bmat)
    (c1 c2 : nat) (x : R) : R :=
  beta_lpdf lgam tau1 tau0 x
  + edges_ll K (fun i j => possible allow i j && in_block c c1 c2 i j) (fun _ _ => x) A.
(** ... of the rate x of block pair (c1,c2), prior Gamma(alpha, beta). *)
Definition v_joint (lgam : R -> R) (K : nat) (allow : bool) (c : nat -> nat) (kappa alpha beta : R) (A : bmat) (W : mat)
    (c1 c2 : nat) (x : R) : R :=
  gamma_lpdf lgam alpha beta x
  + weights_ll lgam K (fun i j => possible allow i j && in_block c c1 c2 i j) kappa (fun _ _ => x) A W.
(** ... of the label x of node k, every pair touching k counted once. *)
Definition c_joint (lgam : R -> R) (K : nat) (allow : bool) (c : nat -> nat) (m : vec) (p v : mat) (kappa : R)
    (A : bmat) (W : mat) (k x : nat) : R :=
  let c' := upd c k x in
  ln (m x)
  + edges_ll K (fun i j => possible allow i j && touches k i j) (fun i j => p (c' i) (c' j)) A
  + weights_ll lgam K (fun i j => possible allow i j && touches k i j) kappa (fun i j => v (c' i) (c' j)) A W.
(** Contribution of the pair (k,k) when node k is in block x. *)
Definition self_ll (lgam : R -> R) (p v : mat) (kappa : R) (A : bmat) (W : mat) (k x : nat) : R :=
  bern_ll (p x x) (A k k) + (if A k k then gamma_lpdf lgam kappa (v x x) (W k k) else 0).

(** A probability vector (closed simplex). *)
Definition simplex (n : nat) (x : vec) : Prop := (forall b, (b < n)%nat -> 0 <= x b) /\ Rsum n x = 1.
