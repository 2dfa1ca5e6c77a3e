(** * Spec_LabelLaw: sums over labellings of the nodes, and averages over one uniform draw per node.  Plain mathematics. *)
From Coquelicot Require Import Coquelicot.
From Verif Require Import Prelude Arrays Spec_Gibbs Spec_Network.
Set Implicit Arguments.
Open Scope R_scope.

(** Sum of F over all ways of giving the listed nodes labels below C. *)
Fixpoint over_labels (C : nat) (ks : list nat) (c : nat -> nat) (F : (nat -> nat) -> R) : R :=
  match ks with
  | nil => F c
  | k :: ks' => Rsum C (fun x => over_labels C ks' (upd c k x) F)
  end.
(** Sum over all labellings of K nodes. *)
Definition over_labellings (K C : nat) (F : (nat -> nat) -> R) : R := over_labels C (seq 0 K) (fun _ => 0%nat) F.

(** v is the mean of G when the listed entries of u are independent uniforms on (0,1): iterated Riemann integrals. *)
Fixpoint is_mean1 (ks : list nat) (G : vec -> R) (u : vec) (v : R) : Prop :=
  match ks with
  | nil => v = G u
  | k :: ks' => exists h : R -> R, (forall x, 0 < x < 1 -> is_mean1 ks' G (upd u k x) (h x)) /\ is_RInt h 0 1 v
  end.
Definition uniform_mean1 (K : nat) (G : vec -> R) (v : R) : Prop := forall u0 : vec, is_mean1 (seq 0 K) G u0 v.

(** Log joint probability of labels c, adjacency A and weights W in a block model with block probabilities m, connection
    probabilities p and weight rates v. *)
Definition labels_lp (lgam : R -> R) (K : nat) (allow : bool) (c : nat -> nat) (m : vec) (p v : mat) (kappa : R) (A : bmat) (W : mat) : R :=
  Rsum K (fun k => ln (m (c k)))
  + edges_ll K (possible allow) (fun i j => p (c i) (c j)) A
  + weights_ll lgam K (possible allow) kappa (fun i j => v (c i) (c j)) A W.
