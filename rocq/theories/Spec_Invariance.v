(** * Spec_Invariance: averages over uniform draws and sums over networks.  Plain mathematics. *)
From Coquelicot Require Import Coquelicot.
From Verif Require Import Prelude Arrays.
Set Implicit Arguments.
Open Scope R_scope.

(** The ordered pairs of K nodes. *)
Definition pairs (K : nat) : list (nat * nat) := list_prod (seq 0 K) (seq 0 K).

(** Sum of F over all ways of filling the listed entries of A with edges. *)
Fixpoint over_cells (cs : list (nat * nat)) (A : bmat) (F : bmat -> R) : R :=
  match cs with
  | [] => F A
  | (i, j) :: cs' => over_cells cs' (upd2 A i j false) F + over_cells cs' (upd2 A i j true) F
  end.
(** Sum over all directed networks on K nodes (self edges included). *)
Definition over_networks (K : nat) (F : bmat -> R) : R := over_cells (pairs K) (fun _ _ => false) F.

(** Prior probability of a network whose edges are independent with probabilities P. *)
Definition edge_prior (K : nat) (P : mat) (A : bmat) : R :=
  fold_right Rmult 1 (map (fun c => if A (fst c) (snd c) then P (fst c) (snd c) else 1 - P (fst c) (snd c)) (pairs K)).

(** v is the mean of G when the listed entries of u are independent uniforms on (0,1): iterated Riemann integrals. *)
Fixpoint is_mean (cs : list (nat * nat)) (G : mat -> R) (u : mat) (v : R) : Prop :=
  match cs with
  | [] => v = G u
  | (i, j) :: cs' => exists h : R -> R, (forall x, 0 < x < 1 -> is_mean cs' G (upd2 u i j x) (h x)) /\ is_RInt h 0 1 v
  end.
(** The mean over K*K independent uniforms. *)
Definition uniform_mean (K : nat) (G : mat -> R) (v : R) : Prop := forall u0 : mat, is_mean (pairs K) G u0 v.

(** The values of a function of a network depend on its K*K entries only. *)
Definition on_nodes (K : nat) (F : bmat -> R) : Prop :=
  forall A A' : bmat, (forall i j, (i < K)%nat -> (j < K)%nat -> A i j = A' i j) -> F A = F A'.
