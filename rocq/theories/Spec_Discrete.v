(** * Spec_Discrete: the discrete-time Hawkes model, as mathematics. *)
From Verif Require Import Prelude ExtReal Arrays Spec_Basis.
Set Implicit Arguments.
Open Scope R_scope.

(** Rate of process k2 in bin t: lambda0[k2] + sum_{k1,b} W[k1,k2] g[k1,k2,b] F[t,k1,b]. *)
Definition hawkes_rate (K B : nat) (lam : vec) (W : mat) (g F : ten) (t k2 : nat) : R :=
  lam k2 + Rsum K (fun k1 => Rsum B (fun b => W k1 k2 * g k1 k2 b * F t k1 b)).

(** Network weights: an absent edge carries no weight (spike and slab). *)
Definition edge_weight (A : bmat) (W : mat) : mat := fun k1 k2 => if A k1 k2 then W k1 k2 else 0.

(** Poisson log likelihood of counts S under rates R (without the ln S! constant). *)
Definition poisson_loglik (T K : nat) (dt : R) (S_ : imat) (R_ : mat) : R :=
  Rsum T (fun t => Rsum K (fun k => IZR (S_ t k) * ln (R_ t k) - dt * R_ t k)).

(** Impulse responses are probability vectors over the basis. *)
Definition stochastic_g (K B : nat) (g : ten) : Prop :=
  forall k1 k2, (k1 < K)%nat -> (k2 < K)%nat ->
    (forall b, (b < B)%nat -> 0 <= g k1 k2 b) /\ Rsum B (fun b => g k1 k2 b) = 1.

Definition nonneg_mat (K : nat) (W : mat) : Prop :=
  forall k1 k2, (k1 < K)%nat -> (k2 < K)%nat -> 0 <= W k1 k2.
Definition pos_vec (K : nat) (v : vec) : Prop := forall k, (k < K)%nat -> 0 < v k.
Definition counts (T K : nat) (S_ : imat) : Prop :=
  forall t k, (t < T)%nat -> (k < K)%nat -> (0 <= S_ t k)%Z.

(** A normalised, non-negative basis table. *)
Definition normalised_basis (dt : R) (L B : nat) (bas : mat) : Prop :=
  forall b, (b < B)%nat ->
    (forall l, (l < L)%nat -> 0 <= bas l b) /\ dt * Rsum L (fun l => bas l b) = 1.

(** The same causal convolution restricted to strictly earlier bins (lags 1..t). *)
Definition strict_conv (rows : nat) (basis : nat -> nat -> R) (S_ : nat -> nat -> Z)
           (t k b : nat) : R :=
  Rsum t (fun s => if Nat.ltb (t - s) rows then basis (t - s)%nat b * IZR (S_ s k) else 0).
