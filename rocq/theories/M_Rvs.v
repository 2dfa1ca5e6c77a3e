(** * M_Rvs: rvs() of the components of a model, the unfinished block-model impulse responses, and two unused helpers
    (bias.py 44-63, 173-174; weights.py 72-86, 266-267, 526-527; impulses.py 53-59, 155-328, 374-380; network.py 182-183,
    354-359, 966-967; parents.py 159-160, 518-519; distributions.py 32-33, 69-73). *)
From Verif Require Import Prelude ExtReal Arrays M_Basis M_Parents M_Discrete M_Gibbs M_Dist M_Network M_Sweep M_Prior.
Set Implicit Arguments.
Open Scope R_scope.

(** The parts of a model that have an rvs method, with the hyperparameters it reads. *)
Inductive component :=
| CBias (K : nat) (alpha beta : R)          (* GammaBias and ContinuousTimeGammaBias *)
| CSpikeSlab (K : nat) (n : net)            (* SpikeAndSlabGammaWeights *)
| CMixture | CCtWeights                     (* GammaMixtureWeights, SpikeAndSlabContinuousTimeGammaWeights *)
| CImpulses | CCtImpulses                   (* DirichletImpulseResponses, ContinuousTimeImpulseResponses *)
| CBlockNet | CErNet                        (* stochastic block models, Erdos-Renyi networks *)
| CParents.                                 (* both kinds of parents *)
(** What a call can hand back: an array, or None (a method without return statement). *)
Inductive handed := HVec (n : nat) (x : vec) | HNone.
(** Calls to the generator: np.random.gamma(shape, scale, size=(n,)), np.random.rand(n, n). *)
Inductive asked := AGamma (shape scale : R) (n : nat) | AUnif (n : nat).
(** [g] answers the gamma call. [size] is the argument, of any value: no method reads it as a size.  Returns the outcome and
    the calls made. *)
Definition comp_rvs {Sz : Type} (g : R -> R -> nat -> vec) (c : component) (size : Sz) : result handed * list asked :=
  match c with
  | CBias K alpha beta => (Ok (HVec K (g alpha (1 / beta) K)), [AGamma alpha (1 / beta) K])   (* bias.py 45, 174 *)
  | CSpikeSlab K n => (Raise TypeError, [AUnif K])      (* weights.py 73-75: size(K, K) calls the argument *)
  | CMixture | CCtWeights => (Raise NotImplementedErr, [])                                    (* weights.py 267, 527 *)
  | CImpulses | CCtImpulses => (Ok HNone, [])                                                 (* impulses.py 59, 380 *)
  | CBlockNet | CErNet => (Raise NotImplementedErr, [])                                       (* network.py 183, 967 *)
  | CParents => (Raise NotImplementedErr, [])                                                 (* parents.py 160, 519 *)
  end.
(** bias.py 34-39: log_likelihood(x) asserts that x is a K-vector. *)
Definition bias_log_likelihood (lgam : R -> R) (K : nat) (alpha beta : R) (x : handed) : result er :=
  match x with HVec n v => do _ <- guard (Nat.eqb n K) AssertionError ;; Ok (bias_ll lgam K alpha beta v) | HNone => Raise AssertionError end.

(** bias.py 48-63, [GammaBias._get_suff_statistics(Z0)] of a T x K table of background counts (not called by the library). *)
Definition bias_table_ss (dt : R) (T K : nat) (Z0 : imat) (k : nat) : R * R :=
  if Nat.ltb 0 T then (Rsum T (fun t => IZR (Z0 t k)), INR T * dt) else (0, 0).

(** impulses.py 155-191, [SBMDirichletImpulseResponses.__init__]: after checking gamma it calls self.resample(), which raises
    (241), as do all other methods.  [gamma_ok]: gamma is None, a scalar, or an array of shape (B,). *)
Definition sbm_impulses_init (gamma_ok : bool) : result unit :=
  do _ <- guard gamma_ok AssertionError ;; Raise NotImplementedErr.

(** network.py 354-359, [expected_notp]. *)
Definition sbm_expected_notp (s : sbm) (f : mfsbm) : mat := fun i j => 1 - sbm_expected_p s f i j.
