(** * M_LabelLaw: the label update of the block model with the discrete sampler spelled out (network.py 242-284). *)
From Verif Require Import Prelude ExtReal Arrays M_Network.
Set Implicit Arguments.
Open Scope R_scope.

(** pybasicbayes.util.stats.sample_discrete_from_log, called at network.py 284 (the library is not part of the repository):
    cumvals = exp(lp - lp.max()).cumsum(); the number of entries of cumvals below rand() * cumvals[-1]. *)
Definition lp_max (C : nat) (lp : nat -> er) : R := fold_right Rmax (fval (lp 0%nat)) (map (fun x => fval (lp x)) (seq 0 C)).
Definition cumval (C : nat) (lp : nat -> er) (x : nat) : R := Rsum (S x) (fun y => exp (fval (lp y) - lp_max C lp)).
Definition sample_from_log (C : nat) (u : R) (lp : nat -> er) : nat :=
  length (filter (fun x => Rltb (cumval C lp x) (u * cumval C lp (C - 1))) (seq 0 C)).
(** network.py 242-284 with one random number u k per node. *)
Definition label_sweep (lgam : R -> R) (s : sbm) (A : bmat) (W : mat) (u : vec) : nat -> nat :=
  resample_c lgam (fun k lp => sample_from_log (sb_C s) (u k) lp) s A W.
Definition with_labels (s : sbm) (c : nat -> nat) : sbm := sb_set s (sb_m s) c (sb_p s) (sb_v s).
