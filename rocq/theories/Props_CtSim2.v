(** * Props_CtSim2: C121, how much probability the discarded children carry. *)
From Verif Require Import Prelude Arrays Spec_CtJoint Spec_Simulation M_SimLaw Props_SimLaw.
From Coquelicot Require Import Coquelicot.
Set Implicit Arguments.
Open Scope R_scope.

(** An event with expected number of children w, each falling beyond the end with probability q: the probability that none of them is
    recorded is exp(-w(1-q)), and the factor the likelihood uses, exp(-w), is too small unless q = 0. *)
Theorem C121_lost_children_refuted :
  forall w q, 0 < w -> 0 < q ->
  Series (fun n => pmf w n * q ^ n) = exp (- (w * (1 - q))) /\ exp (- w) < Series (fun n => pmf w n * q ^ n).
Proof.
  intros w q Hw Hq. assert (E : Series (fun n => pmf w n * q ^ n) = exp (- (w * (1 - q)))).
  { rewrite (Series_ext _ (fun n => exp (- (w * (1 - q))) * pmf (w * q) n)).
    - rewrite Series_scal_l, Series_pmf. ring.
    - intros n. unfold pmf. replace (exp (- w)) with (exp (- (w * (1 - q))) * exp (- (w * q))) by (rewrite <- exp_plus; f_equal; ring).
      rewrite Rpow_mult_distr. field. apply INR_fact_neq_0. }
  split; [exact E|]. rewrite E. apply exp_increasing. nra.
Qed.
Print Assumptions C121_lost_children_refuted.
