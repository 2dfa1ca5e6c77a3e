(** * M_ParentsLaw: the law of the resampled event attributions.  The generator of M_Parents is replaced by the
    multinomial law itself: the probability of an attribution is the product of the probabilities of the draws that
    produce it, each with the number of trials and the probabilities the code passes to the generator. *)
From Verif Require Import Prelude Arrays Spec_CtJoint Spec_Marginal M_Parents.
Set Implicit Arguments.
Open Scope R_scope.

(** Generator that hands out the attribution Y: row r of process k is the bin [pa_row p k r] (parents.py 46-52). *)
Definition handing_out (p : parents) (Y : nat -> nat -> nat -> nat) : mult_oracle :=
  fun k r _ _ c => Z.of_nat (Y (pa_row p k r) k c).
(** What is asked of the generator for row r of process k: parents.py 224-242 (python), 254-276 (GSL). *)
Definition asked (use_gsl : bool) (p : parents) (q : params) (k r : nat) : Z * vec :=
  if use_gsl then request_gsl p q k r else request_python p q k r.
(** Probability that [resample] (parents.py 278-282) makes the draws Y: one independent multinomial per stored row. *)
Definition resample_prob (use_gsl : bool) (p : parents) (q : params) (Y : nat -> nat -> nat -> nat) : R :=
  Rprod (pa_K p) (fun k => Rprod (pa_Tk p k) (fun r =>
    multinomial_pmf (1 + pa_K p * pa_B p) (Z.to_nat (fst (asked use_gsl p q k r))) (snd (asked use_gsl p q k r)) (Y (pa_row p k r) k))).
