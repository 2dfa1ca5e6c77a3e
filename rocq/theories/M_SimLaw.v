(** * M_SimLaw: the randomness of the discrete simulator.

    [generate] (models.py 791-853) is modelled in M_Discrete as a function of the values np.random.poisson returns.  Here the same
    loop is run on the distribution of those values: each call np.random.poisson(mean) (827) returns n with
    probability [pmf mean n], independently of everything drawn before.  [gen_law m T f] is the expected value of [f] at the
    loop state after T bins. *)
From Verif Require Import Prelude ExtReal Arrays M_Basis M_Parents M_Discrete Spec_CtJoint Spec_Simulation.
From Coquelicot Require Import Coquelicot.
Set Implicit Arguments.
Open Scope R_scope.

(** numpy's draws for one bin, all K of them, as the loop body reads them (827). *)
Definition these (v : nat -> nat) : pois_oracle := fun _ k _ => Z.of_nat (v k).

(** models.py 825-841: the loop, bin by bin; the mean requested in bin t is R[t,:] * dt at that moment (827). *)
Fixpoint gen_law (m : dmodel) (T : nat) (f : gstate -> R) : R :=
  match T with
  | O => f (gen_init m)
  | S t => gen_law m t (fun st => over_row (dm_K m) (fun v =>
             Rprod (dm_K m) (fun k => pmf (gs_R st t k * dm_dt m) (v k)) * f (gen_step m (these v) st t)))
  end.

(** models.py 838-853: what [generate] does with the final loop state. *)
Definition finish (m : dmodel) (keep : bool) (T : nat) (st : gstate) : result (dmodel * imat * mat) :=
  if negb (dm_L_int m) then Raise TypeError
  else
  if negb (forall_lt T (fun t => forall_lt (dm_K m) (fun k => Z.ltb (gs_S st t k) 1000)))
  then Raise GenericException
  else
  if keep
  then do m' <- add_data m (sval_of T (dm_K m) (gs_S st)) None None ;; Ok (m', gs_S st, gs_R st)
  else Ok (m, gs_S st, gs_R st).

(** The expected value of [f] at the outcome of generate(keep, T). *)
Definition generate_law (m : dmodel) (keep : bool) (T : nat) (f : result (dmodel * imat * mat) -> R) : R :=
  gen_law m T (fun st => f (finish m keep T st)).

(** The probability that the outcome satisfies a test. *)
Definition generate_prob (m : dmodel) (keep : bool) (T : nat) (p : result (dmodel * imat * mat) -> bool) : R :=
  generate_law m keep T (fun o => if p o then 1 else 0).

(** Expected number of events drawn in bin t of process k by generate(T).  The debugger stop at 1000 events (839-841) is
    continued from, as a user at the prompt would do. *)
Definition expected_count (m : dmodel) (T t k : nat) : R := gen_law m T (fun st => IZR (gs_S st t k)).
