(** * M_CtReference: parents.py 545-608, the pure-Python sampler of the continuous-time parents ([resample_Z_python]).

    [resample] (parents.py 521-543) calls the compiled sampler; this one is kept as its reference and can be called by
    the user.  sample_discrete comes from pybasicbayes and is an oracle [disc n len v]: an index drawn from the weights v;
    it asserts that they are non-negative (NaN fails the comparison). *)
From Verif Require Import Prelude ExtReal Arrays M_Basis M_Parents M_Discrete M_Gibbs M_Dist M_Network M_Sweep M_Continuous.
Set Implicit Arguments.
Open Scope R_scope.

(** parents.py 577-588: for par in range(n-1, -1, -1): stop at the first delay above dt_max, with weight 0.  Returns the
    weights and the last value of par. *)
Fixpoint ref_back (dt : nat -> R) (dt_max : R) (w : nat -> er) (n : nat) (p : nat -> er) : (nat -> er) * nat :=
  match n with
  | O => (p, O)
  | S par => if Rltb dt_max (dt par) then (upd p par (Fin 0), par) else ref_back dt dt_max w par (upd p par (w par))
  end.
(** parents.py 568-592: the weights handed to sample_discrete for event n (n > 0), and the first candidate.  W is the
    weight matrix itself (550), not the effective weights. *)
Definition ref_weight (m : ctmodel) (d : ctdata) (n par : nat) : er :=
  emul (Fin (cm_W m (cd_C d par) (cd_C d n)))
       (py_impulse (cm_dtmax m) (cd_S d n - cd_S d par) (cm_mu m (cd_C d par) (cd_C d n)) (cm_tau m (cd_C d par) (cd_C d n))).
Definition ref_request (m : ctmodel) (d : ctdata) (n : nat) : nat * (nat -> er) * nat :=
  let '(p, min_par) := ref_back (fun par => cd_S d n - cd_S d par) (cm_dtmax m) (ref_weight m d n) n (fun _ => Fin 0) in
  ((1 + (n - min_par))%nat, (fun i => match i with O => Fin (cm_lam m (cd_C d n)) | S j => p (min_par + j)%nat end), min_par).
Definition disc_oracle := nat -> nat -> vec -> nat.
(** The assertion of sample_discrete. *)
Definition enonneg (x : er) : bool := match x with Fin r => Rleb 0 r | PInf => true | _ => false end.
(** parents.py 562-608, one event; weight_ss and imp_ss are K x K. *)
Definition ref_event (m : ctmodel) (disc : disc_oracle) (d : ctdata) (n : nat) : result ctdata :=
  let bkgd := cd_with d (upd (cd_Z d) n (-1)%Z) (upd (cd_bkgd d) (cd_C d n) (cd_bkgd d (cd_C d n) + 1)) (cd_weight d) (cd_imp d) in
  match n with
  | O => Ok bkgd
  | _ =>
    let '(len, v, min_par) := ref_request m d n in
    do _ <- guard (forall_lt len (fun i => enonneg (v i))) AssertionError ;;
    match disc n len (fun i => fval (v i)) with
    | O => Ok bkgd
    | S j => let z := (j + min_par)%nat in
        let cp := cd_C d z in
        Ok (cd_with d (upd (cd_Z d) n (Z.of_nat z)) (cd_bkgd d) (upd_add2 (cd_weight d) cp (cd_C d n) 1)
              (fun i => upd_add2 (cd_imp d i) cp (cd_C d n) (sdt (cm_dtmax m) (cd_S d n - cd_S d z))))
    end
  end.
Fixpoint ref_loop (m : ctmodel) (disc : disc_oracle) (ns : list nat) (d : ctdata) : result unit * ctdata :=
  match ns with
  | [] => (Ok tt, d)
  | n :: ns' => match ref_event m disc d n with Ok d' => ref_loop m disc ns' d' | Raise e => (Raise e, d) end
  end.
(** parents.py 545-608.  imp_ss is a K x K array here; [cd_imp] is what it contributes to the 3 x K x K statistics it is
    added to (impulses.py 402-404: ss += d.compute_imp_suff_stats() broadcasts it over the first axis). *)
Definition ref_resample (m : ctmodel) (disc : disc_oracle) (d : ctdata) : result unit * ctdata :=
  ref_loop m disc (seq 0 (cd_N d)) (cd_with d (cd_Z d) (fun _ => 0) (fun _ _ => 0) (fun _ _ _ => 0)).
