(** * M_FloatMf: the mean-field parent update in double precision (parents.py 352-378). *)
From Verif Require Import Prelude ExtReal Arrays Spec_Float M_Parents M_FloatParents.
Set Implicit Arguments.
Open Scope R_scope.

(** What the update reads: bias.py 85 [expected_log_lambda0], weights.py [expected_log_W], impulses.py [expected_log_g]. *)
Record logs := { l_lam : vec; l_W : mat; l_g : ten }.
(** parents.py 366-368: np.exp of each ([expd]: NumPy's exp). *)
Definition f_exps (expd : R -> R) (L : logs) : params :=
  {| q_lam := fun k => expd (l_lam L k); q_W := fun k1 k2 => expd (l_W L k1 k2); q_g := fun k1 k2 b => expd (l_g L k1 k2 b) |}.
(** parents.py 375: Z = p0 + pkb.sum(axis=1), with pkb = Fk * Wk2 * Gk2 (369) evaluated from the left;
    [o]: the order in which NumPy adds the K*B columns. *)
Definition f_mf_norm (o : order) (p : parents) (q : params) (k2 r : nat) : er :=
  fadd (f_pvec_python p q k2 r 0%nat) (fsum o (fun i => f_pvec_python p q k2 r (S i))).
(** parents.py 376-377: EZk[:,0] = p0 / Z * Sk; EZk[:,1:] = pkb / Z * Sk (Sk converted to double, 363). *)
Definition f_mf_row (o : order) (p : parents) (q : params) (k2 r : nat) : nat -> er :=
  fun c => fmul (fdiv (f_pvec_python p q k2 r c) (f_mf_norm o p q k2 r)) (Fin (IZR (pa_Ss p k2 r))).
Definition isfinite (x : er) : bool := match x with Fin _ => true | _ => false end.
(** parents.py 352-378 ([_mf_update_Z_python], what [meanfieldupdate] 404-405 calls): line 378 asserts that every entry is
    finite.  Simplified: the arrays of the processes before a failing one, already overwritten, are not returned. *)
Definition f_mf_update (o : nat -> nat -> order) (expd : R -> R) (p : parents) (L : logs) : result (nat -> nat -> nat -> er) :=
  let EZ := fun k r => f_mf_row (o k r) p (f_exps expd L) k r in
  if negb (all_rows p (fun k r => forall_lt (1 + pa_K p * pa_B p) (fun c => isfinite (EZ k r c)))) then Raise AssertionError
  else Ok EZ.
