(** * M_FloatParents: the probabilities of the parent sampler in double precision (parents.py 220-276). *)
From Verif Require Import Prelude ExtReal Arrays Spec_Float M_Parents.
Set Implicit Arguments.
Open Scope R_scope.

(** parents.py 232-236: p[0] = lambda0[k2]; p[1:] = (ft * Wk2[:,None] * Gk2).ravel(), evaluated from the left. *)
Definition f_pvec_python (p : parents) (q : params) (k2 r : nat) : nat -> er :=
  fun c => match c with
           | O => Fin (q_lam q k2)
           | S i => let k1 := (i / pa_B p)%nat in let b := (i mod pa_B p)%nat in
                    fmul (fmul (Fin (pa_Fs p k2 r k1 b)) (Fin (q_W q k1 k2))) (Fin (q_g q k1 k2 b))
           end.
(** parents.py 262-268: P[:,0] = lambda0[k2]; P[:,1:] = Wk2 * Gk2 * Fk.reshape((Tk, K*B)), evaluated from the left. *)
Definition f_pvec_gsl (p : parents) (q : params) (k2 r : nat) : nat -> er :=
  fun c => match c with
           | O => Fin (q_lam q k2)
           | S i => let k1 := (i / pa_B p)%nat in let b := (i mod pa_B p)%nat in
                    fmul (fmul (Fin (q_W q k1 k2)) (Fin (q_g q k1 k2 b))) (Fin (pa_Fs p k2 r k1 b))
           end.
Definition f_pvec (use_gsl : bool) := if use_gsl then f_pvec_gsl else f_pvec_python.
(** parents.py 239: p = p / p.sum(); 271: P = P / P.sum(1)[:,None].  [o]: the order in which NumPy adds. *)
Definition f_probs (use_gsl : bool) (o : order) (p : parents) (q : params) (k2 r : nat) : nat -> er :=
  let v := f_pvec use_gsl p q k2 r in fun c => fdiv (v c) (fsum o v).
(** parents.py 220-242, [_resample_Z_python]: the draws, row by row; np.random.multinomial raises ValueError on
    probabilities it does not accept, leaving the rows before it drawn. *)
Definition f_resample_python (o : nat -> nat -> order) (accepts : nat -> (nat -> er) -> bool)
  (mult : nat -> nat -> Z -> (nat -> er) -> nat -> Z) (p : parents) (q : params) : result parents :=
  if negb (all_rows p (fun k r => Z.ltb 0 (pa_Ss p k r))) then Raise AssertionError
  else if negb (all_rows p (fun k r => accepts (1 + pa_K p * pa_B p)%nat (f_probs false (o k r) p q k r))) then Raise ValueError
  else Ok (set_Z p (fun k r c => u32 (mult k r (pa_Ss p k r) (f_probs false (o k r) p q k r) c))).
