(** * M_Dist: the distribution objects of pyhawkes/internals/distributions.py.

    [lgam] and [psi] stand for scipy's gammaln and psi. *)
From Verif Require Import Prelude ExtReal Arrays.
Set Implicit Arguments.
Open Scope R_scope.

(** np.allclose(x, 1.0) with the default tolerances. *)
Definition close1 (x : R) : bool := Rleb (Rabs (x - 1)) (1 / 10 ^ 8 + 1 / 10 ^ 5 * 1).

(** distributions.py 7-11, [Discrete.__init__] for a 1-d array. *)
Definition discrete_init (D : nat) (p : vec) : result vec :=
  do _ <- guard (forall_lt D (fun i => Rleb 0 (p i)) && close1 (Rsum D p)) AssertionError ;;
  Ok p.

(** An argument of [Discrete.log_probability]: an int64 vector, a Python int, or a
    NumPy integer scalar. *)
Inductive dobs := OneHot (len : nat) (x : nat -> Z) | PyInt (i : Z) | NpInt (i : Z).
(** distributions.py 13-30.  [_is_one_hot] reads x.shape first: a Python int has none. *)
Definition discrete_lp (D : nat) (p : vec) (x : dobs) : result er :=
  match x with
  | PyInt _ => Raise AttributeError                                   (* 14 *)
  | NpInt _ => Raise AssertionError                                   (* 14, 17, 21 *)
  | OneHot n x =>
      do _ <- guard ((n =? D)%nat && Z.eqb (Zsum D x) 1) AssertionError ;;   (* 14, 21 *)
      Ok (esum D (fun i => emul (Fin (IZR (x i))) (elog (Fin (p i)))))       (* 24 *)
  end.
(** distributions.py 35-50. *)
Definition discrete_negentropy (D : nat) (p : vec) (E_x : option vec) (E_ln_p : option (nat -> er)) : R :=
  let x := match E_x with None => p | Some x => x end in
  let l := match E_ln_p with None => fun i => elog (Fin (p i)) | Some l => l end in
  nan_to_num (esum D (fun i => emul (Fin (x i)) (l i))).

(** distributions.py 54-56, one entry of [Bernoulli.__init__]. *)
Definition bernoulli_init (p : R) : result R :=
  do _ <- guard (Rleb 0 p && Rleb p 1) AssertionError ;; Ok p.
(** distributions.py 58-67, one entry. *)
Definition bernoulli_lp (p x : R) : R :=
  nan_to_num (eadd (emul (Fin x) (elog (Fin p))) (emul (Fin (1 - x)) (elog (Fin (1 - p))))).
(** distributions.py 75-99, one entry: with overriding expectations, and the default. *)
Definition bernoulli_negentropy_with (E_x E_notx : er) (E_ln_p E_ln_notp : er) : er :=
  eadd (emul E_x E_ln_p) (emul E_notx E_ln_notp).
Definition bernoulli_negentropy (p : R) : er :=
  bernoulli_negentropy_with (Fin p) (Fin (1 - p)) (elog (Fin p)) (elog (Fin (1 - p))).

(** distributions.py 104-108, [Gamma.__init__]: np.all(alpha) is a bool, so the
    comparison with 0 always holds. *)
Definition py_bool_ge0 (b : bool) : bool := Rleb 0 (b2R b).
Definition gamma_init (alpha beta : R) : result (R * R) :=
  do _ <- guard (py_bool_ge0 (negb (Reqb alpha 0))) AssertionError ;;
  do _ <- guard (py_bool_ge0 (negb (Reqb beta 0))) AssertionError ;;
  Ok (alpha, beta).
(** distributions.py 110-120, one entry. *)
Definition gamma_lp (lgam : R -> R) (alpha beta x : R) : R :=
  nan_to_num (esub (eadd (esub (emul (Fin alpha) (elog (Fin beta))) (Fin (lgam alpha)))
                         (emul (Fin (alpha - 1)) (elog (Fin x))))
                   (Fin (beta * x))).
(** distributions.py 122-126. *)
Definition gamma_mean (alpha beta : R) : R := alpha / beta.
Definition gamma_mean_log (psi : R -> R) (alpha beta : R) : R := psi alpha - ln beta.
(** distributions.py 128-159, one entry, all four expectations given. *)
Definition gamma_negentropy_with (lgam : R -> R) (alpha E_ln_lam E_lam E_beta E_ln_beta : R) : R :=
  alpha * E_ln_beta + - lgam alpha + (alpha - 1) * E_ln_lam + - E_beta * E_lam.
(** distributions.py 138-152: the defaults. *)
Definition gamma_negentropy (lgam psi : R -> R) (alpha beta : R) : R :=
  gamma_negentropy_with lgam alpha (gamma_mean_log psi alpha beta) (gamma_mean alpha beta) beta (ln beta).

(** distributions.py 163-165, [Dirichlet.__init__]. *)
Definition dirichlet_init (rows n : nat) (gamma : mat) : result mat :=
  do _ <- guard (py_bool_ge0 (forall_lt rows (fun r => forall_lt n (fun b => negb (Reqb (gamma r b) 0))))
                 && (1 <=? n)%nat) AssertionError ;;
  Ok gamma.
(** distributions.py 167-170: gamma and x of shape (rows, n) (leading axes flattened);
    line 169 sums gamma over every axis.  The result is one value per row; np.log(0) = -inf.  np.amin of an empty array
    raises ValueError. *)
Definition dirichlet_lp (lgam : R -> R) (rows n : nat) (gamma x : mat) : result (nat -> er) :=
  do _ <- guard (forall_lt rows (fun r => close1 (Rsum n (x r)))) AssertionError ;;
  do _ <- guard (Nat.ltb 0 (rows * n)) ValueError ;;
  do _ <- guard (forall_lt rows (fun r => forall_lt n (fun b => Rleb 0 (x r b)))) AssertionError ;;
  Ok (fun r => eadd (Fin (lgam (Rsum rows (fun r' => Rsum n (gamma r')))
             - Rsum rows (fun r' => Rsum n (fun b => lgam (gamma r' b)))))
             (esum n (fun b => emul (Fin (gamma r b - 1)) (elog (Fin (x r b)))))).
(** distributions.py 172-173. *)
Definition dirichlet_mean (n : nat) (gamma : mat) : mat := fun r b => gamma r b / Rsum n (gamma r).
(** distributions.py 175-176. *)
Definition dirichlet_mean_log (psi : R -> R) (n : nat) (gamma : mat) : mat :=
  fun r b => psi (gamma r b) - psi (Rsum n (gamma r)).
(** distributions.py 178-191: gamma of shape (rows, n) with rows = 1 or rows = rowsE;
    E_ln_g of shape (rowsE, n), broadcast in line 190 only. *)
Definition dirichlet_negentropy_with (lgam : R -> R) (rows rowsE n : nat) (gamma E_ln_g : mat) : R :=
  Rsum rows (fun r => lgam (Rsum n (gamma r)))
  + - Rsum rows (fun r => Rsum n (fun b => lgam (gamma r b)))
  + Rsum rowsE (fun r => Rsum n (fun b =>
      (gamma (if (rows =? 1)%nat then 0%nat else r) b - 1) * E_ln_g r b)).
Definition dirichlet_negentropy (lgam psi : R -> R) (rows n : nat) (gamma : mat) : R :=
  dirichlet_negentropy_with lgam rows rows n gamma (dirichlet_mean_log psi n gamma).

(** distributions.py 194-223, [Beta]: a Dirichlet on (p, 1-p); one row per entry. *)
Definition pair_rows (a b : vec) : mat := fun r i => match i with O => a r | _ => b r end.
Definition beta_mean (tau1 tau0 : vec) : vec := fun r => dirichlet_mean 2 (pair_rows tau1 tau0) r 0%nat.          (* 205-215 *)
Definition beta_mean_log (psi : R -> R) (tau1 tau0 : vec) : vec := fun r => dirichlet_mean_log psi 2 (pair_rows tau1 tau0) r 0%nat.
Definition beta_mean_lognot (psi : R -> R) (tau1 tau0 : vec) : vec := fun r => dirichlet_mean_log psi 2 (pair_rows tau1 tau0) r 1%nat.
Definition beta_lp (lgam : R -> R) (rows : nat) (tau1 tau0 p : vec) : result (nat -> er) :=
  dirichlet_lp lgam rows 2 (pair_rows tau1 tau0) (pair_rows p (fun r => 1 - p r)).
Definition beta_negentropy_with (lgam : R -> R) (rows rowsE : nat) (tau1 tau0 E_ln_p E_ln_notp : vec) : R :=
  dirichlet_negentropy_with lgam rows rowsE 2 (pair_rows tau1 tau0) (pair_rows E_ln_p E_ln_notp).
Definition beta_negentropy (lgam psi : R -> R) (rows : nat) (tau1 tau0 : vec) : R :=
  dirichlet_negentropy lgam psi rows 2 (pair_rows tau1 tau0).
(** distributions.py 217-223: the overriding expectations are used only when both are given. *)
Definition beta_negentropy_args (lgam psi : R -> R) (rows rowsE : nat) (tau1 tau0 : vec) (E_ln_p E_ln_notp : option vec) : R :=
  match E_ln_p, E_ln_notp with
  | Some a, Some b => beta_negentropy_with lgam rows rowsE tau1 tau0 a b
  | _, _ => beta_negentropy lgam psi rows tau1 tau0
  end.
