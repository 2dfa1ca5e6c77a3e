(** * M_Nonlinear: model of pyhawkes/standard_models.py (nonlinear Hawkes processes). *)
From Verif Require Import Prelude ExtReal Arrays M_Basis M_Parents M_Discrete M_MeanField M_Standard.
Set Implicit Arguments.
Open Scope R_scope.

(** The four node classes (standard_models.py 145-189). *)
Inductive nkind := Linear | Relu | Expo | Homog.
(** link: standard_models.py 156, 164, 172, 180 *)
Definition n_link (k : nkind) (psi : er) : er :=
  match k with
  | Linear | Homog => psi
  | Relu => eadd (Fin (/ 10 ^ 16)) (elog (eadd (Fin 1) (eexp psi)))
  | Expo => eexp psi
  end.
(** invlink: standard_models.py 159, 167, 175, 183 *)
Definition n_invlink (k : nkind) (lam : er) : er :=
  match k with
  | Linear | Homog => lam
  | Relu => elog (esub (eexp lam) (Fin 1))
  | Expo => elog lam
  end.

(** One (F, S) of a node: T bins, F has 1+K*B columns. *)
Record ndata := { nd_T : nat; nd_F : mat; nd_S : nat -> Z }.
(** A node (standard_models.py 36-43). Weights may become infinite or NaN. *)
Record nnode := { n_kind : nkind; n_K : nat; n_B : nat; n_dt : R; n_sigma : er; n_lmbda : er; n_w : nat -> er; n_data : list ndata }.
Definition n_with_data (n : nnode) (d : list ndata) : nnode :=
  {| n_kind := n_kind n; n_K := n_K n; n_B := n_B n; n_dt := n_dt n; n_sigma := n_sigma n; n_lmbda := n_lmbda n; n_w := n_w n; n_data := d |}.
Definition n_with_w (n : nnode) (w : nat -> er) : nnode :=
  {| n_kind := n_kind n; n_K := n_K n; n_B := n_B n; n_dt := n_dt n; n_sigma := n_sigma n; n_lmbda := n_lmbda n; n_w := w; n_data := n_data n |}.
Definition n_P (n : nnode) : nat := (1 + n_K n * n_B n)%nat.
(** standard_models.py 36-43, __init__: sigma and lmbda default to np.inf. *)
Definition n_init (k : nkind) (K B : nat) (dt : R) (sigma lmbda : option er) : nnode :=
  {| n_kind := k; n_K := K; n_B := B; n_dt := dt; n_sigma := match sigma with Some s => s | None => PInf end;
     n_lmbda := match lmbda with Some l => l | None => PInf end; n_w := fun _ => Fin 0; n_data := [] |}.

(** A two-dimensional array argument. *)
Record fmat := { fm_rows : nat; fm_cols : nat; fm_at : mat }.
(** The shape of np.hstack([a, b]): along axis 0 when the first array is one-dimensional, else along axis 1;
    all arrays must have the same number of dimensions and agree off the axis. *)
Definition np_hstack_shape (a b : list nat) : result (list nat) :=
  match a, b with
  | [n], [m] => Ok [(n + m)%nat]
  | [r1; c1], [r2; c2] => if Nat.eqb r1 r2 then Ok [r1; (c1 + c2)%nat] else Raise ValueError
  | _, _ => Raise ValueError
  end.
(** standard_models.py 45-54, node add_data(F, S); [slen] is len(S), [sint] whether its dtype is an accepted integer type.
    The bias column that the hstack would prepend is one-dimensional: np.ones((T,)). *)
Definition n_add_data (n : nnode) (F : fmat) (slen : nat) (sint : bool) (S_ : nat -> Z) : result nnode :=
  do _ <- guard (Nat.eqb slen (fm_rows F) && sint)%bool AssertionError ;;
  if Nat.eqb (fm_cols F) (n_K n * n_B n)
  then do _ <- np_hstack_shape [fm_rows F] [fm_rows F; fm_cols F] ;;
       Ok (n_with_data n (n_data n ++ [{| nd_T := fm_rows F; nd_F := fun t j => match j with O => 1 | S i => fm_at F t i end; nd_S := S_ |}]))
  else do _ <- guard (Nat.eqb (fm_cols F) (1 + n_K n * n_B n)) AssertionError ;;
       Ok (n_with_data n (n_data n ++ [{| nd_T := fm_rows F; nd_F := fm_at F; nd_S := S_ |}])).

(** F.dot(w) *)
Definition n_psi (P : nat) (w : nat -> er) (d : ndata) (t : nat) : er := esum P (fun j => emul (Fin (nd_F d t j)) (w j)).
(** (S * np.log(lam) - lam*self.dt).sum() *)
Definition n_ll_data (n : nnode) (w : nat -> er) (d : ndata) : er :=
  esum (nd_T d) (fun t => let lam := n_link (n_kind n) (n_psi (n_P n) w d t) in
    esub (emul (Fin (IZR (nd_S d t))) (elog lam)) (emul lam (Fin (n_dt n)))).
Definition n_at (n : nnode) (i : Z) : result ndata :=
  match py_index (length (n_data n)) i with
  | Some i => match nth_error (n_data n) i with Some d => Ok d | None => Raise IndexError end
  | None => Raise IndexError
  end.
(** standard_models.py 69-81, node log_likelihood *)
Definition n_log_likelihood (n : nnode) (index : option Z) : result er :=
  match index with
  | None => Ok (elsum (map (n_ll_data n (n_w n)) (n_data n)))
  | Some i => do d <- n_at n i ;; Ok (n_ll_data n (n_w n) d)
  end.

(** standard_models.py 83-98, objective(w).  N is a float; the sums are NumPy scalars, so dividing by N = 0.0 gives
    inf/nan rather than raising. *)
Definition n_total (n : nnode) : R := lsum (map (fun d => Rsum (nd_T d) (fun t => IZR (nd_S d t))) (n_data n)).
Definition n_objective (n : nnode) (w : vec) : er :=
  let N := Fin (n_total n) in
  let wf := fun j => Fin (w j) in
  let obj := fold_left (fun acc d => esub acc (ediv (n_ll_data n wf d) N)) (n_data n) (Fin 0) in
  let obj := eadd obj (ediv (ediv (Fin (1 / 2 * Rsum (n_P n - 1) (fun j => w (S j) * w (S j)))) (emul (n_sigma n) (n_sigma n))) N) in
  eadd obj (ediv (esum (n_P n - 1) (fun j => emul (Fin (Rabs (w (S j)))) (n_lmbda n))) N).

(** standard_models.py 56-67, initialize_to_background_rate.  N is an integer count, N/float(T) raises ZeroDivisionError
    for a Python float zero; S.sum() is a NumPy integer, so T = 0.0 gives nan instead. *)
Definition n_init_background (n : nnode) : nnode :=
  n_with_w n (fun j => match j, n_data n with
    | O, _ :: _ => n_invlink (n_kind n) (ediv (Fin (n_total n)) (Fin (lsum (map (fun d => INR (nd_T d) * n_dt n) (n_data n)))))
    | _, _ => Fin (/ 10 ^ 6)
    end).

(** standard_models.py 101-126 and 186-189, fit_with_bfgs; [x] is the optimiser's answer (scipy keeps it within the
    bounds when bounds are given). The homogeneous node only initialises. *)
Definition n_fit (n : nnode) (x : vec) : nnode :=
  match n_kind n with
  | Homog => let n1 := n_init_background n in n_with_w n1 (fun j => match j with O => n_w n1 0%nat | _ => Fin 0 end)
  | _ => n_with_w n (fun j => Fin (x j))
  end.
(** Bounds: only the linear node is constrained (146, 148-154, 107-108). *)
Definition n_in_bounds (n : nnode) (x : vec) : Prop :=
  match n_kind n with Linear => forall j, (j < n_P n)%nat -> / 10 ^ 16 <= x j | _ => True end.

(** A process (standard_models.py 192-230): nodes sharing K, B, dt, sigma, lmbda. *)
Record nproc := { p_K : nat; p_B : nat; p_L : nat; p_bas : mat; p_nodes : list nnode }.
Definition p_with_nodes (p : nproc) (ns : list nnode) : nproc :=
  {| p_K := p_K p; p_B := p_B p; p_L := p_L p; p_bas := p_bas p; p_nodes := ns |}.
(** __init__ (standard_models.py 200-230): sigma defaults to np.inf, lmbda to 0. *)
Definition p_init (k : nkind) (K B : nat) (dt : R) (sigma lmbda : option er) (L : nat) (bas : mat) : nproc :=
  {| p_K := K; p_B := B; p_L := L; p_bas := bas;
     p_nodes := map (fun _ => n_init k K B dt (Some (match sigma with Some s => s | None => PInf end))
                                            (Some (match lmbda with Some l => l | None => Fin 0 end))) (seq 0 K) |}.

Definition n_w_at (p : nproc) (k j : nat) : er := match nth_error (p_nodes p) k with Some n => n_w n j | None => NaN end.
(** W (236-246), G (248-267), bias (269-272): read from fresh copies of the nodes' weights. *)
Definition p_W (p : nproc) (k1 k2 : nat) : er := esum (p_B p) (fun b => n_w_at p k2 (1 + (k1 * p_B p + b))%nat).
Definition p_G0 (p : nproc) (k1 k2 b : nat) : er := ediv (n_w_at p k2 (1 + (k1 * p_B p + b))%nat) (p_W p k1 k2).
Definition p_G (p : nproc) (k1 k2 b : nat) : er :=
  if elt (esum (p_B p) (fun b => p_G0 p k1 k2 b)) (Fin (/ 10 ^ 2)) then Fin (1 / INR (p_B p)) else p_G0 p k1 k2 b.
Definition p_bias (p : nproc) (k : nat) : er := n_w_at p k 0.

(** The loop over the nodes (305-306); an exception leaves the nodes visited so far updated. *)
Fixpoint p_add_nodes (F : fmat) (T : nat) (S_ : imat) (ns : list nnode) (k : nat) : list nnode * result unit :=
  match ns with
  | [] => ([], Ok tt)
  | n :: ns' =>
    match n_add_data n F T true (fun t => S_ t k) with
    | Raise e => (n :: ns', Raise e)
    | Ok n' => let (r, e) := p_add_nodes F T S_ ns' (S k) in (n' :: r, e)
    end
  end.
(** standard_models.py 274-306, add_data, with the state left behind. *)
Definition p_add_data (p : nproc) (s : sval) (f : option fmat) : nproc * result unit :=
  match check_S (p_K p) s with
  | Raise e => (p, Raise e)
  | Ok T =>
    let rF := match f with
      | Some F => Ok F
      | None => do F <- convolve_with_basis T (p_K p) (sv_at s) (p_L p) (p_B p) (p_bas p) ;;
                if Nat.eqb (p_B p) 0 then Raise IndexError
                else do sh <- np_hstack_shape [T; 1%nat] [T; (p_K p * p_B p)%nat] ;;
                     match sh with [r; c] => Ok {| fm_rows := r; fm_cols := c; fm_at := flatten_F (p_B p) F |} | _ => Raise ValueError end
      end in
    match rF with
    | Raise e => (p, Raise e)
    | Ok F => let (ns, r) := p_add_nodes F T (sv_at s) (p_nodes p) 0 in (p_with_nodes p ns, r)
    end
  end.

(** del l[index] *)
Definition del_nth {A} (l : list A) (i : Z) : result (list A) :=
  match py_index (length l) i with Some i => Ok (firstn i l ++ skipn (S i) l) | None => Raise IndexError end.
(** standard_models.py 308-310, remove_data *)
Fixpoint p_remove_nodes (ns : list nnode) (i : Z) : list nnode * result unit :=
  match ns with
  | [] => ([], Ok tt)
  | n :: ns' =>
    match del_nth (n_data n) i with
    | Raise e => (n :: ns', Raise e)
    | Ok d => let (r, e) := p_remove_nodes ns' i in (n_with_data n d :: r, e)
    end
  end.
Definition p_remove_data (p : nproc) (i : Z) : nproc * result unit :=
  let (ns, r) := p_remove_nodes (p_nodes p) i in (p_with_nodes p ns, r).

(** standard_models.py 312-314, log_likelihood *)
Fixpoint p_ll_nodes (ns : list nnode) (index : option Z) : result er :=
  match ns with
  | [] => Ok (Fin 0)
  | n :: ns' => do a <- n_log_likelihood n index ;; do b <- p_ll_nodes ns' index ;; Ok (eadd a b)
  end.
Definition p_log_likelihood (p : nproc) (index : option Z) : result er := p_ll_nodes (p_nodes p) index.

(** standard_models.py 316-320, heldout_log_likelihood *)
Definition p_heldout (p : nproc) (s : sval) (f : option fmat) : nproc * result er :=
  match p_add_data p s f with
  | (p1, Raise e) => (p1, Raise e)
  | (p1, Ok _) =>
    match p_log_likelihood p1 (Some (-1)%Z) with
    | Raise e => (p1, Raise e)
    | Ok v => match p_remove_data p1 (-1) with (p2, Raise e) => (p2, Raise e) | (p2, Ok _) => (p2, Ok v) end
    end
  end.

(** standard_models.py 322-335 and 129-142, copy_sample: a data-less copy, the original keeps its nodes. *)
Definition p_copy_sample (p : nproc) : nproc * nproc := (p, p_with_nodes p (map (fun n => n_with_data n []) (p_nodes p))).
(** standard_models.py 232-234 *)
Definition p_init_background (p : nproc) : nproc := p_with_nodes p (map n_init_background (p_nodes p)).

(** Histories of calls on a process; exceptions are caught by the caller. *)
Inductive nop := NAdd (s : sval) (f : option fmat) | NRemove (i : Z) | NHeldout (s : sval) (f : option fmat) | NInit | NFit (x : nat -> vec).
Definition n_op (p : nproc) (o : nop) : nproc :=
  match o with
  | NAdd s f => fst (p_add_data p s f)
  | NRemove i => fst (p_remove_data p i)
  | NHeldout s f => fst (p_heldout p s f)
  | NInit => p_init_background p
  | NFit x => p_with_nodes p (map (fun kn => n_fit (snd kn) (x (fst kn))) (combine (seq 0 (length (p_nodes p))) (p_nodes p)))
  end.
