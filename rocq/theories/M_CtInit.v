(** * M_CtInit: ContinuousTimeNetworkHawkesModel.initialize_with_standard_model (pyhawkes/models.py 1497-1551). *)
From Verif Require Import Prelude ExtReal Arrays M_Basis M_Parents M_Discrete M_Gibbs M_MeanField M_Standard M_Nonlinear M_Network M_Sweep M_Continuous.
Set Implicit Arguments.
Open Scope R_scope.

(** np.sqrt *)
Definition esqrt (x : er) : er :=
  match x with Fin a => if Rltb a 0 then NaN else Fin (sqrt a) | PInf => PInf | _ => NaN end.
(** impulses.py 364-372, [impulse], for every real tau (the optimiser tries negative precisions too; M_Continuous.py_impulse
    is the same formula for tau > 0). *)
Definition imp_any (dt_max dt mu tau : R) : er :=
  let Z := emul (Fin (dt * (dt_max - dt) / dt_max)) (esqrt (ediv (Fin (2 * PI)) (Fin tau))) in
  let x := ediv (Fin dt) (Fin dt_max) in
  let lg := esub (elog x) (elog (esub (Fin 1) x)) in
  let d := esub lg (Fin mu) in
  emul (ediv (Fin 1) Z) (eexp (emul (Fin (- tau / 2)) (emul d d))).

(** models.py 1518-1519: t_basis = np.clip(basis.dt * arange(L), 1e-6, dt_max - 1e-6); np.clip(x, lo, hi) = min(max(x, lo), hi). *)
Definition t_basis (bdt dt_max : R) (l : nat) : R := Rmin (Rmax (bdt * INR l) (/ 10 ^ 6)) (dt_max - / 10 ^ 6).
(** models.py 1522: basis.basis.dot(G[k1,k2,:]) *)
Definition std_ir (p : nproc) (k1 k2 l : nat) : er := esum (p_B p) (fun b => emul (Fin (p_bas p l b)) (p_G p k1 k2 b)).
(** models.py 1524-1529, [loss]: one residual per time point.  It stores its argument in mu[k1,k2], tau[k1,k2] on the way;
    those entries are set to the answer afterwards (1536-1537), and no other entry is read. *)
Definition ct_loss (dt_max bdt : R) (p : nproc) (k1 k2 : nat) (mutau : R * R) (l : nat) : er :=
  esub (imp_any dt_max (t_basis bdt dt_max l) (fst mutau) (snd mutau)) (std_ir p k1 k2 l).

(** scipy.optimize.leastsq(func, x0): the answer as a function of the residuals, their number and the start. *)
Definition lsq := (R * R -> nat -> er) -> nat -> R * R -> R * R.
(** models.py 1520-1537: the loop over pairs. *)
Definition ct_fit_pair (fit : lsq) (dt_max bdt : R) (p : nproc) (st : mat * mat) (ij : nat * nat) : mat * mat :=
  let '(mu, tau) := st in
  let '(k1, k2) := ij in
  let a := fit (ct_loss dt_max bdt p k1 k2) (p_L p) (mu k1 k2, tau k1 k2) in
  (upd2 mu k1 k2 (fst a), upd2 tau k1 k2 (snd a)).
Definition ct_fit_all (fit : lsq) (dt_max bdt : R) (p : nproc) (K : nat) (mu tau : mat) : mat * mat :=
  fold_left (ct_fit_pair fit dt_max bdt p) (list_prod (seq 0 K) (seq 0 K)) (mu, tau).

(** np.percentile with an array of levels: any level out of range raises. *)
Definition percentile_table (l : list R) (C : nat) (q : mat) : result mat :=
  if forall_lt C (fun i => forall_lt C (fun j => match percentile l (q i j) with Ok _ => true | Raise _ => false end))
  then Ok (fun i j => match percentile l (q i j) with Ok x => x | Raise _ => 0 end)
  else match l with [] => Raise IndexError | _ => Raise ValueError end.
(** models.py 1545-1546: A = W > np.percentile(W, (1.0 - network.p) * 100) with its shape.  network.p is a number for an
    Erdos-Renyi network of fixed sparsity and a C x C array for a block model; comparing a K x K array with a C x C one
    broadcasts when one of them is 1 x 1 and raises ValueError otherwise, unless C = K. *)
Definition ct_threshold (K : nat) (W : mat) (no : netobj) : result (nat * nat * bmat) :=
  match no with
  | NetEr n => do thr <- percentile (flat_mat K W) ((1 - e_p n) * 100) ;; Ok (K, K, fun i j => Rltb thr (W i j))
  | NetSbm _ s =>
      do thr <- percentile_table (flat_mat K W) (sb_C s) (fun i j => (1 - sb_p s i j) * 100) ;;
      if Nat.eqb (sb_C s) K then Ok (K, K, fun i j => Rltb (thr i j) (W i j))
      else if Nat.eqb (sb_C s) 1 then Ok (K, K, fun i j => Rltb (thr 0%nat 0%nat) (W i j))
      else if Nat.eqb K 1 then Ok (sb_C s, sb_C s, fun i j => Rltb (thr i j) (W 0%nat 0%nat))
      else Raise ValueError
  end.

(** models.py 1497-1551.  [is_std] is isinstance(standard_model, StandardHawkesProcess) (standard_models.py 345), [bdt] its
    basis' dt.  Returns the outcome (with the shape of the new A) and the model left behind.  The reads of the standard
    model (bias, W, G) build fresh arrays (standard_models.py 236-272), so it is not changed.  Simplification: an infinite or
    NaN weight of the standard model is read as 0.  leastsq evaluates its function at the start (which stores the values
    already there) and then raises TypeError when there are fewer residuals than the two unknowns. *)
Definition ct_init_with_std (fit : lsq) (is_std : bool) (p : nproc) (bdt : R) (m : ctmodel) : result (nat * nat) * ctmodel :=
  let K := cm_K m in
  if negb is_std then (Raise AssertionError, m)
  else if negb (Nat.eqb (p_K p) K) then (Raise AssertionError, m)
  else
    let lam := fun k => fval (p_bias p k) in
    let W := fun i j => Rmax (fval (p_W p i j)) (/ 10 ^ 16) in
    if (Nat.ltb 0 K && Nat.ltb (p_L p) 2)%bool then (Raise TypeError, m)
    else
      let mt := ct_fit_all fit (cm_dtmax m) bdt p K (cm_mu m) (cm_tau m) in
      let m1 := cm_set m (cm_lam m) (cm_A m) (cm_W m) (fst mt) (snd mt) (cm_net m) (cm_data m) in
      match ct_threshold K W (cm_net m) with
      | Raise e => (Raise e, m1)
      | Ok (r, c, A) => (Ok (r, c), cm_set m1 lam A W (fst mt) (snd mt) (cm_net m) (cm_data m))
      end.
