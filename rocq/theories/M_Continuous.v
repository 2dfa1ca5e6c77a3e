(** * M_Continuous: model of the continuous-time network Hawkes model
    (pyhawkes/models.py 1408-1868, internals/continuous_time_helpers.pyx, internals/parents.py 483-642,
    internals/impulses.py 331-423, internals/weights.py 503-691, utils/utils.py logistic/logit/sample_nig). *)
From Verif Require Import Prelude ExtReal Arrays M_Basis M_Parents M_Discrete M_Gibbs M_Dist M_Network M_Sweep.
Set Implicit Arguments.
Open Scope R_scope.

(* ---------------- utils ---------------- *)
(** utils.py 63-64, logistic(x, lam_max) *)
Definition logistic (lam_max x : R) : R := lam_max * 1 / (1 + exp (- x)).
(** utils.py 66-67, logit(x, lam_max) on the open interval (finite values). *)
Definition logit (lam_max x : R) : R := ln (x / lam_max) - ln (1 - x / lam_max).

(* ---------------- impulse responses ---------------- *)
(** impulses.py 364-372, [impulse]: float arithmetic with NumPy's infinities (logit(0) = -inf, 1/0. = inf). *)
Definition py_impulse (dt_max dt mu tau : R) : er :=
  let Z := dt * (dt_max - dt) / dt_max * sqrt (2 * PI / tau) in
  let x := ediv (Fin dt) (Fin dt_max) in
  let lg := esub (elog x) (elog (esub (Fin 1) x)) in
  let d := esub lg (Fin mu) in
  emul (ediv (Fin 1) (Fin Z)) (eexp (emul (Fin (- tau / 2)) (emul d d))).

(** continuous_time_helpers.pyx 16: the constant compiled in. *)
Definition SQRT_2PI : R := 25066282746310002 / 10 ^ 16.
Definition eps : R := / 10 ^ 8.
(** continuous_time_helpers.pyx 20-21 *)
Definition c_logit (p : R) : R := ln (p / (1 - p)).
(** continuous_time_helpers.pyx 23-35, [ln_impulse] *)
Definition ln_impulse (dt mu tau dt_max : R) : R :=
  if Rltb dt eps then 0
  else if Rltb (dt_max - dt) eps then 0
  else let Z := dt * (dt_max - dt) / dt_max * SQRT_2PI / sqrt tau in
       exp (- tau / 2 * (c_logit (dt / dt_max) - mu) ^ 2) / Z.

(* ---------------- data ---------------- *)
(** parents.py 491-513: one data set.  [cd_imp] is the 3xKxK statistics array (the constructor's KxK array of zeros
    behaves as zeros when added to a 3xKxK array). *)
Record ctdata := { cd_N : nat; cd_S : vec; cd_C : nat -> nat; cd_T : R; cd_Z : nat -> Z;
                   cd_bkgd : vec; cd_weight : mat; cd_imp : ten }.
(** np.bincount(C, minlength=K) *)
Definition ct_Ns (N : nat) (C : nat -> nat) (k : nat) : Z := Zsum N (fun n => b2Z (Nat.eqb (C n) k)).
Definition cd_Ns (d : ctdata) (k : nat) : Z := ct_Ns (cd_N d) (cd_C d) k.
Definition cd_with (d : ctdata) (Z_ : nat -> Z) (b : vec) (w : mat) (i : ten) : ctdata :=
  {| cd_N := cd_N d; cd_S := cd_S d; cd_C := cd_C d; cd_T := cd_T d; cd_Z := Z_; cd_bkgd := b; cd_weight := w; cd_imp := i |}.

(** Hyperparameters and state of a model. *)
Record ctmodel := { cm_K : nat; cm_dtmax : R; cm_lam : vec; cm_A : bmat; cm_W : mat; cm_mu : mat; cm_tau : mat;
                    cm_net : netobj; cm_data : list ctdata;
                    cm_alpha : R; cm_beta : R; cm_mu0 : R; cm_lmbda0 : R; cm_alpha0 : R; cm_beta0 : R; cm_par : bool }.
Definition cm_set (m : ctmodel) (lam : vec) (A : bmat) (W mu tau : mat) (no : netobj) (data : list ctdata) : ctmodel :=
  {| cm_K := cm_K m; cm_dtmax := cm_dtmax m; cm_lam := lam; cm_A := A; cm_W := W; cm_mu := mu; cm_tau := tau;
     cm_net := no; cm_data := data; cm_alpha := cm_alpha m; cm_beta := cm_beta m; cm_mu0 := cm_mu0 m;
     cm_lmbda0 := cm_lmbda0 m; cm_alpha0 := cm_alpha0 m; cm_beta0 := cm_beta0 m; cm_par := cm_par m |}.
Definition cm_with_data (m : ctmodel) (data : list ctdata) : ctmodel :=
  cm_set m (cm_lam m) (cm_A m) (cm_W m) (cm_mu m) (cm_tau m) (cm_net m) data.
(** weights.py 530-532 *)
Definition ct_W_effective (m : ctmodel) : mat := fun k1 k2 => b2R (cm_A m k1 k2) * cm_W m k1 k2.

(** Arguments of add_data: what isinstance, ndim/shape and dtype report, and the entries. *)
Record tval := { tv_isarray : bool; tv_dims : list nat; tv_isfloat : bool; tv_at : vec }.
Record ival := { iv_isarray : bool; iv_dims : list nat; iv_isint : bool; iv_at : nat -> Z }.
(** len(x): the first dimension; a 0-d array has none (TypeError). *)
Definition py_len (dims : list nat) : result nat := match dims with n :: _ => Ok n | [] => Raise TypeError end.
(** models.py 1560-1590, [add_data]; parents.py 497-513 (constructor of the parents).  A non-array argument of length 0
    fails at S.ndim / C.shape. *)
Definition ct_add_data (m : ctmodel) (S_ : tval) (C_ : ival) (T : R) (T_isfloat : bool) : result ctmodel :=
  do _ <- guard T_isfloat AssertionError ;;
  do n <- py_len (tv_dims S_) ;;
  do _ <- (if Nat.ltb 0 n then
             do _ <- guard (tv_isarray S_ && Nat.eqb (length (tv_dims S_)) 1
                            && forall_lt n (fun i => Rleb 0 (tv_at S_ i) && Rltb (tv_at S_ i) T)
                            && tv_isfloat S_)%bool AssertionError ;;
             guard (forall_lt (n - 1) (fun i => Rleb 0 (tv_at S_ (S i) - tv_at S_ i))) AssertionError
           else Ok tt) ;;
  do c <- py_len (iv_dims C_) ;;
  do _ <- (if Nat.ltb 0 c then
             do _ <- guard (iv_isarray C_) AssertionError ;;
             do _ <- guard (tv_isarray S_) AttributeError ;;                                       (* S.shape of a list *)
             guard (dims_eqb (iv_dims C_) (tv_dims S_)
                    && forall_lt c (fun i => Z.leb 0 (iv_at C_ i) && Z.ltb (iv_at C_ i) (Z.of_nat (cm_K m)))
                    && iv_isint C_)%bool AssertionError
           else Ok tt) ;;
  do _ <- guard (tv_isarray S_) AttributeError ;;
  do _ <- (if Nat.eqb (length (tv_dims S_)) 1 then guard (iv_isarray C_) AttributeError else Raise AssertionError) ;;
  do _ <- guard (dims_eqb (tv_dims S_) (iv_dims C_)) AssertionError ;;
  do _ <- guard (iv_isint C_) AssertionError ;;
  let C := fun i => Z.to_nat (iv_at C_ i) in
  let d := {| cd_N := n; cd_S := tv_at S_; cd_C := C; cd_T := T; cd_Z := fun _ => (-1)%Z;
              cd_bkgd := fun k => IZR (ct_Ns n C k); cd_weight := fun _ _ => 0; cd_imp := fun _ _ _ => 0 |} in
  Ok (cm_with_data m (cm_data m ++ [d])).

(* ---------------- the backward scan ---------------- *)
(** for par in range(n-1, -1, -1): if skip: continue; if stop: break; acc += w[par].  Returns the accumulator and the
    value of par after the loop (0 after a complete loop; the loop runs at least once where par is used). *)
Fixpoint back_scan (skip stop : nat -> bool) (w : nat -> R) (n : nat) (acc : R) : R * nat :=
  match n with
  | O => (acc, O)
  | S par => if skip par then back_scan skip stop w par acc
             else if stop par then (acc, par)
             else back_scan skip stop w par (acc + w par)
  end.
(** W[C[par], C[n]] * ln_impulse(S[n]-S[par], ...) *)
Definition ct_w (S_ : vec) (C : nat -> nat) (dt_max : R) (W mu tau : mat) (n par : nat) : R :=
  W (C par) (C n) * ln_impulse (S_ n - S_ par) (mu (C par) (C n)) (tau (C par) (C n)) dt_max.

(** continuous_time_helpers.pyx 187-220, [compute_rate_at_events], one iteration of the parallel loop (lmbda starts at 0). *)
Definition ct_rate_one (S_ : vec) (C : nat -> nat) (dt_max : R) (lam : vec) (W mu tau : mat) (n : nat) : R :=
  fst (back_scan (fun par => Rltb (S_ n - S_ par) eps)
                 (fun par => Rleb (dt_max - eps) (S_ n - S_ par))
                 (fun par => if Rltb 0 (W (C par) (C n)) then ct_w S_ C dt_max W mu tau n par else 0)
                 n (0 + lam (C n))).
(** prange: the iterations run in any order, each writing its own entry. *)
Definition ct_rate_at_events (order : list nat) (S_ : vec) (C : nat -> nat) (dt_max : R) (lam : vec) (W mu tau : mat) : vec :=
  run_tasks order (ct_rate_one S_ C dt_max lam W mu tau) (fun _ => 0).
(** models.py 1703-1742, model.compute_rate_at_events(data) *)
Definition ct_model_rate (order : list nat) (m : ctmodel) (d : ctdata) : vec :=
  ct_rate_at_events order (cd_S d) (cd_C d) (cm_dtmax m) (cm_lam m) (ct_W_effective m) (cm_mu m) (cm_tau m).

(** continuous_time_helpers.pyx 223-252, [compute_weighted_impulses_at_events]: lmbda[n, cp] += ... *)
Fixpoint back_scan_vec (skip stop : nat -> bool) (w : nat -> R) (C : nat -> nat) (n : nat) (acc : vec) : vec :=
  match n with
  | O => acc
  | S par => if skip par then back_scan_vec skip stop w C par acc
             else if stop par then acc
             else back_scan_vec skip stop w C par (upd acc (C par) (acc (C par) + w par))
  end.
Definition ct_irs_one (S_ : vec) (C : nat -> nat) (dt_max : R) (W mu tau : mat) (n : nat) : vec :=
  back_scan_vec (fun par => Rltb (S_ n - S_ par) eps)
                (fun par => Rleb (dt_max - eps) (S_ n - S_ par))
                (ct_w S_ C dt_max W mu tau n) C n (fun _ => 0).
Definition ct_irs (order : list nat) (m : ctmodel) (d : ctdata) : mat :=
  run_tasks order (ct_irs_one (cd_S d) (cd_C d) (cm_dtmax m) (cm_W m) (cm_mu m) (cm_tau m)) (fun _ _ => 0).

(* ---------------- parents ---------------- *)
(** The forward scan, pyx 146-156: for par in range(min_par, n). [k] counts the remaining iterations. *)
Fixpoint fwd_scan (usable : nat -> bool) (p : nat -> R) (denom u : R) (par k : nat) (acc : R) : Z :=
  match k with
  | O => (-2)%Z
  | S k' => if usable par then
              let acc' := acc + p par / denom in
              if Rltb u acc' then Z.of_nat par else fwd_scan usable p denom u (S par) k' acc'
            else fwd_scan usable p denom u (S par) k' acc
  end.
(** continuous_time_helpers.pyx 96-156, [ct_resample_Z_logistic_normal], one iteration; u n uniform.
    cdivision is off: division by a zero denominator raises. *)
Definition ct_parent (S_ : vec) (C : nat -> nat) (dt_max : R) (lam : vec) (W mu tau : mat) (u : vec) (n : nat) : result Z :=
  match n with
  | O => Ok (-1)%Z
  | _ =>
    let w := ct_w S_ C dt_max W mu tau n in
    let skip := fun par => Rltb (S_ n - S_ par) eps in
    let '(denom, min_par) := back_scan skip (fun par => Rltb (dt_max - eps) (S_ n - S_ par)) w n (lam (C n)) in
    if Reqb denom 0 then Raise ZeroDivisionError
    else
      let acc := lam (C n) / denom in
      if Rltb (u n) acc then Ok (-1)%Z
      else Ok (fwd_scan (fun par => (negb (skip par) && Rleb (S_ n - S_ par) (dt_max - eps))%bool)
                        w denom (u n) min_par (n - min_par) acc)
  end.

(** The serial version, pyx 37-94, with its buffer p of probabilities: the backward loop... *)
Fixpoint back_scan_buf (skip stop : nat -> bool) (w : nat -> R) (n : nat) (acc : R) (p : vec) : R * nat * vec :=
  match n with
  | O => (acc, O, p)
  | S par => if skip par then back_scan_buf skip stop w par acc (upd p par 0)
             else if stop par then (acc, par, upd p par 0)
             else back_scan_buf skip stop w par (acc + w par) (upd p par (w par))
  end.
(** ... and one iteration; returns the parent and the buffer left behind. *)
Definition ct_parent_serial (S_ : vec) (C : nat -> nat) (dt_max : R) (lam : vec) (W mu tau : mat) (u : vec) (n : nat) (p : vec)
  : result (Z * vec) :=
  match n with
  | O => Ok ((-1)%Z, p)
  | _ =>
    let w := ct_w S_ C dt_max W mu tau n in
    let '(denom, min_par, p') := back_scan_buf (fun par => Rltb (S_ n - S_ par) eps) (fun par => Rltb (dt_max - eps) (S_ n - S_ par))
                                               w n (lam (C n)) p in
    if Reqb denom 0 then Raise ZeroDivisionError
    else
      let acc := lam (C n) / denom in
      if Rltb (u n) acc then Ok ((-1)%Z, p')
      else Ok (fwd_scan (fun _ => true) p' denom (u n) min_par (n - min_par) acc, p')
  end.
Fixpoint ct_serial_loop (S_ : vec) (C : nat -> nat) (dt_max : R) (lam : vec) (W mu tau : mat) (u : vec)
    (ns : list nat) (Z_ : nat -> Z) (p : vec) : result (nat -> Z) :=
  match ns with
  | [] => Ok Z_
  | n :: ns' => do r <- ct_parent_serial S_ C dt_max lam W mu tau u n p ;;
                let '(z, p') := r in ct_serial_loop S_ C dt_max lam W mu tau u ns' (upd Z_ n z) p'
  end.

(** The parallel loop over events: iterations in any order; an exception in any of them propagates. *)
Fixpoint run_tasks_r {A} (order : list nat) (task : nat -> result A) (slots : nat -> A) : result (nat -> A) :=
  match order with
  | [] => Ok slots
  | k :: rest => do x <- task k ;; run_tasks_r rest task (upd slots k x)
  end.
Definition ct_resample_Z (order : list nat) (S_ : vec) (C : nat -> nat) (dt_max : R) (lam : vec) (W mu tau : mat) (u : vec) (Z0 : nat -> Z)
  : result (nat -> Z) :=
  run_tasks_r order (ct_parent S_ C dt_max lam W mu tau u) Z0.

(** continuous_time_helpers.pyx 158-184, [ct_compute_suff_stats]. First pass. *)
Definition sdt (dt_max dt : R) : R := ln dt - ln (dt_max - dt).
Definition upd_add2 (f : mat) (i j : nat) (x : R) : mat := upd2 f i j (f i j + x).
Definition ss_pass1 (S_ : vec) (C : nat -> nat) (Z_ : nat -> Z) (dt_max : R) (st : vec * mat * mat * mat) (n : nat) : vec * mat * mat * mat :=
  let '(bk, ws, i0, i1) := st in
  let par := Z_ n in
  if Z.eqb par (-1) then (upd bk (C n) (bk (C n) + 1), ws, i0, i1)
  else let cp := C (Z.to_nat par) in
       (bk, upd_add2 ws cp (C n) 1, upd_add2 i0 cp (C n) 1, upd_add2 i1 cp (C n) (sdt dt_max (S_ n - S_ (Z.to_nat par)))).
(** Second pass. *)
Definition ss_pass2 (S_ : vec) (C : nat -> nat) (Z_ : nat -> Z) (dt_max : R) (mu : mat) (i2 : mat) (n : nat) : mat :=
  let par := Z_ n in
  if Z.ltb (-1) par then let cp := C (Z.to_nat par) in
    upd_add2 i2 cp (C n) ((sdt dt_max (S_ n - S_ (Z.to_nat par)) - mu cp (C n)) ^ 2)
  else i2.
(** np.isfinite(imp_ss).all() holds exactly when every attributed delay lies strictly between 0 and dt_max (otherwise a
    logarithm is infinite or NaN); entries of mu where the count is 0 are 0/0 but never read. *)
Definition ct_suff_stats (N : nat) (S_ : vec) (C : nat -> nat) (Z_ : nat -> Z) (dt_max : R) : result (vec * mat * ten) :=
  let '(bk, ws, i0, i1) := fold_left (ss_pass1 S_ C Z_ dt_max) (seq 0 N) (fun _ => 0, fun _ _ => 0, fun _ _ => 0, fun _ _ => 0) in
  let i2 := fold_left (ss_pass2 S_ C Z_ dt_max (fun a b => i1 a b / i0 a b)) (seq 0 N) (fun _ _ => 0) in
  do _ <- guard (forall_lt N (fun n => (Z.eqb (Z_ n) (-1) || (Rltb 0 (S_ n - S_ (Z.to_nat (Z_ n))) && Rltb (S_ n - S_ (Z.to_nat (Z_ n))) dt_max))%bool)) AssertionError ;;
  Ok (bk, ws, fun j a b => match j with 0%nat => i0 a b | 1%nat => i1 a b | _ => i2 a b end).

(** parents.py 521-543, [resample] of one data set; order is the schedule of the parallel loop. *)
Definition ct_parents_resample (m : ctmodel) (order : list nat) (u : vec) (d : ctdata) : result ctdata :=
  do Z_ <- ct_resample_Z order (cd_S d) (cd_C d) (cm_dtmax m) (cm_lam m) (ct_W_effective m) (cm_mu m) (cm_tau m) u (cd_Z d) ;;
  do _ <- guard (forall_lt (cd_N d) (fun n => Z.ltb (-2) (Z_ n))) AssertionError ;;
  do _ <- guard (forall_lt (cd_N d) (fun n => Z.ltb (Z_ n) (Z.of_nat n))) AssertionError ;;
  do ss <- ct_suff_stats (cd_N d) (cd_S d) (cd_C d) Z_ (cm_dtmax m) ;;
  let '(bk, ws, im) := ss in
  do _ <- guard (forall_lt (cm_K m) (fun k => Reqb (bk k + Rsum (cm_K m) (fun k1 => ws k1 k)) (IZR (cd_Ns d k)))) AssertionError ;;
  Ok (cd_with d Z_ bk ws im).

(* ---------------- likelihood ---------------- *)
(** models.py 1744-1766, [compute_integrated_rate] *)
Definition ct_integrated (m : ctmodel) (d : ctdata) (k : nat) : R :=
  cm_lam m k * cd_T d + Rsum (cm_K m) (fun k1 => ct_W_effective m k1 k * IZR (cd_Ns d k1)).
(** models.py 1778-1799, [log_likelihood] over a list of data sets. *)
Definition ct_ll_data (order : ctdata -> list nat) (m : ctmodel) (d : ctdata) : er :=
  eadd (Fin (- Rsum (cm_K m) (ct_integrated m d))) (esum (cd_N d) (fun n => elog (Fin (ct_model_rate (order d) m d n)))).
Definition ct_log_likelihood (order : ctdata -> list nat) (m : ctmodel) (data : option (list ctdata)) : er :=
  fold_left (fun ll d => eadd ll (ct_ll_data order m d)) (match data with Some l => l | None => cm_data m end) (Fin 0).
(** models.py 1811-1814, [heldout_log_likelihood]: add, pop, evaluate.  Returns the outcome and the model left behind. *)
Definition ct_heldout (order : ctdata -> list nat) (m : ctmodel) (S_ : tval) (C_ : ival) (T : R) (T_isfloat : bool) : result er * ctmodel :=
  match ct_add_data m S_ C_ T T_isfloat with
  | Raise e => (Raise e, m)
  | Ok m1 =>
    match rev (cm_data m1) with
    | [] => (Raise IndexError, m1)
    | d :: rest => let m2 := cm_with_data m1 (rev rest) in (Ok (ct_log_likelihood order m2 (Some [d])), m2)
    end
  end.

(** models.py 1816-1842, [compute_rate(S, C, T, dt)] at a grid point t for process k.  rate[t_deltas, k] += imps assigns
    rate[t,k] + imp for each (t, n) in turn: of several events in the window of one grid point only the last survives.
    The weights do not enter. *)
Definition ct_compute_rate (m : ctmodel) (N : nat) (S_ : vec) (C : nat -> nat) (t : R) (k : nat) : er :=
  let base := Fin (0 + cm_lam m k) in
  fold_left (fun cur n => let delta := t - S_ n in
      if (Rltb 0 delta && Rltb delta (cm_dtmax m))%bool
      then eadd base (py_impulse (cm_dtmax m) delta (cm_mu m (C n) k) (cm_tau m (C n) k)) else cur) (seq 0 N) base.

(** impulses.py 353-361, [impulses]: np.linspace(0, dt_max, 50) (NumPy sets the last point to the end exactly). *)
Definition linspace50 (dt_max : R) (j : nat) : R := if Nat.eqb j 49 then dt_max else INR j * (dt_max / 49).
Definition ct_impulses (m : ctmodel) (j k1 k2 : nat) : er := py_impulse (cm_dtmax m) (linspace50 (cm_dtmax m) j) (cm_mu m k1 k2) (cm_tau m k1 k2).
(** models.py 1839-1845, [compute_impulses(dt)]: grid 0, dt, 2 dt, ... below dt_max, then dt_max; returns values and grid. *)
Definition ct_impulse_grid (m : ctmodel) (dt : R) (j : nat) : R :=
  if Nat.ltb j (arange_len (cm_dtmax m) dt) then INR j * dt else cm_dtmax m.
Definition ct_compute_impulses (m : ctmodel) (dt : R) (j k1 k2 : nat) : er :=
  py_impulse (cm_dtmax m) (ct_impulse_grid m dt j) (cm_mu m k1 k2) (cm_tau m k1 k2).

(* ---------------- parameter updates ---------------- *)
(** bias.py 193-210 through M_Gibbs.ct_bias_request. *)
Definition cd_stat (d : ctdata) : ct_stat := {| cs_bkgd := cd_bkgd d; cs_T := cd_T d |}.
Definition ct_bias_resample (g : gam1) (m : ctmodel) (data : list ctdata) : vec :=
  fun k => let '(a, s) := ct_bias_request (cm_alpha m) (cm_beta m) (map cd_stat data) k in g k a s.

(** impulses.py 392-416: pooled statistics and the parameters requested from sample_nig: (mu, lambda, alpha, beta).
    np.nan_to_num maps 0/0 to 0. *)
Definition nig_stats (data : list ctdata) (j k1 k2 : nat) : R := 0 + pool (fun d => cd_imp d j k1 k2) data.
Definition nig_post (mu0 lmbda0 alpha0 beta0 n s1 s2 : R) : R * R * R * R :=
  let xbar := if Reqb n 0 then 0 else s1 / n in
  ((lmbda0 * mu0 + n * xbar) / (lmbda0 + n), lmbda0 + n, alpha0 + n / 2,
   beta0 + 1 / 2 * s2 + 1 / 2 * lmbda0 * n * (xbar - mu0) ^ 2 / (lmbda0 + n)).
Definition ct_imp_request (m : ctmodel) (data : list ctdata) (k1 k2 : nat) : R * R * R * R :=
  nig_post (cm_mu0 m) (cm_lmbda0 m) (cm_alpha0 m) (cm_beta0 m)
    (nig_stats data 0 k1 k2) (nig_stats data 1 k1 k2) (nig_stats data 2 k1 k2).
(** utils.py 69-75, [sample_nig]: tau ~ gamma(alpha, scale 1/beta), mu ~ normal(mu0, sqrt(1/(lambda tau))). *)
Definition sample_nig (g : R -> R -> R) (nrm : R -> R -> R) (q : R * R * R * R) : R * R :=
  let '(mu0, lmbda0, alpha0, beta0) := q in
  let tau := g alpha0 (1 / beta0) in (nrm mu0 (sqrt (1 / (lmbda0 * tau))), tau).
Definition ct_imp_resample (g nrm : nat -> nat -> R -> R -> R) (m : ctmodel) (data : list ctdata) : nat -> nat -> R * R :=
  fun k1 k2 => sample_nig (g k1 k2) (nrm k1 k2) (ct_imp_request m data k1 k2).

(** weights.py 658-666, [resample_W_given_A_and_z], with 677-682 (pooled statistics). *)
Definition ct_W_request (n : net) (A : bmat) (data : list ctdata) (k1 k2 : nat) : R * R :=
  (n_kappa n + (0 + pool (fun d => cd_weight d k1 k2) data),
   1 / (n_V n k1 k2 + (0 + pool (fun d => IZR (cd_Ns d k1)) data) * b2R (A k1 k2))).
Definition ct_W_resample (g : gam2) (n : net) (A : bmat) (data : list ctdata) : mat :=
  fun k1 k2 => let '(a, s) := ct_W_request n A data k1 k2 in g k1 k2 a s.

(** weights.py 586-599 and parallel_adjacency_resampling.py 99-114: log likelihood of the events of process k given
    column a of A; irs d is the matrix of weighted impulses (without A). *)
Definition ct_ll_single_data (m : ctmodel) (irs : ctdata -> mat) (k : nat) (a : nat -> bool) (d : ctdata) : er :=
  let ll := Fin (0 - cm_lam m k * cd_T d) in
  let ll := esub ll (Fin (Rsum (cm_K m) (fun k1 => b2R (a k1) * cm_W m k1 k * IZR (cd_Ns d k1)))) in
  eadd ll (esum (cd_N d) (fun n => if Nat.eqb (cd_C d n) k
     then elog (Fin (cm_lam m k + Rsum (cm_K m) (fun k1 => b2R (a k1) * irs d n k1))) else Fin 0)).
Definition ct_ll_single (m : ctmodel) (irs : ctdata -> mat) (data : list ctdata) (k : nat) (a : nat -> bool) : er :=
  fold_left (fun s d => eadd s (ct_ll_single_data m irs k a d)) data (Fin 0).
(** weights.py 601-629, serial [_resample_A_given_W]: one pair. *)
Definition ct_edge_step (ll : nat -> (nat -> bool) -> er) (P u : mat) (A : bmat) (k1 k2 : nat) : bmat :=
  if Reqb (P k1 k2) 0 then upd2 A k1 k2 false
  else if Reqb (P k1 k2) 1 then upd2 A k1 k2 true
  else
    let A0 := upd2 A k1 k2 false in
    let ll0 := ll k2 (fun i => A0 i k2) in
    let A1 := upd2 A0 k1 k2 true in
    let ll1 := ll k2 (fun i => A1 i k2) in
    let lp0 := eadd ll0 (elog (Fin (1 - P k1 k2))) in
    let lp1 := eadd ll1 (elog (Fin (P k1 k2))) in
    upd2 A1 k1 k2 (accept (u k1 k2) lp0 lp1).
Definition ct_A_serial (ll : nat -> (nat -> bool) -> er) (P u : mat) (K : nat) (A : bmat) : bmat :=
  fold_left (fun A' k1 => fold_left (fun A'' k2 => ct_edge_step ll P u A'' k1 k2) (seq 0 K) A') (seq 0 K) A.
(** weights.py 634-656, [_joblib_resample_A_given_W], with parallel_adjacency_resampling.py 117-150. *)
Definition ct_A_parallel (order : list nat) (ll : nat -> (nat -> bool) -> er) (P u : mat) (K : nat) (A : bmat) : bmat :=
  let cols := run_tasks order (fun k2 => resample_column (ll k2) (fun k1 => P k1 k2) (fun k1 => u k1 k2) K (fun k1 => A k1 k2)) (fun _ _ => false) in
  fun k1 k2 => cols k2 k1.
(** weights.py 668-691, [resample]: W given A and the parents, then A given the new W.  [norder] schedules the parallel
    loops over events, [order] the workers over columns. *)
Definition ct_weights_resample (order : list nat) (norder : ctdata -> list nat) (g : gam2) (u : mat) (m : ctmodel) (data : list ctdata) : ctmodel :=
  let n := net_view (cm_net m) in
  let m := cm_set m (cm_lam m) (cm_A m) (ct_W_resample g n (cm_A m) data) (cm_mu m) (cm_tau m) (cm_net m) (cm_data m) in
  let ll := ct_ll_single m (fun d => ct_irs (norder d) m d) data in
  let A := if cm_par m then
             match data with
             | [] => fun k1 k2 => Rltb (u k1 k2) (n_P n k1 k2)
             | _ => ct_A_parallel order ll (n_P n) u (cm_K m) (cm_A m)
             end
           else ct_A_serial ll (n_P n) u (cm_K m) (cm_A m) in
  cm_set m (cm_lam m) A (cm_W m) (cm_mu m) (cm_tau m) (cm_net m) (cm_data m).

(** Everything drawn (or scheduled) in one sweep. *)
Record ct_draws := { td_u : nat -> vec; td_norder : ctdata -> list nat; td_bias : gam1; td_g : nat -> nat -> R -> R -> R;
                     td_nrm : nat -> nat -> R -> R -> R; td_net : gibbs_draws; td_er : R -> R -> R; td_W : gam2;
                     td_uA : mat; td_order : list nat }.
Fixpoint ct_resample_all (m : ctmodel) (dr : ct_draws) (i : nat) (data : list ctdata) : result (list ctdata) :=
  match data with
  | [] => Ok []
  | d :: rest => do d' <- ct_parents_resample m (td_norder dr d) (td_u dr i) d ;;
                 do rest' <- ct_resample_all m dr (S i) rest ;; Ok (d' :: rest')
  end.
(** models.py 1853-1868, [resample_model]: parents, bias, impulse parameters, network, weights. *)
Definition ct_sweep (lgam : R -> R) (dr : ct_draws) (m : ctmodel) : result ctmodel :=
  do data <- ct_resample_all m dr 0 (cm_data m) ;;
  let m := cm_with_data m data in
  let m := cm_set m (ct_bias_resample (td_bias dr) m data) (cm_A m) (cm_W m) (cm_mu m) (cm_tau m) (cm_net m) data in
  let mt := ct_imp_resample (td_g dr) (td_nrm dr) m data in
  let m := cm_set m (cm_lam m) (cm_A m) (cm_W m) (fun a b => fst (mt a b)) (fun a b => snd (mt a b)) (cm_net m) data in
  let no := net_resample lgam (td_net dr) (td_er dr) (cm_A m) (cm_W m) (cm_net m) in
  let m := cm_set m (cm_lam m) (cm_A m) (cm_W m) (cm_mu m) (cm_tau m) no data in
  Ok (ct_weights_resample (td_order dr) (td_norder dr) (td_W dr) (td_uA dr) m data).

(** models.py 1422-1472, [__init__] with the network already built: bias.py 157-158 and impulses.py 347-351 draw from the
    prior; weights.py 515-517 start from A = ones, W = zeros and call resample() without data. *)
Definition ct_construct (K : nat) (dt_max alpha beta mu0 lmbda0 alpha0 beta0 : R) (par : bool) (no : netobj) (dr : ct_draws) : ctmodel :=
  let m0 := {| cm_K := K; cm_dtmax := dt_max; cm_lam := fun _ => 0; cm_A := fun _ _ => true; cm_W := fun _ _ => 0;
              cm_mu := fun _ _ => 0; cm_tau := fun _ _ => 0; cm_net := no; cm_data := [];
              cm_alpha := alpha; cm_beta := beta; cm_mu0 := mu0; cm_lmbda0 := lmbda0; cm_alpha0 := alpha0; cm_beta0 := beta0; cm_par := par |} in
  let mt := fun k1 k2 : nat => sample_nig (td_g dr k1 k2) (td_nrm dr k1 k2) (mu0 * 1, lmbda0 * 1, alpha0 * 1, beta0 * 1) in
  let m := cm_set m0 (ct_bias_resample (td_bias dr) m0 []) (cm_A m0) (cm_W m0) (fun a b => fst (mt a b)) (fun a b => snd (mt a b)) no [] in
  ct_weights_resample (td_order dr) (td_norder dr) (td_W dr) (td_uA dr) m [].

(** Histories. *)
Inductive ctop := CTAdd (S_ : tval) (C_ : ival) (T : R) (T_isfloat : bool)
  | CTHeldout (order : ctdata -> list nat) (S_ : tval) (C_ : ival) (T : R) (T_isfloat : bool)
  | CTSweep (dr : ct_draws).
Definition ct_step (lgam : R -> R) (o : ctop) (m : ctmodel) : result unit * ctmodel :=
  match o with
  | CTAdd S_ C_ T f => match ct_add_data m S_ C_ T f with Ok m' => (Ok tt, m') | Raise e => (Raise e, m) end
  | CTHeldout ord S_ C_ T f => match ct_heldout ord m S_ C_ T f with (Ok _, m') => (Ok tt, m') | (Raise e, m') => (Raise e, m') end
  | CTSweep dr => match ct_sweep lgam dr m with Ok m' => (Ok tt, m') | Raise e => (Raise e, m) end
  end.
