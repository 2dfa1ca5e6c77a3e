(** * M_Workers: where the random numbers of the parallel adjacency update come from.
    parallel_adjacency_resampling.py 38-81, 117-150 and weights.py 88-110, 634-656.

    NumPy's global generator is a stream g : nat -> R of uniforms and a position in it: np.random.rand() returns g pos and
    moves to pos + 1.  [Parallel(n_jobs=-1, backend="multiprocessing")] forks worker processes; each starts with a copy of the
    parent's generator (stream and position) and keeps its own position while it serves tasks; the parent's position does not
    move.  With one core joblib runs the tasks in the calling process instead, in the order of submission.
    Simplification: tasks are atomic (workers only read the model, see M_Gibbs) and are taken from the queue one column at a
    time; a schedule is the list of (worker, column) pairs in any interleaving. *)
From Verif Require Import Prelude ExtReal Arrays M_Basis M_Parents M_Discrete M_Gibbs M_Dist M_Network M_Sweep M_Continuous.
Set Implicit Arguments.
Open Scope R_scope.

(** parallel_adjacency_resampling.py 48-79 / 122-150: one row; a uniform is drawn (79 / 150) only if the edge is not deterministic. *)
Definition row_rng (ll : (nat -> bool) -> er) (p : vec) (g : vec) (s : (nat -> bool) * nat) (k1 : nat) : (nat -> bool) * nat :=
  let '(a, pos) := s in
  if Reqb (p k1) 0 then (upd a k1 false, pos)
  else if Reqb (p k1) 1 then (upd a k1 true, pos)
  else
    let a0 := upd a k1 false in
    let ll0 := ll a0 in
    let a1 := upd a0 k1 true in
    let ll1 := ll a1 in
    let lp0 := eadd ll0 (elog (Fin (1 - p k1))) in
    let lp1 := eadd ll1 (elog (Fin (p k1))) in
    (upd a1 k1 (accept (g pos) lp0 lp1), S pos).
(** 38-81 / 117-152: one task; the column and the worker's new position. *)
Definition column_rng (ll : (nat -> bool) -> er) (p : vec) (g : vec) (K : nat) (a : nat -> bool) (pos : nat) : (nat -> bool) * nat :=
  fold_left (row_rng ll p g) (seq 0 K) (a, pos).

(** The pool of workers: wpos w is the position of worker w's generator. *)
Fixpoint run_pool (task : nat -> nat -> (nat -> bool) * nat) (sched : list (nat * nat)) (wpos : nat -> nat) (cols : nat -> nat -> bool)
  : (nat -> nat -> bool) * (nat -> nat) :=
  match sched with
  | [] => (cols, wpos)
  | (w, k2) :: rest => let '(c, pos) := task k2 (wpos w) in run_pool task rest (upd wpos w pos) (upd cols k2 c)
  end.

(** How the tasks are executed: in the calling process (one core), or by forked workers. *)
Inductive pool := InProcess | Forked (sched : list (nat * nat)).
(** weights.py 108-110 / 654-656: the new matrix and the position of the caller's generator afterwards. *)
Definition parallel_rng (how : pool) (ll : nat -> (nat -> bool) -> er) (P : mat) (g : vec) (K : nat) (A : bmat) (pos : nat) : bmat * nat :=
  let task k2 := column_rng (ll k2) (fun k1 => P k1 k2) g K (fun k1 => A k1 k2) in
  match how with
  | InProcess => let '(cols, wpos) := run_pool task (map (fun k2 => (0%nat, k2)) (seq 0 K)) (fun _ => pos) (fun _ _ => false) in
                 (fun k1 k2 => cols k2 k1, wpos 0%nat)
  | Forked sched => let '(cols, _) := run_pool task sched (fun _ => pos) (fun _ _ => false) in (fun k1 k2 => cols k2 k1, pos)
  end.
(** weights.py 101-103 / 647-649: without data, np.random.rand(K, K), filled row by row in the calling process. *)
Definition prior_rng (P : mat) (g : vec) (K : nat) (pos : nat) : bmat * nat :=
  (fun k1 k2 => Rltb (g (pos + (k1 * K + k2))%nat) (P k1 k2), (pos + K * K)%nat).

(** weights.py 88-110, [SpikeAndSlabGammaWeights._joblib_resample_A_given_W]. *)
Definition joblib_A (how : pool) (m : dmodel) (n : net) (data : list parents) (g : vec) (pos : nat) : bmat * nat :=
  match data with
  | [] => prior_rng (n_P n) g (dm_K m) pos
  | _ => parallel_rng how (par_ll m data) (n_P n) g (dm_K m) (dm_A m) pos
  end.
(** weights.py 112-141, [_resample_A_given_W]: one draw per pair, row by row. *)
Definition serial_A (m : dmodel) (n : net) (data : list parents) (g : vec) (pos : nat) : bmat * nat :=
  (resample_A_serial m n (fun k1 k2 => g (pos + (k1 * dm_K m + k2))%nat) data, (pos + dm_K m * dm_K m)%nat).
(** weights.py 634-656, [SpikeAndSlabContinuousTimeGammaWeights._joblib_resample_A_given_W] (the weights already drawn). *)
Definition ct_joblib_A (how : pool) (norder : ctdata -> list nat) (m : ctmodel) (data : list ctdata) (g : vec) (pos : nat) : bmat * nat :=
  let P := n_P (net_view (cm_net m)) in
  match data with
  | [] => prior_rng P g (cm_K m) pos
  | _ => parallel_rng how (ct_ll_single m (fun d => ct_irs (norder d) m d) data) P g (cm_K m) (cm_A m) pos
  end.
