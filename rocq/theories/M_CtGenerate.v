(** * M_CtGenerate: model of ContinuousTimeNetworkHawkesModel.generate (pyhawkes/models.py 1592-1668). *)
From Verif Require Import Prelude ExtReal Arrays M_Basis M_Parents M_Discrete M_Gibbs M_Dist M_Network M_Sweep M_Continuous.
Set Implicit Arguments.
Open Scope R_scope.

(** Calls to the random generator with their answers, in order: np.random.poisson(mean), np.random.randn(n), np.random.rand(n). *)
Inductive call := CPois (mean : R) (n : nat) | CNorm (n : nat) (x : vec) | CUnif (n : nat) (u : vec).
(** The generator: its answer may depend on everything asked before. *)
Record rng := { r_pois : list call -> R -> nat; r_norm : list call -> nat -> vec; r_unif : list call -> nat -> vec }.
(** An event: time and process. *)
Definition ev : Type := R * nat.
(** State threaded through the simulation: events appended so far, calls made so far. *)
Definition gst : Type := list ev * list call.

(** np.random.poisson(mean): a negative mean raises ValueError. *)
Definition ask_pois (r : rng) (mean : R) (tr : list call) : result (nat * list call) :=
  do _ <- guard (Rleb 0 mean) ValueError ;; let n := r_pois r tr mean in Ok (n, tr ++ [CPois mean n]).
Definition ask_norm (r : rng) (n : nat) (tr : list call) : vec * list call := let x := r_norm r tr n in (x, tr ++ [CNorm n x]).
Definition ask_unif (r : rng) (n : nat) (tr : list call) : vec * list call := let u := r_unif r tr n in (u, tr ++ [CUnif n u]).

(** for a in l: body *)
Fixpoint iter_r {A S} (body : A -> S -> result S) (l : list A) (st : S) : result S :=
  match l with [] => Ok st | a :: l' => do st' <- body a st ;; iter_r body l' st' end.

(** 1620-1627: child times s_pa + dt_max * logistic(mu + sqrt(1/tau) * x), those below T. *)
Definition child_times (m : ctmodel) (T s_pa : R) (c_pa c : nat) (n : nat) (x : vec) : list R :=
  filter (fun s => Rltb s T)
    (map (fun i => s_pa + cm_dtmax m * logistic 1 (cm_mu m c_pa c + sqrt (1 / cm_tau m c_pa c) * x i)) (seq 0 n)).

(** 1601-1635, [_generate_helper]; fuel = max_round - round. *)
Fixpoint gen_helper (r : rng) (m : ctmodel) (T : R) (fuel : nat) (s_pa : R) (c_pa : nat) (st : gst) : result gst :=
  match fuel with
  | O => Raise AssertionError                                                    (* 1607 *)
  | S f =>
    iter_r (fun c st =>
      if (Reqb (cm_W m c_pa c) 0 || negb (cm_A m c_pa c))%bool then Ok st        (* 1610-1613 *)
      else
        let '(evs, tr) := st in
        do p <- ask_pois r (cm_W m c_pa c) tr ;;
        let '(n, tr) := p in
        let '(x, tr) := ask_norm r n tr in
        let s_ch := child_times m T s_pa c_pa c n x in
        iter_r (fun s st => gen_helper r m T f s c st) s_ch (evs ++ map (fun s => (s, c)) s_ch, tr))
      (seq 0 (cm_K m)) st
  end.
(** 1641-1652: background events of each process, each with its cascade. *)
Definition gen_all (r : rng) (m : ctmodel) (T : R) (max_round : nat) (st : gst) : result gst :=
  iter_r (fun k st =>
    let '(evs, tr) := st in
    do p <- ask_pois r (cm_lam m k * T) tr ;;
    let '(n, tr) := p in
    let '(u, tr) := ask_unif r n tr in
    let s := map (fun i => u i * T) (seq 0 n) in
    iter_r (fun s st => gen_helper r m T max_round s k st) s (evs ++ map (fun s => (s, k)) s, tr))
    (seq 0 (cm_K m)) st.
(** 1592-1668, [generate(keep, T, max_round)]: outcome (event times, process ids, the calls made) and the model afterwards.
    argsort returns indices that sort the times.  np.concatenate([]) raises ValueError. *)
Definition ct_generate (r : rng) (argsort : list R -> list nat) (m : ctmodel) (keep : bool) (T : R) (T_isfloat : bool) (max_round : nat) (tr0 : list call)
  : result (list R * list nat * list call) * ctmodel :=
  match gen_all r m T max_round ([], tr0) with
  | Raise e => (Raise e, m)
  | Ok (evs, tr) =>
    if Nat.eqb (cm_K m) 0 then (Raise ValueError, m)
    else
      let perm := argsort (map fst evs) in
      let S_ := map (fun i => nth i (map fst evs) 0) perm in
      let C_ := map (fun i => nth i (map snd evs) 0%nat) perm in
      if keep then
        match ct_add_data m {| tv_isarray := true; tv_dims := [length S_]; tv_isfloat := true; tv_at := fun i => nth i S_ 0 |}
                            {| iv_isarray := true; iv_dims := [length C_]; iv_isint := true; iv_at := fun i => Z.of_nat (nth i C_ 0%nat) |} T T_isfloat with
        | Raise e => (Raise e, m)
        | Ok m' => (Ok (S_, C_, tr), m')
        end
      else (Ok (S_, C_, tr), m)
  end.
