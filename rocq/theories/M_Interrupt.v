(** * M_Interrupt: a Gibbs sweep of the discrete-time network models, write by write.

    CPython delivers KeyboardInterrupt (and any exception raised by a signal handler) between bytecodes, so a sweep can
    stop after any of its assignments; NumPy and Cython calls are not interrupted half-way.  A sweep is therefore modelled
    as the list of its assignments to the model, in program order, and an interrupted sweep as a prefix of that list.
    M_Sweep models the same sweeps as one function; Props_Interrupt proves that running the whole list gives that result.

    Arrays are total functions, so a loop that assigns every entry of an array of finite size never touches the
    entries outside it, which no reader looks at.  To be comparable with M_Sweep (which defines the new array by one
    formula) the step that enters such a loop gives these non-existent entries the formula's value. *)
From Verif Require Import Prelude ExtReal Arrays M_Basis M_Parents M_Discrete M_Gibbs M_Dist M_Network M_Sweep.
Set Implicit Arguments.
Open Scope R_scope.

Definition wstep := gibbs -> result gibbs.
(** Runs assignments until one raises; the state left behind is the one before the failing statement. *)
Fixpoint exec (l : list wstep) (st : gibbs) : result unit * gibbs :=
  match l with
  | [] => (Ok tt, st)
  | f :: l' => match f st with Ok st' => exec l' st' | Raise e => (Raise e, st) end
  end.
Definition pure (f : gibbs -> gibbs) : wstep := fun st => Ok (f st).
Definition on_m (f : dmodel -> dmodel) : wstep := pure (fun st => with_model st (f (gi_m st))).
Definition on_net (f : gibbs -> netobj) : wstep :=
  pure (fun st => {| gi_m := gi_m st; gi_net := f st; gi_h := gi_h st |}).

(** Assignment of entry (a, b) of an array with n x m(.) entries, towards the final content [new]. *)
Definition put {V} (a b : nat) (new old : nat -> nat -> V) : nat -> nat -> V :=
  fun i j => if (Nat.eqb i a && Nat.eqb j b)%bool then new i j else old i j.
Definition enter {V} (n : nat) (m : nat -> nat) (new old : nat -> nat -> V) : nat -> nat -> V :=
  fun i j => if (Nat.ltb i n && Nat.ltb j (m i))%bool then old i j else new i j.
(** for a in range(n): for b in range(m(a)): ... *)
Definition cells (n : nat) (m : nat -> nat) : list (nat * nat) :=
  flat_map (fun a => map (fun b => (a, b)) (seq 0 (m a))) (seq 0 n).

(* ---------------- parents ---------------- *)
(** The i-th data set replaced. *)
Fixpoint set_nth {A} (i : nat) (f : A -> A) (l : list A) : list A :=
  match l, i with
  | [], _ => []
  | x :: l', O => f x :: l'
  | x :: l', S i' => x :: set_nth i' f l'
  end.
Definition on_data (i : nat) (f : gibbs -> parents -> parents) : gibbs -> gibbs :=
  fun st => with_model st (with_data (gi_m st) (set_nth i (f st) (dm_data (gi_m st)))).
(** The rows drawn for data set p from the current parameters (parents.py 231-242, 262-274). *)
Definition new_rows (gsl : bool) (mult : mult_oracle) (st : gibbs) (p : parents) : nat -> nat -> nat -> Z :=
  fun k r c => let '(n, v) := (if gsl then request_gsl else request_python) p (params_of (gi_m st)) k r in u32 (mult k r n v c).
Definition p0 : parents := mk_parents 0 0 1 0 (fun _ _ => 0%Z) (fun _ _ _ => 0).
Definition nth_data (st : gibbs) (i : nat) : parents := nth i (dm_data (gi_m st)) p0.
(** parents.py 228-242, one row of the pure-Python sampler: zt[:] = multinomial(st, p) after the two checks. *)
Definition row_ok (gsl : bool) (st : gibbs) (p : parents) (k r : nat) : result unit :=
  let v := (if gsl then pvec_gsl else pvec_python) p (params_of (gi_m st)) k r in
  if (negb gsl && negb (Z.ltb 0 (pa_Ss p k r)))%bool then Raise AssertionError
  else if Reqb (Rsum (1 + pa_K p * pa_B p) v) 0 then Raise ValueError
  else Ok tt.
Definition row_step (mult : mult_oracle) (i k r : nat) : wstep := fun st =>
  do _ <- row_ok false st (nth_data st i) k r ;;
  Ok (on_data i (fun st p => set_Z p (put k r (new_rows false mult st p) (pa_Z p))) st).
(** parents.py 261-274, one process of the GSL sampler: multinomial(..., out=Zk) fills all its rows. *)
Definition put_process {V} (k : nat) (new old : nat -> V) : nat -> V := fun j => if Nat.eqb j k then new j else old j.
Definition process_step (mult : mult_oracle) (i k : nat) : wstep := fun st =>
  let p := nth_data st i in
  do _ <- guard (forall_lt (pa_Tk p k) (fun r => match row_ok true st p k r with Ok _ => true | Raise _ => false end)) ValueError ;;
  Ok (on_data i (fun st p => set_Z p (put_process k (new_rows true mult st p) (pa_Z p))) st).
(** parents.py 278-282, [resample] of the i-th data set, whose dimensions are those of p. *)
Definition parents_steps (gsl : bool) (mult : mult_oracle) (i : nat) (p : parents) : list wstep :=
  pure (on_data i (fun st p => set_Z p (if gsl then fun k => if Nat.ltb k (pa_K p) then pa_Z p k else new_rows true mult st p k
                                        else enter (pa_K p) (pa_Tk p) (new_rows false mult st p) (pa_Z p))))
  :: (if gsl then map (process_step mult i) (seq 0 (pa_K p))
      else map (fun c => row_step mult i (fst c) (snd c)) (cells (pa_K p) (pa_Tk p))).
(** models.py 1206-1207, 1257-1258: for p in self.data_list: p.resample(). *)
Fixpoint all_parents_steps (gsl : bool) (mult : nat -> mult_oracle) (i : nat) (data : list parents) : list wstep :=
  match data with [] => [] | p :: rest => parents_steps gsl (mult i) i p ++ all_parents_steps gsl mult (S i) rest end.

(* ---------------- background rate and impulse responses ---------------- *)
(** bias.py 65-79: one assignment. *)
Definition bias_step (g : gam1) : wstep :=
  pure (fun st => with_model st (with_lam (gi_m st) (bias_resample g (h_alpha (gi_h st)) (h_beta (gi_h st)) (dm_data (gi_m st))))).
(** impulses.py 85-88: self.g[k1,k2,:] = dirichlet(...) for every pair. *)
Definition ir_new (dr : dir2) (st : gibbs) : ten := ir_resample dr (h_gamma (gi_h st)) (dm_data (gi_m st)).
Definition on_g (f : gibbs -> ten) : wstep := pure (fun st => with_model st (with_g (gi_m st) (f st))).
Definition ir_steps (dr : dir2) (K : nat) : list wstep :=
  on_g (fun st => enter K (fun _ => K) (ir_new dr st) (dm_g (gi_m st)))
  :: map (fun c => on_g (fun st => put (fst c) (snd c) (ir_new dr st) (dm_g (gi_m st)))) (cells K (fun _ => K)).

(* ---------------- network ---------------- *)
Definition sbm_of (no : netobj) (f : sbm -> sbm) : netobj := match no with NetSbm fp s => NetSbm fp (f s) | NetEr n => NetEr n end.
(** network.py 214-227: self.p[c1,c2] = beta(...). *)
Definition p_new (d : gibbs_draws) (st : gibbs) (s : sbm) : mat :=
  fun c1 c2 => let '(a, b) := p_request s (dm_A (gi_m st)) c1 c2 in gd_beta d c1 c2 a b.
Definition p_steps (d : gibbs_draws) (C : nat) : list wstep :=
  on_net (fun st => sbm_of (gi_net st) (fun s => sb_set s (sb_m s) (sb_c s) (enter C (fun _ => C) (p_new d st s) (sb_p s)) (sb_v s)))
  :: map (fun c => on_net (fun st => sbm_of (gi_net st) (fun s =>
            sb_set s (sb_m s) (sb_c s) (put (fst c) (snd c) (p_new d st s) (sb_p s)) (sb_v s)))) (cells C (fun _ => C)).
(** network.py 229-240: self.v[c1,c2] = gamma(...). *)
Definition v_new (d : gibbs_draws) (st : gibbs) (s : sbm) : mat :=
  fun c1 c2 => let '(a, b) := v_request s (dm_A (gi_m st)) (dm_W (gi_m st)) c1 c2 in gd_gamma d c1 c2 a b.
Definition v_steps (d : gibbs_draws) (C : nat) : list wstep :=
  on_net (fun st => sbm_of (gi_net st) (fun s => sb_set s (sb_m s) (sb_c s) (sb_p s) (enter C (fun _ => C) (v_new d st s) (sb_v s))))
  :: map (fun c => on_net (fun st => sbm_of (gi_net st) (fun s =>
            sb_set s (sb_m s) (sb_c s) (sb_p s) (put (fst c) (snd c) (v_new d st s) (sb_v s))))) (cells C (fun _ => C)).
(** network.py 242-284: nothing with one block, else self.c[k] = ... for every k. *)
Definition c_step (lgam : R -> R) (d : gibbs_draws) (k : nat) : wstep :=
  on_net (fun st => sbm_of (gi_net st) (fun s =>
    sb_set s (sb_m s) (upd (sb_c s) k (gd_pick d k (c_request lgam s (dm_A (gi_m st)) (dm_W (gi_m st)) (sb_c s) k))) (sb_p s) (sb_v s))).
(** network.py 286-291: self.m = dirichlet(...). *)
Definition m_step (d : gibbs_draws) : wstep :=
  on_net (fun st => sbm_of (gi_net st) (fun s => sb_set s (gd_dir d (m_request s)) (sb_c s) (sb_p s) (sb_v s))).
(** network.py 293-301, 784-791 (block models), 978-981 (fixed sparsity Erdos-Renyi). *)
Definition net_steps (lgam : R -> R) (d : gibbs_draws) (g : R -> R -> R) (no : netobj) : list wstep :=
  match no with
  | NetSbm fp s =>
      if sb_fixed s then []
      else (if fp then [] else p_steps d (sb_C s)) ++ v_steps d (sb_C s)
           ++ (if (sb_C s =? 1)%nat then [] else map (c_step lgam d) (seq 0 (sb_K s))) ++ [m_step d]
  | NetEr n => [on_net (fun st => match gi_net st with
                                  | NetEr n => NetEr (er_resample g (dm_A (gi_m st)) (dm_W (gi_m st)) n)
                                  | no => no end)]
  end.

(* ---------------- weights and adjacency ---------------- *)
(** weights.py 143-157: one assignment. *)
Definition W_step (g : gam2) : wstep :=
  pure (fun st => with_model st (with_W (gi_m st) (ss_W_resample g (net_view (gi_net st)) (dm_A (gi_m st)) (dm_data (gi_m st))))).
(** weights.py 126, 130: the trial values the likelihood is evaluated with. *)
Definition trial_step (k1 k2 : nat) (a : bool) : wstep := on_m (fun m => with_A m (upd2 (dm_A m) k1 k2 a)).
(** weights.py 132-141: the draw, from the likelihoods computed with the two trial values. *)
Definition draw_step (u : mat) (k1 k2 : nat) : wstep :=
  pure (fun st => with_model st (with_A (gi_m st)
    (edge_step (data_ll (gi_m st) (dm_data (gi_m st))) (n_P (net_view (gi_net st))) u (dm_A (gi_m st)) k1 k2))).
Definition edge_steps (u : mat) (k1 k2 : nat) : list wstep := [trial_step k1 k2 false; trial_step k1 k2 true; draw_step u k1 k2].
(** weights.py 88-110: the columns are computed by the workers, then one assignment. *)
Definition A_par_step (order : list nat) (u : mat) : wstep :=
  pure (fun st => with_model st (with_A (gi_m st) (resample_A_parallel order (gi_m st) (net_view (gi_net st)) u (dm_data (gi_m st))))).
Definition A_steps (par : bool) (order : list nat) (u : mat) (K : nat) : list wstep :=
  if par then [A_par_step order u] else flat_map (fun c => edge_steps u (fst c) (snd c)) (cells K (fun _ => K)).

(* ---------------- the sweeps ---------------- *)
(** models.py 1199-1219. *)
Definition ss_steps (lgam : R -> R) (d : sweep_draws) (st : gibbs) : list wstep :=
  all_parents_steps (h_gsl (gi_h st)) (sd_mult d) 0 (dm_data (gi_m st))
  ++ [bias_step (sd_bias d)]
  ++ ir_steps (sd_ir d) (dm_K (gi_m st))
  ++ net_steps lgam (sd_net d) (sd_er d) (gi_net st)
  ++ [W_step (sd_W d)]
  ++ A_steps (h_parallel (gi_h st)) (sd_order d) (sd_u d) (dm_K (gi_m st)).
(** weights.py 434-467 (one assignment of A) and 469-481 (W drawn, then clipped: two assignments). *)
Definition mix_A_step (lgam : R -> R) (u : mat) : wstep :=
  pure (fun st => with_model st (with_A (gi_m st)
    (mix_resample_A lgam (h_kappa0 (gi_h st)) (h_nu0 (gi_h st)) (net_view (gi_net st)) u (dm_data (gi_m st))))).
Definition mix_W_step (g : gam2) : wstep :=
  pure (fun st => with_model st (with_W (gi_m st) (fun k1 k2 =>
    let '(a, s) := mix_W_request (h_kappa0 (gi_h st)) (h_nu0 (gi_h st)) (net_view (gi_net st)) (dm_A (gi_m st)) (dm_data (gi_m st)) k1 k2 in g k1 k2 a s))).
Definition mix_clip_step : wstep := on_m (fun m => with_W m (fun k1 k2 => clip_lo (/ 10 ^ 32) (dm_W m k1 k2))).
(** models.py 1251-1271. *)
Definition mix_steps (lgam : R -> R) (rn : bool) (d : sweep_draws) (st : gibbs) : list wstep :=
  all_parents_steps (h_gsl (gi_h st)) (sd_mult d) 0 (dm_data (gi_m st))
  ++ [bias_step (sd_bias d)]
  ++ ir_steps (sd_ir d) (dm_K (gi_m st))
  ++ [mix_A_step lgam (sd_u d); mix_W_step (sd_W d); mix_clip_step]
  ++ (if rn then net_steps lgam (sd_net d) (sd_er d) (gi_net st) else []).
Definition sweep_steps (lgam : R -> R) (rn : bool) (d : sweep_draws) (st : gibbs) : list wstep :=
  if dm_mix (gi_m st) then mix_steps lgam rn d st else ss_steps lgam d st.

(** resample_model, stopped after n assignments. *)
Definition interrupted (lgam : R -> R) (rn : bool) (d : sweep_draws) (n : nat) (st : gibbs) : result unit * gibbs :=
  exec (firstn n (sweep_steps lgam rn d st)) st.

(** Histories with interrupted sweeps. *)
Inductive iop := IDo (o : gop) | IStop (rn : bool) (d : sweep_draws) (n : nat).
Definition istep (lgam : R -> R) (o : iop) (st : gibbs) : result unit * gibbs :=
  match o with IDo o => gstep lgam o st | IStop rn d n => interrupted lgam rn d n st end.
Fixpoint irun (lgam : R -> R) (h : list iop) (st : gibbs) : gibbs :=
  match h with [] => st | o :: h' => irun lgam h' (snd (istep lgam o st)) end.
