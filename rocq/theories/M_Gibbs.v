(** * M_Gibbs: Gibbs updates of background rates, weights, adjacency and impulse
    responses of the discrete-time network models
    (pyhawkes/internals/bias.py, weights.py, impulses.py, parallel_adjacency_resampling.py).

    Draws are oracles applied to the position of the call and to the parameters the
    code passes to NumPy: gamma takes (shape, scale). *)
From Verif Require Import Prelude ExtReal Arrays M_Basis M_Parents M_Discrete.
Set Implicit Arguments.
Open Scope R_scope.

(** What the weight models read from a network object: network.P, network.V,
    network.kappa (see M_Network for the objects themselves). *)
Record net := { n_P : mat; n_V : mat; n_kappa : R }.

(** sum([d.stat() for d in data]): starts from 0. *)
Definition pool {A} (f : A -> R) (data : list A) : R := fold_left (fun s d => s + f d) data 0.

(* ---------------- background rates ---------------- *)

(** bias.py 65-78, [GammaBias.resample]: the (shape, scale) requested for process k. *)
Definition bias_request (alpha beta : R) (data : list parents) (k : nat) : R * R :=
  let ss0 := 0 + pool (fun d => IZR (bkgd_ss0 d k)) data in       (* 71-72 *)
  let ss1 := 0 + pool (fun d => bkgd_ss1 d k) data in
  (alpha + ss0, 1 / (beta + ss1)).                                 (* 74-78 *)
Definition gam1 := nat -> R -> R -> R.
Definition bias_resample (g : gam1) (alpha beta : R) (data : list parents) : vec :=
  fun k => let '(a, s) := bias_request alpha beta data k in g k a s.

(** bias.py 177-191, [ContinuousTimeGammaBias._get_suff_statistics]: assignments, not
    additions, inside the loop.  A data set is its background counts and duration. *)
Record ct_stat := { cs_bkgd : vec; cs_T : R }.
Definition ct_bias_ss (data : list ct_stat) (k : nat) : R * R :=
  fold_left (fun _ d => (cs_bkgd d k, cs_T d)) data (0, 0).        (* 185-189 *)
(** bias.py 193-210, [ContinuousTimeGammaBias.resample]. *)
Definition ct_bias_request (alpha beta : R) (data : list ct_stat) (k : nat) : R * R :=
  let '(s0, s1) := ct_bias_ss data k in (alpha + s0, 1 / (beta + s1)).

(* ---------------- impulse responses ---------------- *)

(** impulses.py 78-88, [DirichletImpulseResponses.resample]: concentration requested
    for the pair (k1,k2). *)
Definition ir_request (gamma : vec) (data : list parents) (k1 k2 : nat) : vec :=
  fun b => gamma b + (0 + pool (fun d => IZR (ir_ss d k1 k2 b)) data).
Definition dir2 := nat -> nat -> vec -> vec.
Definition ir_resample (dr : dir2) (gamma : vec) (data : list parents) : ten :=
  fun k1 k2 b => dr k1 k2 (ir_request gamma data k1 k2) b.

(* ---------------- spike and slab: weights ---------------- *)

(** weights.py 143-157, [resample_W_given_A_and_z]. *)
Definition ss_W_request (n : net) (A : bmat) (data : list parents) (k1 k2 : nat) : R * R :=
  let s0 := 0 + pool (fun d => IZR (weight_ss0 d k1 k2)) data in                    (* 148-149 *)
  let s1 := (0 + pool (fun d => IZR (weight_ss1 d k1 k2)) data) * b2R (A k1 k2) in  (* 152 *)
  (n_kappa n + s0, 1 / (n_V n k1 k2 + s1)).                                         (* 154-157 *)
Definition gam2 := nat -> nat -> R -> R -> R.
Definition ss_W_resample (g : gam2) (n : net) (A : bmat) (data : list parents) : mat :=
  fun k1 k2 => let '(a, s) := ss_W_request n A data k1 k2 in g k1 k2 a s.

(* ---------------- adjacency: the acceptance rule ---------------- *)

(** weights.py 136-141: log(u) < lp1 - logsumexp([lp0, lp1]). *)
Definition accept (u : R) (lp0 lp1 : er) : bool :=
  elt (elog (Fin u)) (esub lp1 (logsumexp2 lp0 lp1)).

Definition with_A (m : dmodel) (A : bmat) : dmodel :=
  {| dm_K := dm_K m; dm_B := dm_B m; dm_dt := dm_dt m; dm_L := dm_L m; dm_L_int := dm_L_int m;
     dm_bas := dm_bas m; dm_mix := dm_mix m; dm_A := A; dm_W := dm_W m; dm_g := dm_g m;
     dm_lam := dm_lam m; dm_data := dm_data m |}.
Definition with_W (m : dmodel) (W : mat) : dmodel :=
  {| dm_K := dm_K m; dm_B := dm_B m; dm_dt := dm_dt m; dm_L := dm_L m; dm_L_int := dm_L_int m;
     dm_bas := dm_bas m; dm_mix := dm_mix m; dm_A := dm_A m; dm_W := W; dm_g := dm_g m;
     dm_lam := dm_lam m; dm_data := dm_data m |}.
Definition with_lam (m : dmodel) (l : vec) : dmodel :=
  {| dm_K := dm_K m; dm_B := dm_B m; dm_dt := dm_dt m; dm_L := dm_L m; dm_L_int := dm_L_int m;
     dm_bas := dm_bas m; dm_mix := dm_mix m; dm_A := dm_A m; dm_W := dm_W m; dm_g := dm_g m;
     dm_lam := l; dm_data := dm_data m |}.
Definition with_g (m : dmodel) (g : ten) : dmodel :=
  {| dm_K := dm_K m; dm_B := dm_B m; dm_dt := dm_dt m; dm_L := dm_L m; dm_L_int := dm_L_int m;
     dm_bas := dm_bas m; dm_mix := dm_mix m; dm_A := dm_A m; dm_W := dm_W m; dm_g := g;
     dm_lam := dm_lam m; dm_data := dm_data m |}.

(** weights.py 127, 131: sum([d.log_likelihood_single_process(k2) for d in data]), with
    the adjacency matrix currently stored in the model. *)
Definition data_ll (m : dmodel) (data : list parents) (A : bmat) (k2 : nat) : er :=
  fold_left (fun s d => eadd s (ll_single d (params_of (with_A m A)) k2)) data (Fin 0).

(** One iteration of the inner loop, weights.py 121-141 (self.model is not None). *)
Definition edge_step (ll : bmat -> nat -> er) (P u : mat) (A : bmat) (k1 k2 : nat) : bmat :=
  let A0 := upd2 A k1 k2 false in                                    (* 126 *)
  let ll0 := ll A0 k2 in                                             (* 127 *)
  let A1 := upd2 A0 k1 k2 true in                                    (* 130 *)
  let ll1 := ll A1 k2 in                                             (* 131 *)
  let lp0 := eadd ll0 (elog (Fin (1 - P k1 k2))) in                  (* 134 *)
  let lp1 := eadd ll1 (elog (Fin (P k1 k2))) in                      (* 135 *)
  upd2 A1 k1 k2 (accept (u k1 k2) lp0 lp1).                          (* 136-141 *)
(** weights.py 112-141, [_resample_A_given_W]: u k1 k2 is the uniform drawn for the pair. *)
Definition serial_sweep (ll : bmat -> nat -> er) (P u : mat) (K : nat) (A : bmat) : bmat :=
  fold_left (fun A' k1 => fold_left (fun A'' k2 => edge_step ll P u A'' k1 k2) (seq 0 K) A')
            (seq 0 K) A.
Definition resample_A_serial (m : dmodel) (n : net) (u : mat) (data : list parents) : bmat :=
  serial_sweep (data_ll m data) (n_P n) u (dm_K m) (dm_A m).

(* ---------------- adjacency: parallel columns ---------------- *)

(** parallel_adjacency_resampling.py 15-36, [_log_likelihood_single_process] for one
    data set with Wk2 = A_col * W_col. *)
Definition par_ll_single (d : parents) (dt : R) (lam : vec) (Wk2 : vec) (g : ten) (k2 : nat) : er :=
  let ll := Fin (0 + - lam k2 * INR (pa_T d) * dt) in
  let ll := eadd ll (Fin (- Rsum (pa_K d) (fun k1 => Wk2 k1 * IZR (pa_Ns d k1)))) in
  eadd ll (esum (pa_Tk d k2) (fun r =>
    emul (Fin (IZR (pa_Ss d k2 r)))
         (elog (Fin (lam k2 + Rsum (pa_K d) (fun k1 => Rsum (pa_B d) (fun b =>
            Wk2 k1 * g k1 k2 b * pa_Fs d k2 r k1 b))))))).
(** parallel_adjacency_resampling.py 58-69: the sum over data sets. *)
Definition par_ll (m : dmodel) (data : list parents) (k2 : nat) (a : nat -> bool) : er :=
  fold_left (fun s d => eadd s (par_ll_single d (dm_dt m) (dm_lam m)
               (fun k1 => b2R (a k1) * dm_W m k1 k2) (dm_g m) k2)) data (Fin 0).

(** parallel_adjacency_resampling.py 48-79, one row of [_resample_column_of_A]; also
    122-150 ([_ct_resample_column_of_A]) with the continuous-time likelihood. *)
Definition col_step (ll : (nat -> bool) -> er) (p u : vec) (a : nat -> bool) (k1 : nat) : nat -> bool :=
  if Reqb (p k1) 0 then upd a k1 false                               (* 49-51 *)
  else if Reqb (p k1) 1 then upd a k1 true                           (* 53-55 *)
  else
    let a0 := upd a k1 false in
    let ll0 := ll a0 in
    let a1 := upd a0 k1 true in
    let ll1 := ll a1 in
    let lp0 := eadd ll0 (elog (Fin (1 - p k1))) in
    let lp1 := eadd ll1 (elog (Fin (p k1))) in
    upd a1 k1 (accept (u k1) lp0 lp1).
(** parallel_adjacency_resampling.py 38-81. *)
Definition resample_column (ll : (nat -> bool) -> er) (p u : vec) (K : nat) (a : nat -> bool) : nat -> bool :=
  fold_left (fun a' k1 => col_step ll p u a' k1) (seq 0 K) a.

(** Worker tasks running in some order; each fills its own slot of the result list. *)
Fixpoint run_tasks {A} (order : list nat) (task : nat -> A) (slots : nat -> A) : nat -> A :=
  match order with
  | [] => slots
  | k :: rest => run_tasks rest task (upd slots k (task k))
  end.

(** weights.py 88-110, [_joblib_resample_A_given_W]: workers only read the model, so
    a column is a function of the state before the call. *)
Definition resample_A_parallel (order : list nat) (m : dmodel) (n : net) (u : mat) (data : list parents)
  : bmat :=
  match data with
  | [] => fun k1 k2 => Rltb (u k1 k2) (n_P n k1 k2)                   (* 101-103 *)
  | _ =>
    let cols := run_tasks order (fun k2 =>
        resample_column (par_ll m data k2) (fun k1 => n_P n k1 k2) (fun k1 => u k1 k2)
          (dm_K m) (fun k1 => dm_A m k1 k2)) (fun _ _ => false) in
    fun k1 k2 => cols k2 k1                                          (* 110: transpose *)
  end.

(** weights.py 159-173, [resample]: W given A first, then A given the new W. *)
Definition ss_resample (parallel : bool) (order : list nat) (g : gam2) (u : mat) (n : net) (m : dmodel) : dmodel :=
  let m := with_W m (ss_W_resample g n (dm_A m) (dm_data m)) in
  with_A m (if parallel then resample_A_parallel order m n u (dm_data m)
            else resample_A_serial m n u (dm_data m)).

(* ---------------- gamma mixture ---------------- *)

(** weights.py 425-426: pooled statistics. *)
Definition mix_ss (data : list parents) (k1 k2 : nat) : R * R :=
  (0 + pool (fun d => IZR (weight_ss0 d k1 k2)) data, 0 + pool (fun d => IZR (weight_ss1 d k1 k2)) data).

(** weights.py 443-455: log marginal likelihoods of the two hypotheses. *)
Definition mix_lp0 (lgam : R -> R) (kappa0 nu0 : R) (s0 s1 : R) : R :=
  kappa0 * ln nu0 - lgam kappa0 + (lgam (kappa0 + s0) - (kappa0 + s0) * ln (nu0 + s1)).
Definition mix_lp1 (lgam : R -> R) (kappa v : R) (s0 s1 : R) : R :=
  kappa * ln v - lgam kappa + (lgam (kappa + s0) - (kappa + s0) * ln (v + s1)).
(** weights.py 434-467, [_resample_A]. *)
Definition mix_resample_A (lgam : R -> R) (kappa0 nu0 : R) (n : net) (u : mat) (data : list parents) : bmat :=
  fun k1 k2 =>
    let '(s0, s1) := mix_ss data k1 k2 in
    let lp0 := eadd (Fin (mix_lp0 lgam kappa0 nu0 s0 s1)) (elog (Fin (1 - n_P n k1 k2))) in
    let lp1 := eadd (Fin (mix_lp1 lgam (n_kappa n) (n_V n k1 k2) s0 s1)) (elog (Fin (n_P n k1 k2))) in
    accept (u k1 k2) lp0 lp1.
(** weights.py 469-481, [_resample_W_given_A]: request, then draw and clip at 1e-32. *)
Definition mix_W_request (kappa0 nu0 : R) (n : net) (A : bmat) (data : list parents) (k1 k2 : nat) : R * R :=
  let '(s0, s1) := mix_ss data k1 k2 in
  let a := b2R (A k1 k2) in
  let kappa_prior := kappa0 * (1 - a) + n_kappa n * a in
  let v_prior := nu0 * (1 - a) + n_V n k1 k2 * a in
  (kappa_prior + s0, 1 / (v_prior + s1)).
Definition mix_W_resample (g : gam2) (kappa0 nu0 : R) (n : net) (A : bmat) (data : list parents) : mat :=
  fun k1 k2 => let '(a, s) := mix_W_request kappa0 nu0 n A data k1 k2 in clip_lo (/ 10 ^ 32) (g k1 k2 a s).
(** weights.py 424-432, [GammaMixtureWeights.resample]. *)
Definition mix_resample (lgam : R -> R) (kappa0 nu0 : R) (g : gam2) (u : mat) (n : net) (m : dmodel) : dmodel :=
  let A := mix_resample_A lgam kappa0 nu0 n u (dm_data m) in
  with_W (with_A m A) (mix_W_resample g kappa0 nu0 n A (dm_data m)).
