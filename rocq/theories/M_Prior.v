(** * M_Prior: log prior densities and log_probability of the models
    (bias.py 34-42, 163-171; impulses.py 61-76, 382-390; weights.py 41-70, 224-264, 520-524;
    models.py 983-1019, 1768-1807). *)
From Verif Require Import Prelude ExtReal Arrays M_Basis M_Parents M_Discrete M_Gibbs M_Dist M_Network M_Sweep M_Continuous.
Set Implicit Arguments.
Open Scope R_scope.

(** bias.py 34-39 and 163-168, [log_likelihood] of a K-vector of rates. *)
Definition bias_ll (lgam : R -> R) (K : nat) (alpha beta : R) (x : vec) : er :=
  eadd (Fin (INR K * (alpha * ln beta - lgam alpha)))
    (esum K (fun k => esub (emul (Fin (alpha - 1)) (elog (Fin (x k)))) (Fin (beta * x k)))).

(** impulses.py 61-73, [DirichletImpulseResponses.log_likelihood]. *)
Definition ir_ll (lgam : R -> R) (K B : nat) (gamma : vec) (x : ten) : er :=
  let Z := Rsum B (fun b => lgam (gamma b)) - lgam (Rsum B gamma) in                     (* 71 *)
  eadd (Fin (INR K ^ 2 * Z))
    (esum K (fun k1 => esum K (fun k2 => esum B (fun b => emul (Fin (gamma b - 1)) (elog (Fin (x k1 k2 b))))))).
(** impulses.py 382-390: the continuous-time impulse model reports 0. *)
Definition ct_ir_lp : R := 0.

(** weights.py 54: np.clip(P, 1e-32, 1-1e-32); the double 1-1e-32 is 1.0. *)
Definition rho_clip (p : R) : R := Rmin (Rmax p (/ 10 ^ 32)) 1.
(** weights.py 55-56, 62-64: one entry of lp_A, one of lp_W. *)
Definition lp_A_cell (rho : R) (a : bool) : er :=
  eadd (emul (Fin (b2R a)) (elog (Fin rho))) (emul (Fin (1 - b2R a)) (elog (Fin (1 - rho)))).
Definition lp_W_cell (lgam : R -> R) (kappa v w : R) : er :=
  esub (eadd (esub (emul (Fin kappa) (elog (Fin v))) (Fin (lgam kappa))) (emul (Fin (kappa - 1)) (elog (Fin w)))) (Fin (v * w)).
(** weights.py 41-67, [SpikeAndSlabGammaWeights.log_likelihood]. *)
Definition ss_weights_ll (lgam : R -> R) (K : nat) (n : net) (A : bmat) (W : mat) : er :=
  let ll := esum K (fun i => esum K (fun j => lp_A_cell (rho_clip (n_P n i j)) (A i j))) in      (* 55 *)
  let ll := nan_to_num ll in                                                                     (* 56 *)
  eadd (Fin ll) (esum K (fun i => esum K (fun j => emul (Fin (b2R (A i j))) (lp_W_cell lgam (n_kappa n) (n_V n i j) (W i j))))).
(** weights.py 224-261, [GammaMixtureWeights.log_likelihood]: boolean masks select the entries. *)
Definition mix_weights_ll (lgam : R -> R) (K : nat) (kappa0 nu0 : R) (n : net) (A : bmat) (W : mat) : er :=
  let lp_A := esum K (fun i => esum K (fun j => lp_A_cell (n_P n i j) (A i j))) in                (* 238 *)
  let lp_W0 := esum K (fun i => esum K (fun j =>
                 if A i j then Fin 0 else lp_W_cell lgam kappa0 nu0 (W i j))) in                  (* 249 *)
  let lp_W1 := esum K (fun i => esum K (fun j =>
                 if A i j then lp_W_cell lgam (n_kappa n) (n_V n i j) (W i j) else Fin 0)) in     (* 252 *)
  eadd (eadd lp_A lp_W0) lp_W1.                                                                   (* 259 *)

(** models.py 983-991, [log_prior]: only the weight model's term is not commented out. *)
Definition log_prior (lgam : R -> R) (st : gibbs) : er :=
  let m := gi_m st in let n := net_view (gi_net st) in
  eadd (Fin 0) (if dm_mix m then mix_weights_ll lgam (dm_K m) (h_kappa0 (gi_h st)) (h_nu0 (gi_h st)) n (dm_A m) (dm_W m)
                else ss_weights_ll lgam (dm_K m) n (dm_A m) (dm_W m)).
(** models.py 1011-1019, [log_probability]. *)
Definition log_probability (lgam : R -> R) (st : gibbs) : result er :=
  do ll <- log_likelihood (gi_m st) All ;; Ok (eadd ll (log_prior lgam st)).

(** network.log_probability() for each network class: network.py 179-181, 770-782, 963-964. *)
Definition net_log_probability (lgam : R -> R) (no : netobj) : result er :=
  match no with
  | NetSbm false s => sbm_log_probability lgam s
  | NetSbm true s => fsbm_log_probability lgam s
  | NetEr n => do x <- er_log_probability n ;; Ok (Fin x)
  end.

(** models.py 1768-1776, [log_prior] of the continuous-time model: weights.py 523-524 and impulses.py 382-390
    contribute 0. *)
Definition ct_log_prior (lgam : R -> R) (alpha beta : R) (m : ctmodel) : er :=
  eadd (eadd (eadd (Fin 0) (bias_ll lgam (cm_K m) alpha beta (cm_lam m))) (Fin 0)) (Fin ct_ir_lp).
(** models.py 1799-1807. *)
Definition ct_log_probability (lgam : R -> R) (alpha beta : R) (order : ctdata -> list nat) (m : ctmodel) : er :=
  eadd (ct_log_likelihood order m None) (ct_log_prior lgam alpha beta m).
