(** * M_MeanField: variational state and updates of the gamma-mixture network model
    (bias.py 79-106, impulses.py 89-121, weights.py 190-345, models.py 1305-1385). *)
From Verif Require Import Prelude ExtReal Arrays M_Basis M_Parents M_Discrete M_Gibbs M_Dist M_Network.
Set Implicit Arguments.
Open Scope R_scope.

(* ---------------- background rates ---------------- *)

(** bias.py 30-32. *)
Record mfbias := { mb_alpha : vec; mb_beta : vec }.
Definition mfbias_init (alpha beta : R) : mfbias := {| mb_alpha := fun _ => alpha * 1; mb_beta := fun _ => beta * 1 |}.
(** bias.py 80-84. *)
Definition expected_lambda0 (b : mfbias) : vec := fun k => mb_alpha b k / mb_beta b k.
Definition expected_log_lambda0 (psi : R -> R) (b : mfbias) : vec := fun k => psi (mb_alpha b k) - ln (mb_beta b k).
(** parents.py 320-328: second row of the expected background statistics. *)
Definition exp_bkgd_ss1 (p : parents) (k : nat) : R := INR (pa_T p) * pa_dt p.
(** bias.py 89-100, [mf_update_lambda0]: sum([]) is the integer 0, so indexing it raises TypeError. *)
Definition mf_update_lambda0 (alpha beta : R) (data : list parents) (frac step : R) (b : mfbias) : result mfbias :=
  match data with
  | [] => Raise TypeError
  | _ => Ok {| mb_alpha := fun k => mix_step step (mb_alpha b k) (alpha + pool (fun d => exp_bkgd_ss0 d k) data / frac);
               mb_beta := fun k => mix_step step (mb_beta b k) (beta + pool (fun d => exp_bkgd_ss1 d k) data / frac) |}
  end.
(** bias.py 102-106. *)
Definition bias_mf alpha beta data b := mf_update_lambda0 alpha beta data 1 1 b.
Definition bias_sgd alpha beta data frac step b := mf_update_lambda0 alpha beta data frac step b.

(* ---------------- impulse responses ---------------- *)

(** impulses.py 43-44, 89-103. *)
Definition mf_gamma_init (gamma : vec) : ten := fun _ _ b => gamma b * 1.
Definition expected_g (B : nat) (mg : ten) : ten := fun k1 k2 b => mg k1 k2 b / Rsum B (fun b' => mg k1 k2 b').
Definition expected_log_g (psi : R -> R) (B : nat) (mg : ten) : ten :=
  fun k1 k2 b => psi (mg k1 k2 b) - psi (Rsum B (fun b' => mg k1 k2 b')).
(** impulses.py 105-112, [mf_update_gamma]; with no data the sum is 0. *)
Definition mf_update_gamma (gamma : vec) (data : list parents) (frac step : R) (mg : ten) : ten :=
  fun k1 k2 b => mix_step step (mg k1 k2 b) (gamma b + pool (fun d => exp_ir_ss d k1 k2 b) data / frac).
(** impulses.py 117-121. *)
Definition ir_mf gamma data mg := mf_update_gamma gamma data 1 1 mg.
Definition ir_sgd gamma data frac step mg := mf_update_gamma gamma data frac step mg.

(* ---------------- the network as the weight model sees it ---------------- *)

(** network.kappa, expected_log_p, expected_log_notp, expected_v, expected_log_v. *)
Record netexp := { ne_kappa : R; ne_lnp : nat -> nat -> er; ne_lnnotp : nat -> nat -> er; ne_v : mat; ne_lnv : mat;
                   ne_allow : bool }.
(** A network object together with its variational parameters. *)
Inductive mfnet :=
| MfSbm (fixed_p : bool) (s : sbm) (f : mfsbm)
| MfEr (n : ernet).
(** network.py 361-442 (SBM), 796-822 (fixed sparsity), 984-1001 (Erdos-Renyi: expected_v is a scalar,
    broadcast; without a gamma prior the attribute is missing). *)
Definition mfnet_view (psi : R -> R) (no : mfnet) : result netexp :=
  match no with
  | MfSbm fp s f =>
      Ok {| ne_kappa := sb_kappa s;
            ne_lnp := if fp then fsbm_expected_log_p s else sbm_expected_log_p psi s f;
            ne_lnnotp := if fp then fsbm_expected_log_notp s else sbm_expected_log_notp psi s f;
            ne_v := sbm_expected_v s f; ne_lnv := sbm_expected_log_v psi s f; ne_allow := sb_allow s |}
  | MfEr n =>
      do v <- er_expected_v n ;;
      do lv <- er_expected_log_v psi n ;;
      Ok {| ne_kappa := e_kappa n; ne_lnp := fun i j => elog (Fin (er_P n i j));
            ne_lnnotp := fun i j => elog (Fin (1 - er_P n i j));
            ne_v := fun _ _ => v; ne_lnv := fun _ _ => lv; ne_allow := e_allow n |}
  end.
(** network.py 614-669, 824-848, 1012-1024, called by the model with default flags
    (models.py 1320, 1381-1383). *)
Definition all_flags : flags := {| up_p := true; up_v := true; up_m := true; up_c := true |}.
Definition mfnet_batch (lgam psi : R -> R) (w : wstats) (no : mfnet) : result mfnet :=
  match no with
  | MfSbm false s f => Ok (MfSbm false s (sbm_mf_batch lgam psi s all_flags w f))
  | MfSbm true s f => do f' <- fsbm_mf_batch lgam psi s (no_p all_flags) w f ;; Ok (MfSbm true s f')
  | MfEr n => do n' <- er_meanfieldupdate n w 1 ;; Ok (MfEr n')
  end.
Definition mfnet_sgd (lgam psi : R -> R) (frac step : R) (w : wstats) (no : mfnet) : result mfnet :=
  match no with
  | MfSbm false s f => Ok (MfSbm false s (sbm_mf_sgd lgam psi s all_flags step w f))
  | MfSbm true s f => do f' <- fsbm_mf_sgd lgam psi s (no_p all_flags) step w f ;; Ok (MfSbm true s f')
  | MfEr n => do n' <- er_meanfieldupdate n w step ;; Ok (MfEr n')
  end.

(* ---------------- weights ---------------- *)

(** weights.py 197-208.  mf_p is an extended real because the update can produce NaN. *)
Record mfw := { w_p : nat -> nat -> er; w_kappa0 : mat; w_v0 : mat; w_kappa1 : mat; w_v1 : mat }.
Definition mfw_init (kappa0 nu0 : R) (n : net) : mfw :=
  {| w_p := fun _ _ => Fin (1 - / 10 ^ 3); w_kappa0 := fun _ _ => kappa0 * 1; w_v0 := fun _ _ => nu0 * 1;
     w_kappa1 := fun _ _ => n_kappa n * 1; w_v1 := fun i j => n_V n i j * 1 |}.
(** weights.py 269-290: expected_A, expected_W_given_A, expected_W.  [w_A] reads mf_p as a number. *)
Definition w_A (w : mfw) : mat := fun i j => fval (w_p w i j).
Definition expected_W_given_A (w : mfw) (a : R) : mat :=
  fun i j => a * (w_kappa1 w i j / w_v1 w i j) + (1 - a) * (w_kappa0 w i j / w_v0 w i j).
Definition expected_W (allow : bool) (w : mfw) : mat :=
  let E := fun i j => w_A w i j * expected_W_given_A w 1 i j + (1 - w_A w i j) * expected_W_given_A w 0 i j in
  if negb allow then fill_diagonal E 0 else E.
(** weights.py 299-317: expected_log_W_given_A, expected_log_W. *)
Definition expected_log_W_given_A (psi : R -> R) (w : mfw) (a : R) : mat :=
  fun i j => a * (psi (w_kappa1 w i j) - ln (w_v1 w i j)) + (1 - a) * (psi (w_kappa0 w i j) - ln (w_v0 w i j)).
Definition expected_log_W (psi : R -> R) (allow : bool) (w : mfw) : nat -> nat -> er :=
  let E := fun i j => Fin (w_A w i j * expected_log_W_given_A psi w 1 i j
                           + (1 - w_A w i j) * expected_log_W_given_A psi w 0 i j) in
  if negb allow then efill_diagonal E NInf else E.
Definition wstats_of (psi : R -> R) (w : mfw) : wstats :=
  {| ws_A := w_A w; ws_W := expected_W_given_A w 1; ws_lnW := expected_log_W_given_A psi w 1 |}.

(** utils.py 64-68. *)
Definition elogistic (x : er) : er := ediv (Fin 1) (eadd (Fin 1) (eexp (eopp x))).
Definition elogit (x : er) : er := esub (elog (ediv x (Fin 1))) (elog (esub (Fin 1) (ediv x (Fin 1)))).
(** np.clip(x, lo, hi) *)
Definition eclip (lo hi : R) (x : er) : er := emin (emax x (Fin lo)) (Fin hi).

(** weights.py 322-340, [meanfieldupdate_p]. *)
Definition logit_p (lgam : R -> R) (kappa0 nu0 : R) (n : netexp) (w : mfw) (i j : nat) : er :=
  eadd (esub (ne_lnp n i j) (ne_lnnotp n i j))
    (Fin (ne_kappa n * ne_lnv n i j - lgam (ne_kappa n)
          + (lgam (w_kappa1 w i j) - w_kappa1 w i j * ln (w_v1 w i j))
          + (lgam kappa0 - kappa0 * ln nu0)
          + (w_kappa0 w i j * ln (w_v0 w i j) - lgam (w_kappa0 w i j)))).
Definition meanfieldupdate_p (lgam : R -> R) (kappa0 nu0 : R) (n : netexp) (step : R) (w : mfw) : mfw :=
  {| w_p := fun i j => eclip (/ 10 ^ 8) (1 - / 10 ^ 8)
       (elogistic (eadd (emul (Fin (1 - step)) (elogit (w_p w i j)))
                        (emul (Fin step) (logit_p lgam kappa0 nu0 n w i j))));
     w_kappa0 := w_kappa0 w; w_v0 := w_v0 w; w_kappa1 := w_kappa1 w; w_v1 := w_v1 w |}.
(** weights.py 342-362, [meanfieldupdate_kappa_v]: exp_ss[0] of an empty sum raises TypeError. *)
Definition meanfieldupdate_kappa_v (kappa0 nu0 : R) (n : netexp) (data : list parents) (frac step : R) (w : mfw) : result mfw :=
  match data with
  | [] => Raise TypeError
  | _ =>
    let s0 := fun i j => pool (fun d => exp_weight_ss0 d i j) data / frac in
    let s1 := fun i => pool (fun d => IZR (pa_Ns d i)) data / frac in
    Ok {| w_p := w_p w;
          w_kappa0 := fun i j => mix_step step (w_kappa0 w i j) (kappa0 + s0 i j);
          w_v0 := fun i j => mix_step step (w_v0 w i j) (nu0 * 1 + s1 i);
          w_kappa1 := fun i j => mix_step step (w_kappa1 w i j) (ne_kappa n + s0 i j);
          w_v1 := fun i j => mix_step step (w_v1 w i j) (ne_v n i j + s1 i) |}
  end.
(** weights.py 364-370. *)
Definition weights_mf lgam kappa0 nu0 n data w : result mfw :=
  do w1 <- meanfieldupdate_kappa_v kappa0 nu0 n data 1 1 w ;; Ok (meanfieldupdate_p lgam kappa0 nu0 n 1 w1).
Definition weights_sgd lgam kappa0 nu0 n data frac step w : result mfw :=
  do w1 <- meanfieldupdate_kappa_v kappa0 nu0 n data frac step w ;; Ok (meanfieldupdate_p lgam kappa0 nu0 n step w1).

(* ---------------- the whole model ---------------- *)

(** Hyperparameters and dimensions used by the variational updates. *)
Record mfhyp := { mh_K : nat; mh_B : nat; mh_alpha : R; mh_beta : R; mh_gamma : vec; mh_kappa0 : R; mh_nu0 : R }.
Record mfmodel := { mm_h : mfhyp; mm_bias : mfbias; mm_gamma : ten; mm_w : mfw; mm_net : mfnet; mm_data : list parents;
                    mm_off : option nat }.
Definition mfnet_allow (no : mfnet) : bool := match no with MfSbm _ s _ => sb_allow s | MfEr n => e_allow n end.
(** What the parent update reads (parents.py 354-362): exp of the expected logarithms. *)
Definition mf_in_of (psi : R -> R) (m : mfmodel) : mf_in :=
  {| e_lam := fun k => exp (expected_log_lambda0 psi (mm_bias m) k);
     e_W := fun i j => fval (eexp (expected_log_W psi (mfnet_allow (mm_net m)) (mm_w m) i j));
     e_g := fun i j b => exp (expected_log_g psi (mh_B (mm_h m)) (mm_gamma m) i j b) |}.
Fixpoint mf_parents (e : mf_in) (data : list parents) : result (list parents) :=
  match data with
  | [] => Ok []
  | p :: rest => do p' <- mf_update_python p e ;; do rest' <- mf_parents e rest ;; Ok (p' :: rest')
  end.
(** models.py 1306-1322, [meanfield_coordinate_descent_step], without the bound returned on 1322. *)
Definition mf_batch_step (lgam psi : R -> R) (m : mfmodel) : result mfmodel :=
  let h := mm_h m in
  do data <- mf_parents (mf_in_of psi m) (mm_data m) ;;                              (* 1307-1308 *)
  do b <- bias_mf (mh_alpha h) (mh_beta h) data (mm_bias m) ;;                       (* 1311 *)
  let g := ir_mf (mh_gamma h) data (mm_gamma m) in                                   (* 1314 *)
  do n <- mfnet_view psi (mm_net m) ;;
  do w <- weights_mf lgam (mh_kappa0 h) (mh_nu0 h) n data (mm_w m) ;;                (* 1317 *)
  do no <- mfnet_batch lgam psi (wstats_of psi w) (mm_net m) ;;                      (* 1320 *)
  Ok {| mm_h := h; mm_bias := b; mm_gamma := g; mm_w := w; mm_net := no; mm_data := data; mm_off := mm_off m |}.

(** models.py 1342-1351: the next offset and the end of the slice. *)
Definition next_offset (T mb : nat) (off : option nat) : nat :=
  match off with
  | None => 0%nat
  | Some o => let o' := (o + mb)%nat in if (T <=? o')%nat then 0%nat else o'
  end.
Definition sgd_end (T mb off : nat) : nat := Nat.min (off + mb) T.
(** models.py 1337-1387, [sgd_step]. *)
Definition mf_sgd_step (lgam psi : R -> R) (mb : nat) (step : R) (m : mfmodel) : result mfmodel :=
  match mm_data m with
  | [d] =>
    let h := mm_h m in
    let off := next_offset (pa_T d) mb (mm_off m) in
    let len := (sgd_end (pa_T d) mb off - off)%nat in
    let frac := INR len / INR (pa_T d) in                                            (* 1355 *)
    let p := mk_parents (mh_K h) (mh_B h) (pa_dt d) len (slice2 off (pa_S d)) (slice3 off (pa_F d)) in
    do p <- mf_update_python p (mf_in_of psi m) ;;                                   (* 1364 *)
    do b <- bias_sgd (mh_alpha h) (mh_beta h) [p] frac step (mm_bias m) ;;
    let g := ir_sgd (mh_gamma h) [p] frac step (mm_gamma m) in
    do n <- mfnet_view psi (mm_net m) ;;
    do w <- weights_sgd lgam (mh_kappa0 h) (mh_nu0 h) n [p] frac step (mm_w m) ;;
    do no <- mfnet_sgd lgam psi frac step (wstats_of psi w) (mm_net m) ;;
    Ok {| mm_h := h; mm_bias := b; mm_gamma := g; mm_w := w; mm_net := no; mm_data := mm_data m; mm_off := Some off |}
  | _ => Raise AssertionError
  end.

Inductive mfop := OpBatch | OpSgd (mb : nat) (step : R).
Definition mf_op_step (lgam psi : R -> R) (o : mfop) (m : mfmodel) : result mfmodel :=
  match o with OpBatch => mf_batch_step lgam psi m | OpSgd mb step => mf_sgd_step lgam psi mb step m end.
Fixpoint mf_run (lgam psi : R -> R) (h : list mfop) (m : mfmodel) : result mfmodel :=
  match h with [] => Ok m | o :: h' => do m' <- mf_op_step lgam psi o m ;; mf_run lgam psi h' m' end.
