(** * M_Mixed: the gamma-mixture network model as one object carrying both its Gibbs state and its variational
    state (models.py 1238-1395, weights.py 190-210, 415-422, 483-500, bias.py 132-138, impulses.py 144-152,
    network.py 719-730, 862-872, 1036-1041), so that Gibbs sweeps, mean-field steps, draws from the variational
    posterior and re-initialisations can be interleaved. *)
From Verif Require Import Prelude ExtReal Arrays M_Basis M_Parents M_Discrete M_Gibbs M_Dist M_Network M_Sweep
  M_MeanField M_Standard.
Set Implicit Arguments.
Open Scope R_scope.

(** The attributes of a DiscreteTimeNetworkHawkesModelGammaMixture(SBM).  The Gibbs parameters, hyperparameters,
    network and data are in [mx_g] (the variational parameters of an Erdos-Renyi network are inside its record);
    [mx_f] are the variational parameters of a block-model network (unused for Erdos-Renyi).
    [mx_scalar]: mf_kappa_0 and mf_v_0 are Python scalars instead of K x K arrays, as weights.py 495-496 leaves them;
    the values are then the same for every pair. *)
Record mixed := { mx_g : gibbs; mx_bias : mfbias; mx_gamma : ten; mx_w : mfw; mx_scalar : bool; mx_f : mfsbm;
                  mx_off : option nat }.

(** The hyperparameters as the mean-field code reads them (bias.py 24-25, impulses.py 35-38, weights.py 195-196). *)
Definition hyp_of (g : gibbs) : mfhyp :=
  {| mh_K := dm_K (gi_m g); mh_B := dm_B (gi_m g); mh_alpha := h_alpha (gi_h g); mh_beta := h_beta (gi_h g);
     mh_gamma := h_gamma (gi_h g); mh_kappa0 := h_kappa0 (gi_h g); mh_nu0 := h_nu0 (gi_h g) |}.
Definition mfnet_of (no : netobj) (f : mfsbm) : mfnet :=
  match no with NetSbm fp s => MfSbm fp s f | NetEr n => MfEr n end.
(** The part of the object the mean-field methods read and write (models.py 1305-1385) ... *)
Definition mf_of (x : mixed) : mfmodel :=
  {| mm_h := hyp_of (mx_g x); mm_bias := mx_bias x; mm_gamma := mx_gamma x; mm_w := mx_w x;
     mm_net := mfnet_of (gi_net (mx_g x)) (mx_f x); mm_data := dm_data (gi_m (mx_g x)); mm_off := mx_off x |}.
(** ... and the object after such a method: Gibbs parameters untouched, the data list with its new expected parents.
    Every mean-field step recomputes mf_kappa_0 and mf_v_0 from array statistics (weights.py 350-357). *)
Definition put_mf (x : mixed) (m : mfmodel) : mixed :=
  {| mx_g := {| gi_m := with_data (gi_m (mx_g x)) (mm_data m);
                gi_net := match mm_net m with MfSbm fp s _ => NetSbm fp s | MfEr n => NetEr n end;
                gi_h := gi_h (mx_g x) |};
     mx_bias := mm_bias m; mx_gamma := mm_gamma m; mx_w := mm_w m; mx_scalar := false;
     mx_f := match mm_net m with MfSbm _ _ f => f | MfEr _ => mx_f x end; mx_off := mm_off m |}.

(** models.py 553-620 for this class: the Gibbs part is [construct]; bias.py 30-32, impulses.py 43-44,
    weights.py 197-208 set the variational parameters from the hyperparameters, network.py 307-330 the block
    model's ([dirs] is the Dirichlet(10,...,10) sample for mf_m). *)
Definition construct_mixed (lgam : R -> R) (K B : nat) (dt : R) (L : nat) (bas : mat) (h : hypers) (no : netobj)
    (d : sweep_draws) (dirs : mat) : mixed :=
  {| mx_g := construct lgam true K B dt L bas h no d;
     mx_bias := mfbias_init (h_alpha h) (h_beta h); mx_gamma := mf_gamma_init (h_gamma h);
     mx_w := mfw_init (h_kappa0 h) (h_nu0 h) (net_view no); mx_scalar := false;
     mx_f := match no with
             | NetSbm _ s => mf_init s dirs
             | NetEr _ => {| mf_pi := fun _ => 0; mf_m := fun _ _ => 0; mf_tau0 := fun _ _ => 0; mf_tau1 := fun _ _ => 0;
                             mf_alpha := fun _ _ => 0; mf_beta := fun _ _ => 0 |}
             end;
     mx_off := None |}.

(* ---------------- drawing from the variational posterior ---------------- *)

(** The draws of one resample_from_mf call: per-process gammas, uniforms and the two gamma arrays of the weights, the
    impulse Dirichlets, the network's draws and the single gamma of an Erdos-Renyi scale.  When mf_kappa_0, mf_v_0 are
    scalars, np.random.gamma returns one number: [rm_W0s]. *)
Record rm_draws := { rm_bias : gam1; rm_u : mat; rm_W0 : gam2; rm_W0s : R -> R -> R; rm_W1 : gam2; rm_ir : dir2;
                     rm_net : mf_draws; rm_er : R -> R -> R }.
(** bias.py 132-138. *)
Definition bias_from_mf (g : gam1) (b : mfbias) : vec := fun k => g k (mb_alpha b k) (1 / mb_beta b k).
(** weights.py 415-422: A first; then both gamma arrays are drawn in full and combined with A.  A comparison with NaN
    is false. *)
Definition A_from_mf (u : mat) (w : mfw) : bmat := fun i j => elt (Fin (u i j)) (w_p w i j).
Definition W_from_mf (scalar : bool) (d : rm_draws) (A : bmat) (w : mfw) : mat :=
  fun i j => (1 - b2R (A i j)) * (if scalar then rm_W0s d (w_kappa0 w 0%nat 0%nat) (1 / w_v0 w 0%nat 0%nat)
                                  else rm_W0 d i j (w_kappa0 w i j) (1 / w_v0 w i j))
             + b2R (A i j) * rm_W1 d i j (w_kappa1 w i j) (1 / w_v1 w i j).
(** impulses.py 144-152. *)
Definition g_from_mf (d : dir2) (mg : ten) : ten := fun i j => d i j (fun b => mg i j b).
(** network.py 719-730, 862-872 (block models); 1036-1041 (Erdos-Renyi: without a gamma prior on the scale the
    attributes mf_alpha, mf_beta do not exist). *)
Definition net_from_mf (d : rm_draws) (f : mfsbm) (no : netobj) : result netobj :=
  match no with
  | NetSbm fp s => Ok (NetSbm fp (sbm_from_mf fp (rm_net d) f s))
  | NetEr n => match e_mf n with
               | Some (a, b) => Ok (NetEr (er_with_v n (rm_er d a (1 / b))))
               | None => Raise AttributeError
               end
  end.
(** models.py 1390-1395, [resample_from_mf], with the state it leaves behind even when the last line raises. *)
Definition from_mf_st (d : rm_draws) (x : mixed) : result unit * mixed :=
  let m := gi_m (mx_g x) in
  let A := A_from_mf (rm_u d) (mx_w x) in
  let m1 := with_g (with_W (with_A (with_lam m (bias_from_mf (rm_bias d) (mx_bias x))) A)
                     (W_from_mf (mx_scalar x) d A (mx_w x))) (g_from_mf (rm_ir d) (mx_gamma x)) in
  let out no := {| mx_g := {| gi_m := m1; gi_net := no; gi_h := gi_h (mx_g x) |}; mx_bias := mx_bias x;
                   mx_gamma := mx_gamma x; mx_w := mx_w x; mx_scalar := mx_scalar x; mx_f := mx_f x; mx_off := mx_off x |} in
  match net_from_mf d (mx_f x) (gi_net (mx_g x)) with
  | Ok no => (Ok tt, out no)
  | Raise e => (Raise e, out (gi_net (mx_g x)))
  end.

(* ---------------- re-initialisation ---------------- *)

(** weights.py 483-500, [initialize_from_gibbs(A, W, scale)]: A as 0/1 numbers. *)
Definition w_from_gibbs (kappa0 nu0 : R) (A : bmat) (W : mat) (scale : R) : mfw :=
  {| w_p := fun i j => Fin (95 / 100 * b2R (A i j) + (1 - 95 / 100) * (1 - b2R (A i j)));
     w_kappa0 := fun _ _ => kappa0; w_v0 := fun _ _ => nu0;
     w_kappa1 := fun i j => scale * W i j; w_v1 := fun _ _ => scale |}.
Definition init_from_gibbs (A : bmat) (W : mat) (scale : R) (x : mixed) : mixed :=
  {| mx_g := mx_g x; mx_bias := mx_bias x; mx_gamma := mx_gamma x;
     mx_w := w_from_gibbs (h_kappa0 (gi_h (mx_g x))) (h_nu0 (gi_h (mx_g x))) A W scale; mx_scalar := true;
     mx_f := mx_f x; mx_off := mx_off x |}.
(** np.mean(self.network.p) (models.py 703): a C x C table or a scalar. *)
Definition mean_p (no : netobj) : R :=
  match no with
  | NetSbm _ s => Rsum (sb_C s) (fun a => Rsum (sb_C s) (fun b => sb_p s a b)) / (INR (sb_C s) * INR (sb_C s))
  | NetEr n => e_p n
  end.
(** models.py 1264-1282, [initialize_with_standard_model] with a standard model given: the base class part
    ([init_from_std], models.py 655-710), then the variational parameters.  Also returns the standard model as it is
    left behind. *)
Definition init_with_std (s : smodel) (x : mixed) : result (mixed * smodel) :=
  let m := gi_m (mx_g x) in
  do r <- init_from_std s (dm_K m) (dm_B m) (mean_p (gi_net (mx_g x))) ;;
  let ip := fst r in
  let m1 := with_g (with_W (with_A (with_lam m (ip_lam ip)) (ip_A ip)) (ip_W ip)) (ip_g ip) in
  Ok ({| mx_g := {| gi_m := m1; gi_net := gi_net (mx_g x); gi_h := gi_h (mx_g x) |}; mx_bias := init_mf_bias ip;
         mx_gamma := init_mf_gamma ip; mx_w := init_mf_weights (h_nu0 (gi_h (mx_g x))) ip; mx_scalar := false;
         mx_f := mx_f x; mx_off := mx_off x |}, snd r).

(* ---------------- histories ---------------- *)

(** What a user does to the model. *)
Inductive mop :=
| XAdd (s : sval) (f : option fval_) (mb : option Z)
| XSweep (resample_network : bool) (d : sweep_draws)
| XBatch
| XSgd (mb : nat) (step : R)
| XFromMf (d : rm_draws)
| XFromGibbs (A : bmat) (W : mat) (scale : R)
| XStd (s : smodel).
Definition with_gibbs (x : mixed) (g : gibbs) : mixed :=
  {| mx_g := g; mx_bias := mx_bias x; mx_gamma := mx_gamma x; mx_w := mx_w x; mx_scalar := mx_scalar x; mx_f := mx_f x;
     mx_off := mx_off x |}.
(** One operation: its outcome and the state it leaves.  What a failing sweep, mean-field step or standard-model
    initialisation leaves behind is not modelled (the old state stands for it). *)
Definition lift_mf (x : mixed) (r : result mfmodel) : result unit * mixed :=
  match r with Ok m => (Ok tt, put_mf x m) | Raise e => (Raise e, x) end.
Definition mstep (lgam psi : R -> R) (o : mop) (x : mixed) : result unit * mixed :=
  match o with
  | XAdd s f mb => let '(r, g) := gstep lgam (GAdd s f mb) (mx_g x) in (r, with_gibbs x g)
  | XSweep rn d => let '(r, g) := gstep lgam (GSweep rn d) (mx_g x) in (r, with_gibbs x g)
  | XBatch => lift_mf x (mf_batch_step lgam psi (mf_of x))
  | XSgd mb step => lift_mf x (mf_sgd_step lgam psi mb step (mf_of x))
  | XFromMf d => from_mf_st d x
  | XFromGibbs A W scale => (Ok tt, init_from_gibbs A W scale x)
  | XStd s => match init_with_std s x with Ok (x', _) => (Ok tt, x') | Raise e => (Raise e, x) end
  end.
