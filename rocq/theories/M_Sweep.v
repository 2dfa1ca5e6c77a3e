(** * M_Sweep: construction and whole Gibbs sweeps of the discrete-time network models
    (pyhawkes/models.py 526-640, 1190-1270), tying together the parts modelled in
    M_Parents, M_Gibbs and M_Network. *)
From Verif Require Import Prelude ExtReal Arrays M_Basis M_Parents M_Discrete M_Gibbs M_Dist M_Network.
Set Implicit Arguments.
Open Scope R_scope.

(** The network object of a model: a (fixed-sparsity) stochastic block model or an
    Erdos-Renyi network. *)
Inductive netobj :=
| NetSbm (fixed_p : bool) (s : sbm)
| NetEr (n : ernet).
(** network.P, network.V, network.kappa (network.py 139-160, 929-950). *)
Definition net_view (no : netobj) : net :=
  match no with NetSbm _ s => net_of_sbm s | NetEr n => net_of_er n end.
Definition net_allow (no : netobj) : bool :=
  match no with NetSbm _ s => sb_allow s | NetEr n => e_allow n end.
(** network.resample(data=(A, W)) (network.py 293-301, 784-791, 978-981). *)
Definition net_resample (lgam : R -> R) (d : gibbs_draws) (g : R -> R -> R) (A : bmat) (W : mat) (no : netobj) : netobj :=
  match no with
  | NetSbm fp s => NetSbm fp (sbm_resample lgam fp d A W s)
  | NetEr n => NetEr (er_resample g A W n)
  end.

(** Hyperparameters: GammaBias(alpha, beta), DirichletImpulseResponses(gamma),
    GammaMixtureWeights(kappa_0, nu_0), SpikeAndSlabGammaWeights(parallel_resampling), and whether the
    parents use the GSL sampler (parents.py 55-80). *)
Record hypers := { h_alpha : R; h_beta : R; h_gamma : vec; h_kappa0 : R; h_nu0 : R; h_parallel : bool; h_gsl : bool }.
Record gibbs := { gi_m : dmodel; gi_net : netobj; gi_h : hypers }.

(** Everything drawn during one sweep; the parents of the i-th data set use [sd_mult i]. *)
Record sweep_draws := {
  sd_mult : nat -> mult_oracle; sd_bias : gam1; sd_ir : dir2;
  sd_net : gibbs_draws; sd_er : R -> R -> R; sd_W : gam2; sd_u : mat; sd_order : list nat }.

(** models.py 1206-1207 and 1257-1258: for p in self.data_list: p.resample(). *)
Fixpoint resample_parents (use_gsl : bool) (mult : nat -> mult_oracle) (q : params) (i : nat) (data : list parents)
  : result (list parents) :=
  match data with
  | [] => Ok []
  | p :: rest =>
      do p' <- pa_resample use_gsl (mult i) p q ;;
      do rest' <- resample_parents use_gsl mult q (S i) rest ;;
      Ok (p' :: rest')
  end.

(** models.py 1198-1219, [DiscreteTimeNetworkHawkesModelSpikeAndSlab.resample_model]: parents, bias,
    impulse responses, network, weights. *)
Definition ss_sweep (lgam : R -> R) (d : sweep_draws) (st : gibbs) : result gibbs :=
  let h := gi_h st in let m := gi_m st in
  do data <- resample_parents (h_gsl h) (sd_mult d) (params_of m) 0 (dm_data m) ;;      (* 1206-1207 *)
  let m := with_data m data in
  let m := with_lam m (bias_resample (sd_bias d) (h_alpha h) (h_beta h) data) in        (* 1210 *)
  let m := with_g m (ir_resample (sd_ir d) (h_gamma h) data) in                         (* 1213 *)
  let no := net_resample lgam (sd_net d) (sd_er d) (dm_A m) (dm_W m) (gi_net st) in     (* 1216 *)
  let m := ss_resample (h_parallel h) (sd_order d) (sd_W d) (sd_u d) (net_view no) m in (* 1219 *)
  Ok {| gi_m := m; gi_net := no; gi_h := h |}.
(** models.py 1251-1271, [DiscreteTimeNetworkHawkesModelGammaMixture.resample_model(resample_network)]:
    parents, bias, impulse responses, weights, then the network. *)
Definition mix_sweep (lgam : R -> R) (resample_network : bool) (d : sweep_draws) (st : gibbs) : result gibbs :=
  let h := gi_h st in let m := gi_m st in
  do data <- resample_parents (h_gsl h) (sd_mult d) (params_of m) 0 (dm_data m) ;;      (* 1257-1258 *)
  let m := with_data m data in
  let m := with_lam m (bias_resample (sd_bias d) (h_alpha h) (h_beta h) data) in        (* 1261 *)
  let m := with_g m (ir_resample (sd_ir d) (h_gamma h) data) in                         (* 1264 *)
  let m := mix_resample lgam (h_kappa0 h) (h_nu0 h) (sd_W d) (sd_u d) (net_view (gi_net st)) m in  (* 1267 *)
  let no := if resample_network then net_resample lgam (sd_net d) (sd_er d) (dm_A m) (dm_W m) (gi_net st)
            else gi_net st in                                                           (* 1270-1271 *)
  Ok {| gi_m := m; gi_net := no; gi_h := h |}.
Definition sweep (lgam : R -> R) (rn : bool) (d : sweep_draws) (st : gibbs) : result gibbs :=
  if dm_mix (gi_m st) then mix_sweep lgam rn d st else ss_sweep lgam d st.

(** models.py 556-631, [__init__], with the basis table and network already built: bias.py 27-28 and
    impulses.py 40-41 draw from the prior (empty data list); weights.py 33-35, 216-218 start from
    A = ones, W = zeros and call resample() without data. *)
Definition construct (lgam : R -> R) (mix : bool) (K B : nat) (dt : R) (L : nat) (bas : mat) (h : hypers) (no : netobj)
    (d : sweep_draws) : gibbs :=
  let m := {| dm_K := K; dm_B := B; dm_dt := dt; dm_L := L; dm_L_int := true; dm_bas := bas; dm_mix := mix;
              dm_A := fun _ _ => true; dm_W := fun _ _ => 0;
              dm_g := ir_resample (sd_ir d) (h_gamma h) [];
              dm_lam := bias_resample (sd_bias d) (h_alpha h) (h_beta h) []; dm_data := [] |} in
  {| gi_m := if mix then mix_resample lgam (h_kappa0 h) (h_nu0 h) (sd_W d) (sd_u d) (net_view no) m
             else ss_resample (h_parallel h) (sd_order d) (sd_W d) (sd_u d) (net_view no) m;
     gi_net := no; gi_h := h |}.

(** What a user does to a model during Gibbs sampling. *)
Inductive gop :=
| GAdd (s : sval) (f : option fval_) (mb : option Z)
| GSweep (resample_network : bool) (d : sweep_draws).
Definition with_model (st : gibbs) (m : dmodel) : gibbs := {| gi_m := m; gi_net := gi_net st; gi_h := gi_h st |}.
(** One operation: its outcome (add_data may reject its arguments) and the state it leaves. *)
Definition gstep (lgam : R -> R) (o : gop) (st : gibbs) : result unit * gibbs :=
  match o with
  | GAdd s f mb => let '(r, m) := add_data_st (gi_m st) s f mb in (r, with_model st m)
  | GSweep rn d => match sweep lgam rn d st with Ok st' => (Ok tt, st') | Raise e => (Raise e, st) end
  end.
Fixpoint grun (lgam : R -> R) (h : list gop) (st : gibbs) : gibbs :=
  match h with [] => st | o :: h' => grun lgam h' (snd (gstep lgam o st)) end.
