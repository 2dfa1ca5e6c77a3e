(** * M_Given: several discrete-time network models in one program, with component objects (background rates, impulse responses,
    weights, network) passed to the constructor, and hence possibly shared (pyhawkes/models.py 556-631, 1198-1271).

    Objects live in a store and refer to each other by address, as they do in Python: a weights object holds the model it was
    built with and that model's network (internals/weights.py 24-27, 192-196), an impulse-response object holds its model
    (internals/impulses.py 24), and a model holds its four components.  The parallel adjacency sampler goes through module-level
    globals (internals/parallel_adjacency_resampling.py 11-13), which are part of the store. *)
From Verif Require Import Prelude ExtReal Arrays M_Basis M_Parents M_Discrete M_Gibbs M_Dist M_Network M_Sweep.
Set Implicit Arguments.
Open Scope R_scope.

(** internals/bias.py 20-28. *)
Record bias_o := { bi_K : nat; bi_alpha : R; bi_beta : R; bi_lam : vec }.
(** internals/impulses.py 24-44. *)
Record ir_o := { ir_owner : nat; ir_K : nat; ir_B : nat; ir_gamma : vec; ir_g : ten }.
(** internals/weights.py 24-35 and 192-218 ([wt_mix]: which of the two classes). *)
Record wt_o := { wt_owner : nat; wt_net : nat; wt_K : nat; wt_mix : bool; wt_kappa0 : R; wt_nu0 : R; wt_parallel : bool;
                 wt_A : bmat; wt_W : mat }.
(** models.py 567-631: what a model object holds ([mo_mix]: which of the two model classes). *)
Record mod_o := { mo_mix : bool; mo_K : nat; mo_B : nat; mo_dt : R; mo_L : nat; mo_L_int : bool; mo_bas : mat;
                  mo_bias : nat; mo_ir : nat; mo_wt : nat; mo_net : nat; mo_data : list parents }.
(** The store: objects of each kind by address, the module-level globals of the parallel sampler (the model and the data it was
    last given), whether the GSL sampler is available, the next free address, and the models built so far. *)
Record world := { w_bias : nat -> bias_o; w_ir : nat -> ir_o; w_wt : nat -> wt_o; w_net : nat -> netobj; w_mod : nat -> mod_o;
                  w_par : nat * list parents; w_gsl : bool; w_next : nat; w_models : list nat }.

Definition set_bias (w : world) (a : nat) (x : bias_o) : world :=
  {| w_bias := upd (w_bias w) a x; w_ir := w_ir w; w_wt := w_wt w; w_net := w_net w; w_mod := w_mod w; w_par := w_par w;
     w_gsl := w_gsl w; w_next := w_next w; w_models := w_models w |}.
Definition set_ir (w : world) (a : nat) (x : ir_o) : world :=
  {| w_bias := w_bias w; w_ir := upd (w_ir w) a x; w_wt := w_wt w; w_net := w_net w; w_mod := w_mod w; w_par := w_par w;
     w_gsl := w_gsl w; w_next := w_next w; w_models := w_models w |}.
Definition set_wt (w : world) (a : nat) (x : wt_o) : world :=
  {| w_bias := w_bias w; w_ir := w_ir w; w_wt := upd (w_wt w) a x; w_net := w_net w; w_mod := w_mod w; w_par := w_par w;
     w_gsl := w_gsl w; w_next := w_next w; w_models := w_models w |}.
Definition set_net (w : world) (a : nat) (x : netobj) : world :=
  {| w_bias := w_bias w; w_ir := w_ir w; w_wt := w_wt w; w_net := upd (w_net w) a x; w_mod := w_mod w; w_par := w_par w;
     w_gsl := w_gsl w; w_next := w_next w; w_models := w_models w |}.
Definition set_mod (w : world) (a : nat) (x : mod_o) : world :=
  {| w_bias := w_bias w; w_ir := w_ir w; w_wt := w_wt w; w_net := w_net w; w_mod := upd (w_mod w) a x; w_par := w_par w;
     w_gsl := w_gsl w; w_next := w_next w; w_models := w_models w |}.
Definition set_par (w : world) (x : nat * list parents) : world :=
  {| w_bias := w_bias w; w_ir := w_ir w; w_wt := w_wt w; w_net := w_net w; w_mod := w_mod w; w_par := x;
     w_gsl := w_gsl w; w_next := w_next w; w_models := w_models w |}.
Definition set_next (w : world) (n : nat) : world :=
  {| w_bias := w_bias w; w_ir := w_ir w; w_wt := w_wt w; w_net := w_net w; w_mod := w_mod w; w_par := w_par w;
     w_gsl := w_gsl w; w_next := n; w_models := w_models w |}.
Definition add_model (w : world) (i : nat) : world :=
  {| w_bias := w_bias w; w_ir := w_ir w; w_wt := w_wt w; w_net := w_net w; w_mod := w_mod w; w_par := w_par w;
     w_gsl := w_gsl w; w_next := w_next w; w_models := w_models w ++ [i] |}.
Definition mo_with_data (mo : mod_o) (d : list parents) : mod_o :=
  {| mo_mix := mo_mix mo; mo_K := mo_K mo; mo_B := mo_B mo; mo_dt := mo_dt mo; mo_L := mo_L mo; mo_L_int := mo_L_int mo;
     mo_bas := mo_bas mo; mo_bias := mo_bias mo; mo_ir := mo_ir mo; mo_wt := mo_wt mo; mo_net := mo_net mo; mo_data := d |}.
Definition wt_with_A (x : wt_o) (A : bmat) : wt_o :=
  {| wt_owner := wt_owner x; wt_net := wt_net x; wt_K := wt_K x; wt_mix := wt_mix x; wt_kappa0 := wt_kappa0 x; wt_nu0 := wt_nu0 x;
     wt_parallel := wt_parallel x; wt_A := A; wt_W := wt_W x |}.
Definition wt_with_W (x : wt_o) (W : mat) : wt_o :=
  {| wt_owner := wt_owner x; wt_net := wt_net x; wt_K := wt_K x; wt_mix := wt_mix x; wt_kappa0 := wt_kappa0 x; wt_nu0 := wt_nu0 x;
     wt_parallel := wt_parallel x; wt_A := wt_A x; wt_W := W |}.

(** What a caller sees through a model object (models.py 634-653: A, W, W_effective, lambda0; impulse_model.g; its data): the
    attributes of the objects it refers to. *)
Definition dm_of (w : world) (i : nat) : dmodel :=
  let mo := w_mod w i in
  {| dm_K := mo_K mo; dm_B := mo_B mo; dm_dt := mo_dt mo; dm_L := mo_L mo; dm_L_int := mo_L_int mo; dm_bas := mo_bas mo;
     dm_mix := wt_mix (w_wt w (mo_wt mo)); dm_A := wt_A (w_wt w (mo_wt mo)); dm_W := wt_W (w_wt w (mo_wt mo));
     dm_g := ir_g (w_ir w (mo_ir mo)); dm_lam := bi_lam (w_bias w (mo_bias mo)); dm_data := mo_data mo |}.
Definition view (w : world) (i : nat) : gibbs :=
  let mo := w_mod w i in
  {| gi_m := dm_of w i; gi_net := w_net w (mo_net mo);
     gi_h := {| h_alpha := bi_alpha (w_bias w (mo_bias mo)); h_beta := bi_beta (w_bias w (mo_bias mo));
                h_gamma := ir_gamma (w_ir w (mo_ir mo)); h_kappa0 := wt_kappa0 (w_wt w (mo_wt mo));
                h_nu0 := wt_nu0 (w_wt w (mo_wt mo)); h_parallel := wt_parallel (w_wt w (mo_wt mo)); h_gsl := w_gsl w |} |}.

(** models.py 651-653 and impulses.py 48-51: [model.impulses] multiplies g with the basis of the model the impulse-response
    object was built with; entry at lag l for the pair (k1,k2). *)
Definition impulses_at (w : world) (i l k1 k2 : nat) : R :=
  let x := w_ir w (mo_ir (w_mod w i)) in
  let own := w_mod w (ir_owner x) in
  Rsum (mo_B own) (fun b => mo_bas own l b * ir_g x k1 k2 b).

(** models.py 1206-1207, 1257-1258: for p in self.data_list: p.resample(); a parents object reads the parameters of the model
    that created it (parents.py 137-139), which is the model whose data list it is in. *)
Definition st_parents (d : sweep_draws) (i : nat) (w : world) : result world :=
  do data <- resample_parents (w_gsl w) (sd_mult d) (params_of (dm_of w i)) 0 (mo_data (w_mod w i)) ;;
  Ok (set_mod w i (mo_with_data (w_mod w i) data)).
(** self.bias_model.resample(self.data_list) (1210, 1261). *)
Definition st_bias (d : sweep_draws) (i : nat) (w : world) : world :=
  let mo := w_mod w i in let x := w_bias w (mo_bias mo) in
  set_bias w (mo_bias mo) {| bi_K := bi_K x; bi_alpha := bi_alpha x; bi_beta := bi_beta x;
                             bi_lam := bias_resample (sd_bias d) (bi_alpha x) (bi_beta x) (mo_data mo) |}.
(** self.impulse_model.resample(self.data_list) (1213, 1264). *)
Definition st_ir (d : sweep_draws) (i : nat) (w : world) : world :=
  let mo := w_mod w i in let x := w_ir w (mo_ir mo) in
  set_ir w (mo_ir mo) {| ir_owner := ir_owner x; ir_K := ir_K x; ir_B := ir_B x; ir_gamma := ir_gamma x;
                         ir_g := ir_resample (sd_ir d) (ir_gamma x) (mo_data mo) |}.
(** self.network.resample(data=(self.weight_model.A, self.weight_model.W)) (1216, 1271). *)
Definition st_net (lgam : R -> R) (d : sweep_draws) (i : nat) (w : world) : world :=
  let mo := w_mod w i in let x := w_wt w (mo_wt mo) in
  set_net w (mo_net mo) (net_resample lgam (sd_net d) (sd_er d) (wt_A x) (wt_W x) (w_net w (mo_net mo))).
(** SpikeAndSlabGammaWeights.resample(data) on the object at address a, called for model i (weights.py 159-173): the prior is read
    from the object's own network (148-157, 117-118); the serial sampler evaluates the data's likelihood through the data's model
    (123-131), the parallel one through the module globals, which it first points at the model the object was built with (97-99;
    parallel_adjacency_resampling.py 38-45). *)
Definition ss_step (d : sweep_draws) (a i : nat) (data : list parents) (w : world) : world :=
  let n := net_view (w_net w (wt_net (w_wt w a))) in
  let w := set_wt w a (wt_with_W (w_wt w a) (ss_W_resample (sd_W d) n (wt_A (w_wt w a)) data)) in
  if wt_parallel (w_wt w a) then
    let w := set_par w (wt_owner (w_wt w a), data) in                                              (* 97-99 *)
    let A := match data with
             | [] => fun k1 k2 => Rltb (sd_u d k1 k2) (n_P n k1 k2)                                (* 101-103 *)
             | _ => let o := fst (w_par w) in                                                      (* 104-110 *)
                    resample_A_parallel (sd_order d) (dm_of w o) (net_view (w_net w (mo_net (w_mod w o)))) (sd_u d) (snd (w_par w))
             end in
    set_wt w a (wt_with_A (w_wt w a) A)
  else
    set_wt w a (wt_with_A (w_wt w a)
      (serial_sweep (data_ll (dm_of w i) data) (n_P n) (sd_u d) (wt_K (w_wt w a)) (wt_A (w_wt w a)))).
(** GammaMixtureWeights.resample(data) (weights.py 424-432). *)
Definition mix_step (lgam : R -> R) (d : sweep_draws) (a : nat) (data : list parents) (w : world) : world :=
  let x := w_wt w a in
  let n := net_view (w_net w (wt_net x)) in
  let A := mix_resample_A lgam (wt_kappa0 x) (wt_nu0 x) n (sd_u d) data in
  set_wt w a (wt_with_W (wt_with_A x A) (mix_W_resample (sd_W d) (wt_kappa0 x) (wt_nu0 x) n A data)).
(** self.weight_model.resample(self.data_list) (1219, 1267). *)
Definition st_wt (lgam : R -> R) (d : sweep_draws) (i : nat) (w : world) : world :=
  let mo := w_mod w i in
  if wt_mix (w_wt w (mo_wt mo)) then mix_step lgam d (mo_wt mo) (mo_data mo) w else ss_step d (mo_wt mo) i (mo_data mo) w.
(** models.py 1198-1219 and 1251-1271, [resample_model] of the model at address i. *)
Definition w_sweep (lgam : R -> R) (rn : bool) (d : sweep_draws) (i : nat) (w : world) : result world :=
  do w <- st_parents d i w ;;
  let w := st_ir d i (st_bias d i w) in
  if mo_mix (w_mod w i)
  then let w := st_wt lgam d i w in Ok (if rn then st_net lgam d i w else w)
  else Ok (st_wt lgam d i (st_net lgam d i w)).

(** Constructor arguments: sizes, bin width, basis table, hyperparameters, the addresses of the component objects passed in, the
    network built when none is passed (613-617: from the class defaults, see M_Network for its construction), and the draws from the
    priors. *)
Record ctor := { c_mix : bool; c_K : nat; c_B : nat; c_dt : R; c_L : nat; c_bas : mat; c_h : hypers; c_inst : bool;
                 c_bkgd : option nat; c_ir : option nat; c_wt : option nat; c_net : option nat; c_newnet : netobj;
                 c_draws : sweep_draws }.
Definition given (o : option nat) (fresh : nat) : nat := match o with Some a => a | None => fresh end.
(** models.py 556-631.  The model's address is [w_next]; components that are not passed get the next four addresses.  A passed
    object is taken as it is, after the checks of 598-599, 610 and 626 and the one on instantaneous self-connections (619-622);
    nothing is checked about a passed background object (588-589). *)
Definition n_bias (c : ctor) (i : nat) (w : world) : world :=                              (* 588-594; bias.py 20-28 *)
  match c_bkgd c with
  | Some _ => w
  | None => set_bias w (1 + i) {| bi_K := c_K c; bi_alpha := h_alpha (c_h c); bi_beta := h_beta (c_h c);
                                  bi_lam := bias_resample (sd_bias (c_draws c)) (h_alpha (c_h c)) (h_beta (c_h c)) [] |}
  end.
Definition n_ir (c : ctor) (i : nat) (w : world) : result world :=                         (* 597-605; impulses.py 24-44 *)
  match c_ir c with
  | Some a => do _ <- guard (Nat.eqb (ir_B (w_ir w a)) (c_B c)) AssertionError ;;
              do _ <- guard (Nat.eqb (ir_K (w_ir w a)) (c_K c)) AssertionError ;; Ok w
  | None => Ok (set_ir w (2 + i) {| ir_owner := i; ir_K := c_K c; ir_B := c_B c; ir_gamma := h_gamma (c_h c);
                                    ir_g := ir_resample (sd_ir (c_draws c)) (h_gamma (c_h c)) [] |})
  end.
Definition net_K (no : netobj) : nat := match no with NetSbm _ s => sb_K s | NetEr n => e_K n end.
Definition n_net (c : ctor) (i : nat) (w : world) : result world :=                        (* 609-617 *)
  match c_net c with
  | Some a => do _ <- guard (Nat.eqb (net_K (w_net w a)) (c_K c)) AssertionError ;; Ok w
  | None => Ok (set_net w (4 + i) (c_newnet c))
  end.
Definition n_wt (lgam : R -> R) (c : ctor) (i aN : nat) (w : world) : result world :=      (* 625-631; weights.py 24-35, 192-218 *)
  match c_wt c with
  | Some a => do _ <- guard (Nat.eqb (wt_K (w_wt w a)) (c_K c)) AssertionError ;; Ok w
  | None =>
      let w := set_wt w (3 + i) {| wt_owner := i; wt_net := aN; wt_K := c_K c; wt_mix := c_mix c; wt_kappa0 := h_kappa0 (c_h c);
                                   wt_nu0 := h_nu0 (c_h c); wt_parallel := h_parallel (c_h c);
                                   wt_A := fun _ _ => true; wt_W := fun _ _ => 0 |} in
      Ok (if c_mix c then mix_step lgam (c_draws c) (3 + i) [] w else ss_step (c_draws c) (3 + i) i [] w)
  end.
(** The attributes of the new model object. *)
Definition built (c : ctor) (i : nat) : mod_o :=
  {| mo_mix := c_mix c; mo_K := c_K c; mo_B := c_B c; mo_dt := c_dt c; mo_L := c_L c; mo_L_int := true; mo_bas := c_bas c;
     mo_bias := given (c_bkgd c) (1 + i); mo_ir := given (c_ir c) (2 + i); mo_wt := given (c_wt c) (3 + i);
     mo_net := given (c_net c) (4 + i); mo_data := [] |}.
Definition w_new (lgam : R -> R) (c : ctor) (w : world) : result world :=
  let i := w_next w in
  do w <- n_ir c i (n_bias c i w) ;;
  do w <- n_net c i w ;;
  do _ <- guard (negb (c_inst c && net_allow (w_net w (given (c_net c) (4 + i))))) AssertionError ;;    (* 619-622 *)
  do w <- n_wt lgam c i (given (c_net c) (4 + i)) (set_mod w i (built c i)) ;;
  Ok (add_model (set_next w (5 + i)) i).

(** What a program does with its models: build one, build a network object of its own, add data to one, sweep one.  A call that
    raises leaves the store as it was (interrupted sweeps: see M_Interrupt); a program can only name models and objects that
    exist. *)
Inductive wop :=
| WNew (c : ctor)
| WNet (no : netobj)
| WAdd (i : nat) (s : sval) (f : option fval_) (mb : option Z)
| WSweep (i : nat) (rn : bool) (d : sweep_draws).
Definition arg_exists (o : option nat) (w : world) : bool := match o with Some a => Nat.ltb a (w_next w) | None => true end.
Definition args_exist (c : ctor) (w : world) : bool :=
  arg_exists (c_bkgd c) w && arg_exists (c_ir c) w && arg_exists (c_wt c) w && arg_exists (c_net c) w.
Definition is_model (i : nat) (w : world) : bool := existsb (Nat.eqb i) (w_models w).
Definition wstep (lgam : R -> R) (o : wop) (w : world) : world :=
  match o with
  | WNew c => if args_exist c w then match w_new lgam c w with Ok w' => w' | Raise _ => w end else w
  | WNet no => set_next (set_net w (w_next w) no) (1 + w_next w)
  | WAdd i s f mb =>
      if is_model i w then set_mod w i (mo_with_data (w_mod w i) (dm_data (snd (add_data_st (dm_of w i) s f mb)))) else w
  | WSweep i rn d => if is_model i w then match w_sweep lgam rn d i w with Ok w' => w' | Raise _ => w end else w
  end.
Fixpoint wrun (lgam : R -> R) (h : list wop) (w : world) : world :=
  match h with [] => w | o :: h' => wrun lgam h' (wstep lgam o w) end.
