(** * M_InitOwn: initialize_with_standard_model of the discrete-time network models with every form of its argument
    (models.py 655-710, 1221-1227, 1273-1290): omitted, None (fit a standard model to the model's own data first), or a
    fitted standard model. *)
From Verif Require Import Prelude ExtReal Arrays M_Basis M_Parents M_Discrete M_Gibbs M_Network M_Sweep M_MeanField M_Standard
  M_Mixed M_Fit.
Set Implicit Arguments.
Open Scope R_scope.

(** models.py 665-666: DiscreteTimeStandardHawkesModel(K=self.K, dt=self.dt, dt_max=self.dt_max, B=self.B): the other
    arguments keep their defaults (24-34): the cosine basis normalised and without instantaneous effects (45-47),
    alpha = beta = 1, W_max = None, self-connections allowed.  The basis table is read through [fval]: what happens with a
    table that has NaN entries (C01) is not modelled. *)
Definition std_default (K B : nat) (dt dt_max : R) : result smodel :=
  do bo <- CosineBasis B dt dt_max true false 0 (1 / 120) (1 / 2) 100 ;;
  sm_init K B dt 1 1 true false (bt_rows (bo_tab bo)) (fun l b => fval (bt_at (bo_tab bo) l b)).
(** models.py 668-669: for data in self.data_list: standard_model.add_data(data.S). *)
Fixpoint std_readd (s : smodel) (ds : list parents) : result smodel :=
  match ds with
  | [] => Ok s
  | d :: ds' => do s1 <- s_add_data s (sval_of (pa_T d) (pa_K d) (pa_S d)) None None ;; std_readd s1 ds'
  end.
(** models.py 664-672. *)
Definition fit_own (dt_max : R) (opt : nat -> vec -> optim) (m : dmodel) : result smodel :=
  do s0 <- std_default (dm_K m) (dm_B m) (dm_dt m) dt_max ;;
  do s1 <- std_readd s0 (dm_data m) ;;
  match s_fit_with_bfgs opt (s_init_background s1) with (Ok _, s) => Ok s | (Raise e, _) => Raise e end.

(** How the method is called. *)
Inductive std_arg := Omitted | PassNone | Given (s : smodel).
(** The public classes override the method with a required argument (1221, 1273), so omitting it is a TypeError. *)
Definition the_std (dt_max : R) (opt : nat -> vec -> optim) (a : std_arg) (m : dmodel) : result smodel :=
  match a with
  | Omitted => Raise TypeError
  | PassNone => fit_own dt_max opt m
  | Given s => Ok s
  end.
(** models.py 1273-1290 (gamma mixture); the parameters are assigned last, so a failing call changes nothing.  Also returns
    the standard model as it is left behind. *)
Definition init_mixture (dt_max : R) (opt : nat -> vec -> optim) (a : std_arg) (x : mixed) : result (mixed * smodel) :=
  do s <- the_std dt_max opt a (gi_m (mx_g x)) ;; init_with_std s x.
(** models.py 1221-1227 (spike and slab): the base class part, then d.resample() for every data set. *)
Definition init_spike_slab (dt_max : R) (opt : nat -> vec -> optim) (mult : nat -> mult_oracle) (a : std_arg) (st : gibbs)
  : result (gibbs * smodel) :=
  let m := gi_m st in
  do s <- the_std dt_max opt a m ;;
  do r <- init_from_std s (dm_K m) (dm_B m) (mean_p (gi_net st)) ;;
  let ip := fst r in
  let m1 := with_g (with_W (with_A (with_lam m (ip_lam ip)) (ip_A ip)) (ip_W ip)) (ip_g ip) in
  do data <- resample_parents (h_gsl (gi_h st)) mult (params_of m1) 0 (dm_data m1) ;;
  Ok (with_model st (with_data m1 data), snd r).
