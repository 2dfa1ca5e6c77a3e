(** * M_CtInterrupt: a Gibbs sweep of the continuous-time model, write by write.

    As in M_Interrupt: CPython delivers KeyboardInterrupt between bytecodes, so resample_model can stop after any of its
    assignments; NumPy and compiled (Cython, nogil) calls are not interrupted half-way.  A sweep is the list of its
    assignments in program order and an interrupted sweep is a prefix of that list.  M_Continuous.ct_sweep models the same
    sweep as one function; Props_CtInterrupt proves that running the whole list gives that result. *)
From Verif Require Import Prelude ExtReal Arrays M_Basis M_Parents M_Discrete M_Gibbs M_Dist M_Network M_Sweep M_Continuous M_Interrupt M_Query.
Set Implicit Arguments.
Open Scope R_scope.

Definition cstep := ctmodel -> result ctmodel.
(** A statement about the i-th data set. *)
Definition on_cd (i : nat) (f : ctmodel -> ctdata -> result ctdata) : cstep := fun m =>
  match nth_error (cm_data m) i with
  | None => Raise IndexError
  | Some d => do d' <- f m d ;; Ok (cm_with_data m (set_nth i (fun _ => d') (cm_data m)))
  end.
(** continuous_time_helpers.pyx 158-184 with the check that the statistics are finite: the compiled function adds to the
    arrays it is given. *)
Definition ct_fill (m : ctmodel) (d : ctdata) : result ctdata :=
  let '(bk, ws, i0, i1) := fold_left (ss_pass1 (cd_S d) (cd_C d) (cd_Z d) (cm_dtmax m)) (seq 0 (cd_N d))
                             (cd_bkgd d, cd_weight d, cd_imp d 0%nat, cd_imp d 1%nat) in
  let i2 := fold_left (ss_pass2 (cd_S d) (cd_C d) (cd_Z d) (cm_dtmax m) (fun a b => i1 a b / i0 a b)) (seq 0 (cd_N d)) (cd_imp d 2%nat) in
  do _ <- guard (forall_lt (cd_N d) (fun n => (Z.eqb (cd_Z d n) (-1) ||
            (Rltb 0 (cd_S d n - cd_S d (Z.to_nat (cd_Z d n))) && Rltb (cd_S d n - cd_S d (Z.to_nat (cd_Z d n))) (cm_dtmax m)))%bool)) AssertionError ;;
  Ok (cd_with d (cd_Z d) bk ws (fun j a b => match j with 0%nat => i0 a b | 1%nat => i1 a b | _ => i2 a b end)).
(** parents.py 521-543, [resample] of the i-th data set: the compiled sampler fills Z, two assertions, three new arrays of
    zeros, the compiled statistics, the last assertion. *)
Definition ct_parents_steps (order : list nat) (u : vec) (i : nat) : list cstep :=
  [ on_cd i (fun m d => do Z_ <- ct_resample_Z order (cd_S d) (cd_C d) (cm_dtmax m) (cm_lam m) (ct_W_effective m) (cm_mu m) (cm_tau m) u (cd_Z d) ;;
                        Ok (cd_with d Z_ (cd_bkgd d) (cd_weight d) (cd_imp d)));
    on_cd i (fun m d => do _ <- guard (forall_lt (cd_N d) (fun n => Z.ltb (-2) (cd_Z d n))) AssertionError ;; Ok d);
    on_cd i (fun m d => do _ <- guard (forall_lt (cd_N d) (fun n => Z.ltb (cd_Z d n) (Z.of_nat n))) AssertionError ;; Ok d);
    on_cd i (fun m d => Ok (cd_with d (cd_Z d) (fun _ => 0) (cd_weight d) (cd_imp d)));
    on_cd i (fun m d => Ok (cd_with d (cd_Z d) (cd_bkgd d) (fun _ _ => 0) (cd_imp d)));
    on_cd i (fun m d => Ok (cd_with d (cd_Z d) (cd_bkgd d) (cd_weight d) (fun _ _ _ => 0)));
    on_cd i ct_fill;
    on_cd i (fun m d => do _ <- guard (forall_lt (cm_K m) (fun k => Reqb (cd_bkgd d k + Rsum (cm_K m) (fun k1 => cd_weight d k1 k)) (IZR (cd_Ns d k)))) AssertionError ;; Ok d) ].
(** models.py 1857-1858: for p in self.data_list: p.resample(). *)
Fixpoint ct_all_parents_steps (dr : ct_draws) (i : nat) (data : list ctdata) : list cstep :=
  match data with
  | [] => []
  | d :: rest => ct_parents_steps (td_norder dr d) (td_u dr i) i ++ ct_all_parents_steps dr (S i) rest
  end.
(** bias.py 193-210: one assignment. *)
Definition ct_bias_step (dr : ct_draws) : cstep := fun m =>
  Ok (cm_set m (ct_bias_resample (td_bias dr) m (cm_data m)) (cm_A m) (cm_W m) (cm_mu m) (cm_tau m) (cm_net m) (cm_data m)).
(** impulses.py 392-416: self.mu, self.tau = sample_nig(...) stores two attributes. *)
Definition ct_mu_step (dr : ct_draws) : cstep := fun m =>
  Ok (cm_set m (cm_lam m) (cm_A m) (cm_W m) (fun a b => fst (ct_imp_resample (td_g dr) (td_nrm dr) m (cm_data m) a b)) (cm_tau m) (cm_net m) (cm_data m)).
Definition ct_tau_step (dr : ct_draws) : cstep := fun m =>
  Ok (cm_set m (cm_lam m) (cm_A m) (cm_W m) (cm_mu m) (fun a b => snd (ct_imp_resample (td_g dr) (td_nrm dr) m (cm_data m) a b)) (cm_net m) (cm_data m)).
(** The network's resample (network.py 293-301, 784-791, 978-981) is the code of the discrete-time models; it reads A, W
    and the network only, so its assignments are those of M_Interrupt.net_steps on a state that carries them. *)
Definition net_shim (m : ctmodel) : gibbs :=
  {| gi_m := {| dm_K := cm_K m; dm_B := 1; dm_dt := 1; dm_L := 1; dm_L_int := true; dm_bas := fun _ _ => 1; dm_mix := false;
                dm_A := cm_A m; dm_W := cm_W m; dm_g := fun _ _ _ => 1; dm_lam := fun _ => 1; dm_data := [] |};
     gi_net := cm_net m;
     gi_h := {| h_alpha := 1; h_beta := 1; h_gamma := fun _ => 1; h_kappa0 := 1; h_nu0 := 1; h_parallel := false; h_gsl := false |} |}.
Definition cm_set_net (m : ctmodel) (no : netobj) : ctmodel :=
  cm_set m (cm_lam m) (cm_A m) (cm_W m) (cm_mu m) (cm_tau m) no (cm_data m).
Definition lift_net (f : wstep) : cstep := fun m =>
  match f (net_shim m) with Ok st => Ok (cm_set_net m (gi_net st)) | Raise e => Raise e end.
(** weights.py 658-666: one assignment. *)
Definition ct_W_step (dr : ct_draws) : cstep := fun m =>
  Ok (cm_set m (cm_lam m) (cm_A m) (ct_W_resample (td_W dr) (net_view (cm_net m)) (cm_A m) (cm_data m)) (cm_mu m) (cm_tau m) (cm_net m) (cm_data m)).
Definition cm_set_A (m : ctmodel) (A : bmat) : ctmodel := cm_set m (cm_lam m) A (cm_W m) (cm_mu m) (cm_tau m) (cm_net m) (cm_data m).
Definition ct_ll_of (dr : ct_draws) (m : ctmodel) : nat -> (nat -> bool) -> er :=
  ct_ll_single m (fun d => ct_irs (td_norder dr d) m d) (cm_data m).
(** weights.py 601-629, one pair: the deterministic cases assign once; otherwise the two trial values and the draw.  (Where
    a case assigns less often the corresponding step changes nothing.) *)
Definition ct_edge_steps (dr : ct_draws) (k1 k2 : nat) : list cstep :=
  [ (fun m => Ok (cm_set_A m (upd2 (cm_A m) k1 k2 (Reqb (n_P (net_view (cm_net m)) k1 k2) 1))));
    (fun m => let p := n_P (net_view (cm_net m)) k1 k2 in
              Ok (if (Reqb p 0 || Reqb p 1)%bool then m else cm_set_A m (upd2 (cm_A m) k1 k2 true)));
    (fun m => Ok (cm_set_A m (ct_edge_step (ct_ll_of dr m) (n_P (net_view (cm_net m))) (td_uA dr) (cm_A m) k1 k2))) ].
(** weights.py 634-656: the workers compute the columns, then one assignment (one draw for all edges without data). *)
Definition ct_A_par_step (dr : ct_draws) : cstep := fun m =>
  let n := net_view (cm_net m) in
  Ok (cm_set_A m match cm_data m with
                 | [] => fun k1 k2 => Rltb (td_uA dr k1 k2) (n_P n k1 k2)
                 | _ => ct_A_parallel (td_order dr) (ct_ll_of dr m) (n_P n) (td_uA dr) (cm_K m) (cm_A m)
                 end).
Definition ct_A_steps (par : bool) (dr : ct_draws) (K : nat) : list cstep :=
  if par then [ct_A_par_step dr] else flat_map (fun c => ct_edge_steps dr (fst c) (snd c)) (cells K (fun _ => K)).
(** models.py 1850-1868, [resample_model]. *)
Definition ct_parameter_steps (lgam : R -> R) (dr : ct_draws) (m : ctmodel) : list cstep :=
  [ct_bias_step dr; ct_mu_step dr; ct_tau_step dr]
  ++ map lift_net (net_steps lgam (td_net dr) (td_er dr) (cm_net m))
  ++ [ct_W_step dr]
  ++ ct_A_steps (cm_par m) dr (cm_K m).
Definition ct_sweep_steps (lgam : R -> R) (dr : ct_draws) (m : ctmodel) : list cstep :=
  ct_all_parents_steps dr 0 (cm_data m) ++ ct_parameter_steps lgam dr m.
(** resample_model, stopped after n assignments. *)
Definition ct_interrupted (lgam : R -> R) (dr : ct_draws) (n : nat) (m : ctmodel) : result unit * ctmodel :=
  qexec (firstn n (ct_sweep_steps lgam dr m)) m.

(** Histories with interrupted sweeps. *)
Inductive ctiop := CTDo (o : ctop) | CTStop (dr : ct_draws) (n : nat).
Definition ct_istep (lgam : R -> R) (o : ctiop) (m : ctmodel) : result unit * ctmodel :=
  match o with CTDo o => ct_step lgam o m | CTStop dr n => ct_interrupted lgam dr n m end.
Definition ct_irun (lgam : R -> R) (h : list ctiop) (m : ctmodel) : ctmodel := fold_left (fun m o => snd (ct_istep lgam o m)) h m.
