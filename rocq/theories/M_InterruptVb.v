(** * M_InterruptVb: the variational steps of the gamma-mixture model, write by write.

    As in M_Interrupt, a step is the list of its assignments to the model in program order (NumPy calls are not
    interrupted half-way, Python statements are), and a step stopped by KeyboardInterrupt is a prefix of the list.
    M_MeanField models the same steps as one function; Props_InterruptVb proves that the whole list gives that result.
    Entries outside an array of finite size, which no reader looks at, get the final formula's value when the loop
    over the array is entered ([enter], see M_Interrupt). *)
From Verif Require Import Prelude ExtReal Arrays M_Basis M_Parents M_Discrete M_Gibbs M_Dist M_Network M_MeanField M_Sweep M_Interrupt.
Set Implicit Arguments.
Open Scope R_scope.

Definition vstep := mfmodel -> result mfmodel.
(** Runs assignments until one raises; the state left behind is the one before the failing statement. *)
Fixpoint vexec (l : list vstep) (m : mfmodel) : result unit * mfmodel :=
  match l with
  | [] => (Ok tt, m)
  | f :: l' => match f m with Ok m' => vexec l' m' | Raise e => (Raise e, m) end
  end.

(** self.x = ... for the objects of the model. *)
Definition set_bias (m : mfmodel) b := {| mm_h := mm_h m; mm_bias := b; mm_gamma := mm_gamma m; mm_w := mm_w m; mm_net := mm_net m; mm_data := mm_data m; mm_off := mm_off m |}.
Definition set_gamma (m : mfmodel) g := {| mm_h := mm_h m; mm_bias := mm_bias m; mm_gamma := g; mm_w := mm_w m; mm_net := mm_net m; mm_data := mm_data m; mm_off := mm_off m |}.
Definition set_w (m : mfmodel) w := {| mm_h := mm_h m; mm_bias := mm_bias m; mm_gamma := mm_gamma m; mm_w := w; mm_net := mm_net m; mm_data := mm_data m; mm_off := mm_off m |}.
Definition set_net (m : mfmodel) n := {| mm_h := mm_h m; mm_bias := mm_bias m; mm_gamma := mm_gamma m; mm_w := mm_w m; mm_net := n; mm_data := mm_data m; mm_off := mm_off m |}.
Definition set_vdata (m : mfmodel) d := {| mm_h := mm_h m; mm_bias := mm_bias m; mm_gamma := mm_gamma m; mm_w := mm_w m; mm_net := mm_net m; mm_data := d; mm_off := mm_off m |}.
Definition set_off (m : mfmodel) o := {| mm_h := mm_h m; mm_bias := mm_bias m; mm_gamma := mm_gamma m; mm_w := mm_w m; mm_net := mm_net m; mm_data := mm_data m; mm_off := o |}.

(* ---------------- parents ---------------- *)
(** The expected attributions computed for data set p (parents.py 361-377). *)
Definition new_EZ (psi : R -> R) (m : mfmodel) (p : parents) : nat -> nat -> nat -> R :=
  let e := mf_in_of psi m in
  fun k r c => match c with
               | O => e_lam e k / mf_norm p e k r * IZR (pa_Ss p k r)
               | S i => pkb p e k r i / mf_norm p e k r * IZR (pa_Ss p k r)
               end.
(** parents.py 376: EZk[:,0] = ...; 377: EZk[:,1:] = .... *)
Definition put_col0 (k : nat) (new old : nat -> nat -> nat -> R) : nat -> nat -> nat -> R :=
  fun i r c => if (Nat.eqb i k && Nat.eqb c 0)%bool then new i r c else old i r c.
Definition put_cols (k : nat) (new old : nat -> nat -> nat -> R) : nat -> nat -> nat -> R :=
  fun i r c => if (Nat.eqb i k && negb (Nat.eqb c 0))%bool then new i r c else old i r c.
Definition vdata_at (m : mfmodel) (i : nat) : parents := nth i (mm_data m) p0.
Definition on_EZ (i : nat) (f : mfmodel -> parents -> nat -> nat -> nat -> R) (m : mfmodel) : mfmodel :=
  set_vdata m (set_nth i (fun p => set_EZ p (f m p)) (mm_data m)).
(** A row with normaliser 0 would make the numbers written on line 376 NaN and the assertion of 379 fail; as in
    M_Parents the exception is raised, here without the NaNs, which are unreachable (the background term is an exp). *)
Definition rows_finite (psi : R -> R) (m : mfmodel) (p : parents) (k : nat) : result unit :=
  guard (forall_lt (pa_Tk p k) (fun r => negb (Reqb (mf_norm p (mf_in_of psi m) k r) 0))) AssertionError.
Definition EZ_steps (psi : R -> R) (i k : nat) : list vstep :=
  [ (fun m => do _ <- rows_finite psi m (vdata_at m i) k ;;
              Ok (on_EZ i (fun m p => put_col0 k (new_EZ psi m p) (pa_EZ p)) m));
    (fun m => Ok (on_EZ i (fun m p => put_cols k (new_EZ psi m p) (pa_EZ p)) m)) ].
(** parents.py 352-379, [meanfieldupdate] of the i-th data set, with K processes. *)
Definition parents_vsteps (psi : R -> R) (i K : nat) : list vstep :=
  (fun m => Ok (on_EZ i (fun m p k => if Nat.ltb k K then pa_EZ p k else new_EZ psi m p k) m))
  :: flat_map (EZ_steps psi i) (seq 0 K).
(** models.py 1307-1308. *)
Fixpoint all_parents_vsteps (psi : R -> R) (i : nat) (data : list parents) : list vstep :=
  match data with [] => [] | p :: rest => parents_vsteps psi i (pa_K p) ++ all_parents_vsteps psi (S i) rest end.

(* ---------------- parameters ---------------- *)
Section Params.
Variables (lgam psi : R -> R) (dat : mfmodel -> list parents) (frac step : R).
(** bias.py 94-100: mf_alpha is assigned before mf_beta. *)
Definition bias_vsteps : list vstep :=
  let upd m := bias_sgd (mh_alpha (mm_h m)) (mh_beta (mm_h m)) (dat m) frac step (mm_bias m) in
  [ (fun m => do b <- upd m ;; Ok (set_bias m {| mb_alpha := mb_alpha b; mb_beta := mb_beta (mm_bias m) |}));
    (fun m => do b <- upd m ;; Ok (set_bias m {| mb_alpha := mb_alpha (mm_bias m); mb_beta := mb_beta b |})) ].
(** impulses.py 105-112: one assignment. *)
Definition ir_vsteps : list vstep :=
  [ fun m => Ok (set_gamma m (ir_sgd (mh_gamma (mm_h m)) (dat m) frac step (mm_gamma m))) ].
Definition mfnet_kappa (no : mfnet) : R := match no with MfSbm _ s _ => sb_kappa s | MfEr n => e_kappa n end.
(** weights.py 342-362: mf_kappa_0, mf_kappa_1, mf_v_0, mf_v_1 in this order (expected_v is evaluated on 361), then
    336-340: mf_p. *)
Definition w_vsteps : list vstep :=
  let s0 m i j := pool (fun d => exp_weight_ss0 d i j) (dat m) / frac in
  let s1 m i := pool (fun d => IZR (pa_Ns d i)) (dat m) / frac in
  let h := mm_h in
  [ (fun m => match dat m with [] => Raise TypeError | _ =>
       let w := mm_w m in
       Ok (set_w m {| w_p := w_p w; w_kappa0 := fun i j => mix_step step (w_kappa0 w i j) (mh_kappa0 (h m) + s0 m i j);
                      w_v0 := w_v0 w; w_kappa1 := w_kappa1 w; w_v1 := w_v1 w |}) end);
    (fun m => let w := mm_w m in
       Ok (set_w m {| w_p := w_p w; w_kappa0 := w_kappa0 w; w_v0 := w_v0 w;
                      w_kappa1 := fun i j => mix_step step (w_kappa1 w i j) (mfnet_kappa (mm_net m) + s0 m i j); w_v1 := w_v1 w |}));
    (fun m => let w := mm_w m in
       Ok (set_w m {| w_p := w_p w; w_kappa0 := w_kappa0 w; w_v0 := fun i j => mix_step step (w_v0 w i j) (mh_nu0 (h m) * 1 + s1 m i);
                      w_kappa1 := w_kappa1 w; w_v1 := w_v1 w |}));
    (fun m => do n <- mfnet_view psi (mm_net m) ;; let w := mm_w m in
       Ok (set_w m {| w_p := w_p w; w_kappa0 := w_kappa0 w; w_v0 := w_v0 w; w_kappa1 := w_kappa1 w;
                      w_v1 := fun i j => mix_step step (w_v1 w i j) (ne_v n i j + s1 m i) |}));
    (fun m => do n <- mfnet_view psi (mm_net m) ;;
       Ok (set_w m (meanfieldupdate_p lgam (mh_kappa0 (h m)) (mh_nu0 (h m)) n step (mm_w m)))) ].

(* ---------------- network ---------------- *)
(** One assignment to an attribute of the block model's variational parameters. *)
Definition on_mfsbm (f : mfmodel -> sbm -> mfsbm -> mfsbm) : vstep := fun m =>
  Ok (set_net m (match mm_net m with MfSbm fp s q => MfSbm fp s (f m s q) | no => no end)).
Definition set_tau (f : mfsbm) (t1 t0 : mat) : mfsbm :=
  {| mf_pi := mf_pi f; mf_m := mf_m f; mf_tau0 := t0; mf_tau1 := t1; mf_alpha := mf_alpha f; mf_beta := mf_beta f |}.
Definition set_ab (f : mfsbm) (a b : mat) : mfsbm :=
  {| mf_pi := mf_pi f; mf_m := mf_m f; mf_tau0 := mf_tau0 f; mf_tau1 := mf_tau1 f; mf_alpha := a; mf_beta := b |}.
Definition vstats (m : mfmodel) : wstats := wstats_of psi (mm_w m).
(** network.py 572-587: for each pair of blocks mf_tau1[c1,c2] = ... then mf_tau0[c1,c2] = .... *)
Definition tau_vsteps (C : nat) : list vstep :=
  let new m s f := mf_update_p s f (vstats m) step in
  on_mfsbm (fun m s f => set_tau f (enter C (fun _ => C) (mf_tau1 (new m s f)) (mf_tau1 f)) (enter C (fun _ => C) (mf_tau0 (new m s f)) (mf_tau0 f)))
  :: flat_map (fun c =>
       [ on_mfsbm (fun m s f => set_tau f (put (fst c) (snd c) (mf_tau1 (new m s f)) (mf_tau1 f)) (mf_tau0 f));
         on_mfsbm (fun m s f => set_tau f (mf_tau1 f) (put (fst c) (snd c) (mf_tau0 (new m s f)) (mf_tau0 f))) ]) (cells C (fun _ => C)).
(** network.py 595-604: mf_alpha[c1,c2] = ... then mf_beta[c1,c2] = .... *)
Definition ab_vsteps (C : nat) : list vstep :=
  let new m s f := mf_update_v s f (vstats m) step in
  on_mfsbm (fun m s f => set_ab f (enter C (fun _ => C) (mf_alpha (new m s f)) (mf_alpha f)) (enter C (fun _ => C) (mf_beta (new m s f)) (mf_beta f)))
  :: flat_map (fun c =>
       [ on_mfsbm (fun m s f => set_ab f (put (fst c) (snd c) (mf_alpha (new m s f)) (mf_alpha f)) (mf_beta f));
         on_mfsbm (fun m s f => set_ab f (mf_alpha f) (put (fst c) (snd c) (mf_beta (new m s f)) (mf_beta f))) ]) (cells C (fun _ => C)).
(** network.py 606-612: one assignment of mf_pi; 465-563: mf_m[k,:] = ... for every node in turn. *)
Definition pi_vstep : vstep := on_mfsbm (fun m s f => mf_update_m s f step).
Definition row_vstep (k : nat) : vstep := on_mfsbm (fun m s f => mf_c_row lgam psi s (vstats m) step f k).
(** network.py 1013-1016 (Erdos-Renyi): mf_alpha, then mf_beta. *)
Definition er_vstep (first : bool) : vstep := fun m =>
  match mm_net m with
  | MfEr n =>
      do n' <- er_meanfieldupdate n (vstats m) step ;;
      match e_mf n, e_mf n' with
      | Some (a, b), Some (a', b') => Ok (set_net m (MfEr (er_with_mf n (if first then (a', b) else (a, b')))))
      | _, _ => Raise AttributeError
      end
  | _ => Ok m
  end.
(** network.py 614-640 / 642-669 (whether p is updated differs: see M_Network), 1018-1024. *)
Definition net_vsteps (do_p : bool) (no : mfnet) : list vstep :=
  match no with
  | MfSbm _ s _ => (if do_p then tau_vsteps (sb_C s) else []) ++ ab_vsteps (sb_C s) ++ [pi_vstep] ++ map row_vstep (seq 0 (sb_K s))
  | MfEr _ => [er_vstep true; er_vstep false]
  end.
Definition params_vsteps (do_p : bool) (no : mfnet) : list vstep :=
  bias_vsteps ++ ir_vsteps ++ w_vsteps ++ net_vsteps do_p no.
End Params.

(* ---------------- the two kinds of steps ---------------- *)
(** models.py 1306-1320: the batch update of a block model updates p also when the sparsity is fixed (line 626). *)
Definition batch_vsteps (lgam psi : R -> R) (m : mfmodel) : list vstep :=
  all_parents_vsteps psi 0 (mm_data m) ++ params_vsteps lgam psi mm_data 1 1 true (mm_net m).
(** models.py 1342-1347: self.sgd_offset += minibatchsize, then possibly self.sgd_offset = 0. *)
Definition offset_vsteps (T mb : nat) (off : option nat) : list vstep :=
  match off with
  | None => [fun m => Ok (set_off m (Some 0%nat))]
  | Some o => (fun m => Ok (set_off m (Some (o + mb)%nat)))
              :: (if (T <=? o + mb)%nat then [fun m => Ok (set_off m (Some 0%nat))] else [])
  end.
(** models.py 1349-1364: the minibatch lives in a local object, updated before any parameter. *)
Definition minibatch (m : mfmodel) (d : parents) (mb : nat) : parents :=
  let off := next_offset (pa_T d) mb (mm_off m) in
  let len := (sgd_end (pa_T d) mb off - off)%nat in
  mk_parents (mh_K (mm_h m)) (mh_B (mm_h m)) (pa_dt d) len (slice2 off (pa_S d)) (slice3 off (pa_F d)).
Definition sgd_p (no : mfnet) : bool := match no with MfSbm fp _ _ => negb fp | MfEr _ => true end.
(** models.py 1337-1387. *)
Definition sgd_vsteps (lgam psi : R -> R) (mb : nat) (step : R) (m : mfmodel) : list vstep :=
  match mm_data m with
  | [d] =>
    let p := minibatch m d mb in
    let frac := INR (pa_T p) / INR (pa_T d) in
    offset_vsteps (pa_T d) mb (mm_off m) ++
    match mf_update_python p (mf_in_of psi m) with
    | Raise e => [fun _ => Raise e]
    | Ok p' => params_vsteps lgam psi (fun _ => [p']) frac step (sgd_p (mm_net m)) (mm_net m)
    end
  | _ => [fun _ => Raise AssertionError]
  end.
Definition op_vsteps (lgam psi : R -> R) (o : mfop) (m : mfmodel) : list vstep :=
  match o with OpBatch => batch_vsteps lgam psi m | OpSgd mb step => sgd_vsteps lgam psi mb step m end.

(** A step stopped after n assignments, and histories with such steps. *)
Definition vb_interrupted (lgam psi : R -> R) (o : mfop) (n : nat) (m : mfmodel) : result unit * mfmodel :=
  vexec (firstn n (op_vsteps lgam psi o m)) m.
Inductive vop := VDo (o : mfop) | VStop (o : mfop) (n : nat).
Definition vb_step (lgam psi : R -> R) (o : vop) (m : mfmodel) : result mfmodel :=
  match o with
  | VDo o => mf_op_step lgam psi o m
  | VStop o n => match vb_interrupted lgam psi o n m with (Ok _, m') => Ok m' | (Raise e, _) => Raise e end
  end.
Fixpoint vb_run (lgam psi : R -> R) (h : list vop) (m : mfmodel) : result mfmodel :=
  match h with [] => Ok m | o :: h' => do m' <- vb_step lgam psi o m ;; vb_run lgam psi h' m' end.
