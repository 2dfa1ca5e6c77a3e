(** * M_Query: queries that touch the data list, write by write.

    heldout_log_likelihood of the standard, continuous-time and nonlinear models temporarily adds a data set, and
    copy_sample of every model temporarily empties the data list; neither uses try/finally.  As in M_Interrupt, a call is
    the list of its assignments in program order, an interrupted call a prefix of it, and an exception leaves the state
    before the failing statement.  (heldout_log_likelihood of the discrete-time network models, models.py 968-975,
    assigns nothing.) *)
From Verif Require Import Prelude ExtReal Arrays M_Basis M_Parents M_Discrete M_Gibbs M_Network M_Sweep M_Standard M_Nonlinear M_Continuous M_Interrupt.
Set Implicit Arguments.
Open Scope R_scope.

Fixpoint qexec {St} (l : list (St -> result St)) (st : St) : result unit * St :=
  match l with
  | [] => (Ok tt, st)
  | f :: l' => match f st with Ok st' => qexec l' st' | Raise e => (Raise e, st) end
  end.
(** The state after the first n assignments. *)
Definition stopped {St} (n : nat) (l : list (St -> result St)) (st : St) : St := snd (qexec (firstn n l) st).

(** models.py 302-306, standard model: add_data appends, log_likelihood writes nothing but may raise, pop. *)
Definition s_heldout_steps (s : sval) : list (smodel -> result smodel) :=
  [ (fun m => s_add_data m s None None);
    (fun m => do _ <- s_log_likelihood m (One (-1)) KNone ;; Ok m);
    (fun m => Ok (sm_with_data m (removelast (sm_data m)))) ].
(** models.py 1809-1812, continuous time: append, pop (then the likelihood, which writes nothing). *)
Definition ct_heldout_steps (S_ : tval) (C_ : ival) (T : R) (T_isfloat : bool) : list (ctmodel -> result ctmodel) :=
  [ (fun m => ct_add_data m S_ C_ T T_isfloat);
    (fun m => Ok (cm_with_data m (removelast (cm_data m)))) ].

(** models.py 217-226, 780-789, 1692-1701, copy_sample: self.data_list = []; deepcopy; self.data_list = data_list.
    [put] replaces the data list, [saved] is the local variable. *)
Definition copy_steps {M D} (put : M -> list D -> M) (saved : list D) : list (M -> result M) :=
  [ (fun m => Ok (put m [])); (fun m => Ok m); (fun m => Ok (put m saved)) ].

(** Nonlinear processes: one assignment per node. *)
Definition on_node (k : nat) (f : nnode -> result nnode) (p : nproc) : result nproc :=
  match nth_error (p_nodes p) k with
  | None => Raise IndexError
  | Some n => do n' <- f n ;; Ok (p_with_nodes p (set_nth k (fun _ => n') (p_nodes p)))
  end.
(** standard_models.py 282-303: the checks and the filtering, before the loop over the nodes; nothing is assigned. *)
Definition p_prepare (p : nproc) (s : sval) (f : option fmat) : result (nat * fmat) :=
  do T <- check_S (p_K p) s ;;
  do F <- match f with
          | Some F => Ok F
          | None => do F <- convolve_with_basis T (p_K p) (sv_at s) (p_L p) (p_B p) (p_bas p) ;;
                    if Nat.eqb (p_B p) 0 then Raise IndexError
                    else do sh <- np_hstack_shape [T; 1%nat] [T; (p_K p * p_B p)%nat] ;;
                         match sh with [r; c] => Ok {| fm_rows := r; fm_cols := c; fm_at := flatten_F (p_B p) F |} | _ => Raise ValueError end
          end ;;
  Ok (T, F).
Definition p_add_step (T : nat) (F : fmat) (S_ : imat) (k : nat) : nproc -> result nproc :=
  on_node k (fun n => n_add_data n F T true (fun t => S_ t k)).
Definition p_del_step (i : Z) (k : nat) : nproc -> result nproc :=
  on_node k (fun n => do d <- del_nth (n_data n) i ;; Ok (n_with_data n d)).
(** standard_models.py 316-320 with 305-306 and 308-310: append node by node, evaluate, delete node by node. *)
Definition p_heldout_steps (p : nproc) (s : sval) (f : option fmat) : list (nproc -> result nproc) :=
  match p_prepare p s f with
  | Raise e => [fun _ => Raise e]
  | Ok (T, F) => let ks := seq 0 (length (p_nodes p)) in
      map (p_add_step T F (sv_at s)) ks
      ++ [fun p => do _ <- p_log_likelihood p (Some (-1)%Z) ;; Ok p]
      ++ map (p_del_step (-1)) ks
  end.
(** standard_models.py 322-335 with 129-142: every node is emptied, copied and restored; then self.nodes is replaced by
    the data-less copies, the process is copied, and self.nodes is restored. *)
Definition p_copy_node_steps (k : nat) (saved : list ndata) : list (nproc -> result nproc) :=
  [ on_node k (fun n => Ok (n_with_data n [])); on_node k (fun n => Ok (n_with_data n saved)) ].
Definition p_copy_steps (p : nproc) : list (nproc -> result nproc) :=
  flat_map (fun k => p_copy_node_steps k (match nth_error (p_nodes p) k with Some n => n_data n | None => [] end))
           (seq 0 (length (p_nodes p)))
  ++ [ (fun q => Ok (p_with_nodes q (map (fun n => n_with_data n []) (p_nodes p))));
       (fun q => Ok (p_with_nodes q (p_nodes p))) ].

(** Histories of interrupted held-out evaluations. *)
Fixpoint s_heldout_history (h : list (sval * nat)) (m : smodel) : smodel :=
  match h with [] => m | (s, n) :: h' => s_heldout_history h' (stopped n (s_heldout_steps s) m) end.
Fixpoint ct_heldout_history (h : list ((tval * ival) * (R * bool) * nat)) (m : ctmodel) : ctmodel :=
  match h with
  | [] => m
  | (S_, C_, (T, f), n) :: h' => ct_heldout_history h' (stopped n (ct_heldout_steps S_ C_ T f) m)
  end.
