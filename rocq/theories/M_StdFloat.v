(** * M_StdFloat: training steps of the standard Hawkes model on NumPy floats (models.py 228-526).

    M_Standard computes these with real numbers, which is right while weights and rates are positive.  Here the weights
    may be zero, infinite or NaN: log(0), 0/0 and the product with np.diag follow NumPy. *)
From Verif Require Import Prelude ExtReal Arrays M_Basis M_Parents M_Discrete M_MeanField M_Standard.
Set Implicit Arguments.
Open Scope R_scope.

Definition emat := nat -> nat -> er.

(** models.py 228-254, one column: F.dot(self.weights[k,:]) *)
Definition f_rate (P : nat) (w : nat -> er) (d : sdata) (t : nat) : er := esum P (fun j => emul (Fin (sd_F d t j)) (w j)).
(** models.py 271-292 with all data sets and all processes: (S * np.log(R) - R*self.dt).sum() *)
Definition f_log_likelihood (m : smodel) (w : emat) : er :=
  elsum (map (fun d => esum (sd_T d) (fun t => esum (sm_K m) (fun k =>
    let r := f_rate (sm_P m) (w k) d t in esub (emul (Fin (IZR (sd_S d t k))) (elog r)) (emul r (Fin (sm_dt m)))))) (sm_data m)).
(** models.py 348-360: d_ll_d_rate . F *)
Definition f_grad_data (m : smodel) (k : nat) (w : nat -> er) (d : sdata) (j : nat) : er :=
  esum (sd_T d) (fun t => emul (esub (ediv (Fin (IZR (sd_S d t k))) (f_rate (sm_P m) w d t)) (Fin (sm_dt m))) (Fin (sd_F d t j))).
(** models.py 390-403, [_d_log_prior_d_W] *)
Definition f_grad_prior (alpha beta : R) (w : nat -> er) (j : nat) : er :=
  match j with
  | O => Fin 0
  | _ => eadd (if Rltb 1 alpha then ediv (Fin (alpha - 1)) (w j) else Fin 0) (Fin (- beta))
  end.
(** np.allclose(x, 0.0): False for NaN and infinities. *)
Definition f_close0 (x : er) : bool := match x with Fin a => close0 a | _ => false end.
(** models.py 308-346, [compute_gradient(k, indices)] on the data sets [ds]. *)
Definition f_gradient (m : smodel) (k : nat) (w : nat -> er) (ds : list sdata) : result (nat -> er) :=
  let g j := eadd (elsum (map (fun d => f_grad_data m k w d j) ds)) (f_grad_prior (sm_alpha m) (sm_beta m) w j) in
  if sm_allow m then Ok g
  else if forall_lt (sm_P m) (fun j => if self_block (sm_B m) k j then f_close0 (w j) else true)
       then Ok (fun j => if self_block (sm_B m) k j then Fin 0 else g j)
       else Raise AssertionError.
(** models.py 362-368 and 487, 515: g.dot(np.diag(weights[k,:])), with its products by zero. *)
Definition f_dot_diag (P : nat) (g w : nat -> er) (j : nat) : er := esum P (fun i => emul (g i) (if Nat.eqb i j then w i else Fin 0)).
(** self.weights[k,:] = row *)
Definition f_set_row (w : emat) (k : nat) (row : nat -> er) : emat := fun k' j => if Nat.eqb k' k then row j else w k' j.

(** models.py 481-493, [gradient_descent_step]: the rows in turn. *)
Fixpoint f_gd_rows (m : smodel) (stepsz : R) (w : emat) (ks : list nat) : result emat :=
  match ks with
  | [] => Ok w
  | k :: ks' =>
      do g <- f_gradient m k (w k) (sm_data m) ;;
      let row := fun j => eexp (eadd (elog (w k j)) (emul (Fin stepsz) (f_dot_diag (sm_P m) g (w k) j))) in
      f_gd_rows m stepsz (f_set_row w k row) ks'
  end.
(** models.py 495-526, [sgd_step] on minibatch [d]; T is a Python int and the gradient an array, so T = 0 gives inf/nan. *)
Fixpoint f_sgd_rows (m : smodel) (d : sdata) (lr mom : R) (prev : emat) (w vel : emat) (ks : list nat) : result (emat * emat) :=
  match ks with
  | [] => Ok (w, vel)
  | k :: ks' =>
      do g <- f_gradient m k (w k) [d] ;;
      let grad := fun j => ediv (f_dot_diag (sm_P m) g (w k) j) (Fin (INR (sd_T d))) in
      let v := fun j => eadd (emul (Fin mom) (prev k j)) (emul (Fin lr) (grad j)) in
      let row := fun j => eexp (eadd (elog (w k j)) (v j)) in
      f_sgd_rows m d lr mom prev (f_set_row w k row) (f_set_row vel k v) ks'
  end.

(** One training call and histories of them, as in M_Standard; the state is the weights and the last velocity returned. *)
Definition f_op (m : smodel) (st : emat * option emat) (o : sop) : result (emat * option emat) :=
  match o with
  | SGd e => do w <- f_gd_rows m e (fst st) (seq 0 (sm_K m)) ;; Ok (w, snd st)
  | SSgd fresh lr mom mb =>
      match sm_data m with
      | [] => Raise ValueError
      | _ =>
        do d <- s_data_at m (Z.of_nat mb) ;;
        let prev := match (if fresh then None else snd st) with None => fun _ _ => Fin 0 | Some v => v end in
        do wv <- f_sgd_rows m d lr mom prev (fst st) (fun _ _ => Fin 0) (seq 0 (sm_K m)) ;;
        Ok (fst wv, Some (snd wv))
      end
  end.
Fixpoint f_run (m : smodel) (st : emat * option emat) (h : list sop) : result (emat * option emat) :=
  match h with [] => Ok st | o :: h' => do st1 <- f_op m st o ;; f_run m st1 h' end.

(** models.py 436: the starting point handed to the optimiser by fit_with_bfgs_logspace. *)
Definition f_log_start (w : emat) (k j : nat) : er := elog (w k j).
