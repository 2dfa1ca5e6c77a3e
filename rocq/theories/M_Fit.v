(** * M_Fit: fitting the standard Hawkes model by numerical optimisation (models.py 362-368, 405-479).

    scipy.optimize.minimize is not modelled: it is an arbitrary adaptive strategy that asks for values of the objective
    and of the gradient at points of its choice and finally returns a point.  What it asks for matters, because both
    callbacks overwrite the row of weights being fitted, and the gradient may raise. *)
From Verif Require Import Prelude ExtReal Arrays M_Basis M_Parents M_Discrete M_MeanField M_Standard.
Set Implicit Arguments.
Open Scope R_scope.

Inductive optim :=
| Done (x : vec)
| AskF (x : vec) (next : R -> optim)
| AskG (x : vec) (next : vec -> optim).

(** self.weights[k,:] = x *)
Definition s_set_row (m : smodel) (k : nat) (x : vec) : smodel :=
  sm_with_w m (fun k' j => if Nat.eqb k' k then x j else sm_w m k' j).

(** models.py 415-418 and 455-457, [objective(x, k)], with the state it leaves; [tr] is what the callback stores for
    the point x (x itself, or np.nan_to_num(np.exp(x)), which is exp for finite x). *)
Definition s_objective (tr : vec -> vec) (m : smodel) (k : nat) (x : vec) : result R * smodel :=
  let m1 := s_set_row m k (tr x) in
  (do v <- s_log_posterior m1 All (KArr [k]) ;; Ok (nan_to_num (eopp v)), m1).
(** models.py 459-461, [gradient(x, k)]. *)
Definition s_gradient (m : smodel) (k : nat) (x : vec) : result vec * smodel :=
  let m1 := s_set_row m k x in
  (do g <- s_compute_gradient m1 k All ;; Ok (fun j => - g j), m1).
(** models.py 420-425 and 362-368, [gradient(x, k)] in log space: the product with diag(weights[k,:]). *)
Definition s_gradient_log (m : smodel) (k : nat) (x : vec) : result vec * smodel :=
  let m1 := s_set_row m k (fun j => exp (x j)) in
  (do g <- s_compute_gradient m1 k All ;; Ok (fun j => - g j * sm_w m1 k j), m1).

(** A run of the optimiser on process k: the point returned, or the exception of a callback, and the state left.  The
    progress callback (427-431, 463-467) only reads. *)
Fixpoint s_minimize (obj : smodel -> nat -> vec -> result R * smodel) (grd : smodel -> nat -> vec -> result vec * smodel)
    (k : nat) (o : optim) (m : smodel) : result vec * smodel :=
  match o with
  | Done x => (Ok x, m)
  | AskF x next => match obj m k x with (Ok v, m1) => s_minimize obj grd k (next v) m1 | (Raise e, m1) => (Raise e, m1) end
  | AskG x next => match grd m k x with (Ok g, m1) => s_minimize obj grd k (next g) m1 | (Raise e, m1) => (Raise e, m1) end
  end.

(** models.py 469-479, the loop over the processes; [opt k x0] is the strategy followed for process k from x0. *)
Fixpoint s_fit_rows (opt : nat -> vec -> optim) (ks : list nat) (m : smodel) : result unit * smodel :=
  match ks with
  | [] => (Ok tt, m)
  | k :: ks' =>
      match s_minimize (s_objective (fun x => x)) s_gradient k (opt k (sm_w m k)) m with
      | (Ok x, m1) => s_fit_rows opt ks' (s_set_row m1 k x)
      | (Raise e, m1) => (Raise e, m1)
      end
  end.
Definition s_fit_with_bfgs (opt : nat -> vec -> optim) (m : smodel) : result unit * smodel :=
  s_fit_rows opt (seq 0 (sm_K m)) m.
(** models.py 433-443, the same loop in log space. *)
Fixpoint s_fit_log_rows (opt : nat -> vec -> optim) (ks : list nat) (m : smodel) : result unit * smodel :=
  match ks with
  | [] => (Ok tt, m)
  | k :: ks' =>
      match s_minimize (s_objective (fun x j => exp (x j))) s_gradient_log k (opt k (fun j => ln (sm_w m k j))) m with
      | (Ok x, m1) => s_fit_log_rows opt ks' (s_set_row m1 k (fun j => exp (x j)))
      | (Raise e, m1) => (Raise e, m1)
      end
  end.
Definition s_fit_with_bfgs_logspace (opt : nat -> vec -> optim) (m : smodel) : result unit * smodel :=
  s_fit_log_rows opt (seq 0 (sm_K m)) m.

(** models.py 449-453: the bounds handed to the optimiser, (low, high) per position; None is no bound. *)
Definition fit_lo : R := / 10 ^ 16.
Definition fit_hi (wmax : option R) (j : nat) : option R := match j with O => None | _ => wmax end.
(** models.py 409-413: in log space only the upper bounds exist, and only with W_max. *)
Definition fit_hi_log (wmax : option R) (j : nat) : option R := match fit_hi wmax j with Some h => Some (ln h) | None => None end.
