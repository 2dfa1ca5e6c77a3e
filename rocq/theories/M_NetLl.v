(** * M_NetLl: network.log_likelihood(x) of the network classes (internals/network.py 162-177, 770-782, 952-961). *)
From Verif Require Import Prelude ExtReal Arrays M_Parents M_Discrete M_Gibbs M_Dist M_Network M_Sweep.
Set Implicit Arguments.
Open Scope R_scope.

(** The argument: a tuple (m, p, v), as the docstrings say, or (m, p, v, c).  Entries have the shapes of the network's own
    parameters and labels are valid (other shapes are not modelled). *)
Inductive net_x := X3 (m : vec) (p v : mat) | X4 (m : vec) (p v : mat) (c : nat -> nat).

(** network.py 162-177, [StochasticBlockModel.log_likelihood]: unpacks four names. *)
Definition sbm_log_likelihood (lgam : R -> R) (s : sbm) (x : net_x) : result er :=
  match x with
  | X3 _ _ _ => Raise ValueError                                                             (* 169 *)
  | X4 m p v c =>
    let C := sb_C s in
    do d <- dirichlet_lp lgam 1 C (fun _ => sb_pi s) (fun _ => m) ;;                         (* 172 *)
    do b <- beta_lp lgam (C * C) (fun _ => sb_tau1 s * 1) (fun _ => sb_tau0 s * 1)
              (fun r => p (r / C)%nat (r mod C)%nat) ;;                                      (* 173-174 *)
    Ok (eadd (eadd (eadd (d 0%nat) (esum (C * C) b))
         (Fin (Rsum C (fun i => Rsum C (fun j => gamma_lp lgam (sb_alpha s) (sb_beta s) (v i j))))))   (* 175 *)
        (esum (sb_K s) (fun k => elog (Fin (m (c k))))))                                     (* 176 *)
  end.
(** network.py 770-782, [StochasticBlockModelFixedSparsity.log_likelihood]: unpacks three names. *)
Definition fsbm_log_likelihood (lgam : R -> R) (s : sbm) (x : net_x) : result er :=
  match x with
  | X4 _ _ _ _ => Raise ValueError                                                           (* 777 *)
  | X3 m _ v =>
    let C := sb_C s in
    do d <- dirichlet_lp lgam 1 C (fun _ => sb_pi s) (fun _ => m) ;;                         (* 780 *)
    Ok (eadd (d 0%nat) (Fin (Rsum C (fun i => Rsum C (fun j => gamma_lp lgam (sb_alpha s) (sb_beta s) (v i j))))))   (* 781 *)
  end.
(** network.py 952-961, [ErdosRenyiFixedSparsity.log_likelihood]: the argument is not read; Gamma(None, None) compares None with 0
    (distributions.py 104-105). *)
Definition er_log_likelihood (lgam : R -> R) (n : ernet) (x : net_x) : result er :=
  match e_alpha n, e_beta n with
  | Some a, Some b => Ok (Fin (gamma_lp lgam a b (e_v n)))                                   (* 960 *)
  | _, _ => Raise TypeError
  end.
Definition net_log_likelihood (lgam : R -> R) (no : netobj) (x : net_x) : result er :=
  match no with
  | NetSbm false s => sbm_log_likelihood lgam s x
  | NetSbm true s => fsbm_log_likelihood lgam s x
  | NetEr n => er_log_likelihood lgam n x
  end.
