(** * M_Standard: model of DiscreteTimeStandardHawkesModel (models.py 24-526)
    and of the network models' initialisation from it (655-710, 1221-1303).
    Aliasing (the in-place division in the G property) is in M_Heap. *)
From Verif Require Import Prelude ExtReal Arrays M_Basis M_Parents M_Discrete M_MeanField.
Set Implicit Arguments.
Open Scope R_scope.

(** One entry (S, F) of data_list; F has the column of ones prepended. *)
Record sdata := { sd_T : nat; sd_S : imat; sd_F : mat }.

(** The attributes the methods use. [sm_w] is self.weights, K x (1+K*B). *)
Record smodel := {
  sm_K : nat; sm_B : nat; sm_dt : R; sm_alpha : R; sm_beta : R; sm_allow : bool;
  sm_L : nat; sm_bas : mat; sm_w : mat; sm_data : list sdata }.
Definition sm_with_data (m : smodel) (d : list sdata) : smodel :=
  {| sm_K := sm_K m; sm_B := sm_B m; sm_dt := sm_dt m; sm_alpha := sm_alpha m; sm_beta := sm_beta m; sm_allow := sm_allow m;
     sm_L := sm_L m; sm_bas := sm_bas m; sm_w := sm_w m; sm_data := d |}.
Definition sm_with_w (m : smodel) (w : mat) : smodel :=
  {| sm_K := sm_K m; sm_B := sm_B m; sm_dt := sm_dt m; sm_alpha := sm_alpha m; sm_beta := sm_beta m; sm_allow := sm_allow m;
     sm_L := sm_L m; sm_bas := sm_bas m; sm_w := w; sm_data := sm_data m |}.
(** Number of weights per process. *)
Definition sm_P (m : smodel) : nat := (1 + sm_K m * sm_B m)%nat.

(** 1+(k*B) <= j < 1+(k+1)*B: the self block of process k. *)
Definition self_block (B k j : nat) : bool := (Nat.leb (1 + k * B) j && Nat.ltb j (1 + (k + 1) * B))%bool.
(** models.py 77-79, [_remove_self_weights] *)
Definition remove_self (B : nat) (w : mat) : mat := fun k j => if self_block B k j then / 10 ^ 32 else w k j.

(** models.py 29-75, __init__ (basis table given): 54-55 and 58 are the assertions, 65-67 the initial weights. *)
Definition sm_init (K B : nat) (dt alpha beta : R) (allow inst : bool) (L : nat) (bas : mat) : result smodel :=
  if (inst && allow)%bool then Raise AssertionError
  else if Rltb alpha 1 then Raise AssertionError
  else let w := fun _ _ => / 10 ^ 3 in
       Ok {| sm_K := K; sm_B := B; sm_dt := dt; sm_alpha := alpha; sm_beta := beta; sm_allow := allow; sm_L := L; sm_bas := bas;
             sm_w := if allow then w else remove_self B w; sm_data := [] |}.

(** models.py 166-179: reshape to T x (K*B) and prepend ones. *)
Definition flatten_F (B : nat) (F : ten) : mat :=
  fun t j => match j with O => 1 | S i => F t (i / B)%nat (i mod B)%nat end.
(** models.py 181-192. The caller may supply F, which is stored unchecked. *)
Definition s_batches (T : nat) (S_ : imat) (F : mat) (mb : option Z) : result (list sdata) :=
  match mb with
  | None => Ok [{| sd_T := T; sd_S := S_; sd_F := F |}]
  | Some n =>
    if Z.eqb n 0 then Raise ZeroDivisionError
    else if Z.ltb n 0 then Ok []
    else Ok (map (fun off => {| sd_T := (Nat.min (off + Z.to_nat n) T - off)%nat; sd_S := slice2 off S_; sd_F := slice2 off F |})
             (offsets T T (Z.to_nat n) 0))
  end.
(** models.py 150-192, [add_data].  The consistency assertions (171-175) hold by construction, except that they index
    columns 0, 1, B of F and Ftens[:,0,0], Ftens[:,0,1], Ftens[:,1,0]: B = 0 raises IndexError. *)
Definition s_add_data (m : smodel) (s : sval) (f : option mat) (mb : option Z) : result smodel :=
  do T <- check_S (sm_K m) s ;;
  do F <- match f with
          | Some F => Ok F
          | None => do F <- convolve_with_basis T (sm_K m) (sv_at s) (sm_L m) (sm_B m) (sm_bas m) ;;
                    if Nat.eqb (sm_B m) 0 then Raise IndexError else Ok (flatten_F (sm_B m) F)
          end ;;
  do ps <- s_batches T (sv_at s) F mb ;;
  Ok (sm_with_data m (sm_data m ++ ps)).

(** F.dot(weights[k,:]) *)
Definition s_rate (P : nat) (w : vec) (d : sdata) (t : nat) : R := Rsum P (fun j => sd_F d t j * w j).

(** The ks argument: None, a Python int, an index array, or anything else. *)
Inductive ksarg := KNone | KInt (k : nat) | KArr (ks : list nat) | KOther.
Definition s_data_at (m : smodel) (index : Z) : result sdata :=
  match py_index (length (sm_data m)) index with
  | Some i => match nth_error (sm_data m) i with Some d => Ok d | None => Raise IndexError end
  | None => Raise IndexError
  end.
(** models.py 228-254, [compute_rate]: the columns of R, one per process asked for.
    np.concatenate of an empty list raises ValueError. *)
Definition s_ks (m : smodel) (ks : ksarg) : result (list nat) :=
  match ks with
  | KNone => match sm_K m with O => Raise ValueError | _ => Ok (seq 0 (sm_K m)) end
  | KInt k => if Nat.ltb k (sm_K m) then Ok [k] else Raise IndexError
  | KArr [] => Raise ValueError
  | KArr l => if forallb (fun k => Nat.ltb k (sm_K m)) l then Ok l else Raise IndexError
  | KOther => Raise GenericException
  end.
Definition s_compute_rate (m : smodel) (index : option Z) (ks : ksarg) : result (nat * list (nat -> R)) :=
  do d <- s_data_at m (match index with None => 0%Z | Some i => i end) ;;
  do l <- s_ks m ks ;;
  Ok (sd_T d, map (fun k => s_rate (sm_P m) (sm_w m k) d) l).

(** models.py 256-269, [log_prior]: iterating over None or over an int is a TypeError. *)
Definition s_prior_row (P : nat) (alpha beta : R) (w : vec) : er :=
  eadd (if Rltb 1 alpha then emul (Fin (alpha - 1)) (esum (P - 1) (fun j => elog (Fin (w (S j))))) else Fin 0)
       (Fin (Rsum (P - 1) (fun j => - beta * w (S j)))).
Definition s_log_prior (m : smodel) (ks : ksarg) : result er :=
  match ks with
  | KArr l => if forallb (fun k => Nat.ltb k (sm_K m)) l
              then Ok (elsum (map (fun k => s_prior_row (sm_P m) (sm_alpha m) (sm_beta m) (sm_w m k)) l))
              else Raise IndexError
  | _ => Raise TypeError
  end.

(** models.py 271-292, [log_likelihood]: sum over data sets, bins and the processes asked for. *)
Definition s_ll_cell (dt : R) (S_ : imat) (t k : nat) (r : R) : er :=
  esub (emul (Fin (IZR (S_ t k))) (elog (Fin r))) (Fin (r * dt)).
Definition s_ll_data (m : smodel) (l : list nat) (d : sdata) : er :=
  esum (sd_T d) (fun t => elsum (map (fun k => s_ll_cell (sm_dt m) (sd_S d) t k (s_rate (sm_P m) (sm_w m k) d t)) l)).
Definition s_indices (m : smodel) (ix : indices) : list Z :=
  match ix with All => map Z.of_nat (seq 0 (length (sm_data m))) | One i => [i] | Many l => l end.
Fixpoint s_ll_sum (m : smodel) (l : list nat) (ix : list Z) (acc : er) : result er :=
  match ix with
  | [] => Ok acc
  | i :: ix' => do d <- s_data_at m i ;; s_ll_sum m l ix' (eadd acc (s_ll_data m l d))
  end.
Definition s_log_likelihood (m : smodel) (ix : indices) (ks : ksarg) : result er :=
  match s_indices m ix with
  | [] => Ok (Fin 0)
  | i0 :: rest => do _ <- s_data_at m i0 ;; do l <- s_ks m ks ;; s_ll_sum m l (i0 :: rest) (Fin 0)
  end.

(** models.py 294-300, [log_posterior] *)
Definition s_log_posterior (m : smodel) (ix : indices) (ks : ksarg) : result er :=
  let ks := match ks with KNone => KArr (seq 0 (sm_K m)) | _ => ks end in
  do a <- s_log_likelihood m ix ks ;;
  do b <- s_log_prior m ks ;;
  Ok (eadd a b).

(** models.py 302-306, [heldout_log_likelihood], with the state it leaves behind, also on an exception. *)
Definition s_heldout (m : smodel) (s : sval) : result er * smodel :=
  match s_add_data m s None None with
  | Raise e => (Raise e, m)
  | Ok m1 =>
    match s_log_likelihood m1 (One (-1)) KNone with
    | Raise e => (Raise e, m1)
    | Ok v => (Ok v, sm_with_data m1 (removelast (sm_data m1)))
    end
  end.

(** models.py 348-360: dll/drate . F for one data set.  Division by a zero rate (numpy inf/nan) is not modelled:
    the theorems assume positive rates. *)
Definition s_grad_data (m : smodel) (k : nat) (w : vec) (d : sdata) (j : nat) : R :=
  Rsum (sd_T d) (fun t => (IZR (sd_S d t k) / s_rate (sm_P m) w d t - sm_dt m) * sd_F d t j).
(** models.py 390-403, [_d_log_prior_d_W] *)
Definition s_grad_prior (alpha beta : R) (w : vec) (j : nat) : R :=
  match j with
  | O => 0
  | _ => (if Rltb 1 alpha then (alpha - 1) / w j else 0) + - beta
  end.
(** np.allclose(x, 0.0) *)
Definition close0 (x : R) : bool := Rleb (Rabs x) (/ 10 ^ 8).
Fixpoint s_data_list (m : smodel) (ix : list Z) : result (list sdata) :=
  match ix with
  | [] => Ok []
  | i :: ix' => do d <- s_data_at m i ;; do ds <- s_data_list m ix' ;; Ok (d :: ds)
  end.
(** models.py 308-346, [compute_gradient] for process k at weight row [w] (the code reads self.weights[k,:]). *)
Definition s_gradient_row (m : smodel) (k : nat) (w : vec) (ds : list sdata) : result vec :=
  let g j := lsum (map (fun d => s_grad_data m k w d j) ds) + s_grad_prior (sm_alpha m) (sm_beta m) w j in
  if sm_allow m then Ok g
  else if forall_lt (sm_P m) (fun j => if self_block (sm_B m) k j then close0 (w j) else true)
       then Ok (fun j => if self_block (sm_B m) k j then 0 else g j)
       else Raise AssertionError.
(** Unlike log_likelihood, compute_gradient does not wrap a single integer into a list: iterating over it raises. *)
Definition s_compute_gradient (m : smodel) (k : nat) (ix : indices) : result vec :=
  match ix with
  | One _ => Raise TypeError
  | _ =>
    do ds <- s_data_list m (s_indices m ix) ;;
    if Nat.ltb k (sm_K m) then s_gradient_row m k (sm_w m k) ds else Raise IndexError
  end.

(** models.py 103-112, [initialize_to_background_rate] *)
Definition s_init_background (m : smodel) : smodel :=
  match sm_data m with
  | [] => m
  | ds => let N k := lsum (map (fun d => IZR (Zsum (sd_T d) (fun t => sd_S d t k))) ds) in
          let T := lsum (map (fun d => INR (sd_T d) * sm_dt m) ds) in
          sm_with_w m (fun k j => match j with O => N k / T | _ => sm_w m k j end)
  end.

(** models.py 194-208, [check_stability]: self.weights.sum(axis=2) on a two-dimensional array.
    [np_sum_axis ndim axis] is whether NumPy accepts the axis. *)
Definition np_sum_axis (ndim axis : nat) : result unit := guard (Nat.ltb axis ndim) AxisError.
Definition s_check_stability (m : smodel) : result bool :=
  do _ <- np_sum_axis 2 2 ;; Ok true.

(** models.py 114-148: the values of W, bias and G (G on weights with non-zero block sums). *)
Definition s_W (m : smodel) : mat := fun k1 k2 => Rsum (sm_B m) (fun b => sm_w m k2 (1 + (k1 * sm_B m + b))%nat).
Definition s_bias (m : smodel) : vec := fun k => sm_w m k 0%nat.
Definition s_G (m : smodel) : ten := fun k1 k2 b => sm_w m k2 (1 + (k1 * sm_B m + b))%nat / s_W m k1 k2.
(** What remains stored after the property G was read (M_Heap, C49). *)
Definition s_after_G (m : smodel) : smodel :=
  sm_with_w m (fun k j => match j with
     | O => sm_w m k 0%nat
     | S i => sm_w m k (S i) / s_W m (i / sm_B m)%nat k
     end).

(** models.py 81-101, [initialize_with_gibbs_model].  Line 92 ends in a comma, so [lambda0] is a one-element tuple
    holding the K-vector: lambda0[0] is that vector, which fits into weights[0,0] only when K = 1 (size-1 array);
    for K >= 2 NumPy raises ValueError before anything is written. *)
Definition s_init_gibbs (m : smodel) (n : dmodel) : result smodel :=
  do _ <- guard (Nat.eqb (dm_K n) (sm_K m)) AssertionError ;;
  do _ <- guard (Nat.eqb (dm_B n) (sm_B m)) AssertionError ;;
  match sm_K m with
  | O => Ok m
  | S O =>
      let w := fun k j => if Nat.eqb k 0 then match j with O => dm_lam n 0%nat | S i => W_effective n (i / sm_B m)%nat k * dm_g n (i / sm_B m)%nat k (i mod sm_B m)%nat end else sm_w m k j in
      Ok (sm_with_w m (if sm_allow m then w else remove_self (sm_B m) w))
  | _ => Raise ValueError
  end.

(** models.py 481-493, [gradient_descent_step]: rows updated one after the other.  The returned objective does not
    affect the state. *)
Definition s_gd_row (m : smodel) (stepsz : R) (k : nat) : result smodel :=
  do g <- s_compute_gradient m k All ;;
  let row := fun j => exp (ln (sm_w m k j) + stepsz * (g j * sm_w m k j)) in
  Ok (sm_with_w m (fun k' j => if Nat.eqb k' k then row j else sm_w m k' j)).
Fixpoint s_rows (f : smodel -> nat -> result smodel) (m : smodel) (ks : list nat) : result smodel :=
  match ks with [] => Ok m | k :: ks' => do m1 <- f m k ;; s_rows f m1 ks' end.
Definition s_gradient_descent_step (m : smodel) (stepsz : R) : result smodel :=
  s_rows (fun m k => s_gd_row m stepsz k) m (seq 0 (sm_K m)).

(** models.py 495-526, [sgd_step]. [mb] is the value of np.random.choice(len(data_list)) (ValueError when empty).
    Returns the model and the velocity. *)
Fixpoint s_sgd_rows (mb : nat) (lr mom : R) (prev : mat) (st : smodel * mat) (ks : list nat) : result (smodel * mat) :=
  match ks with
  | [] => Ok st
  | k :: ks' =>
      let (m, vel) := st in
      do d <- s_data_at m (Z.of_nat mb) ;;
      do g <- s_compute_gradient m k (Many [Z.of_nat mb]) ;;
      let grad := fun j => g j * sm_w m k j / INR (sd_T d) in
      let v := fun j => mom * prev k j + lr * grad j in
      let row := fun j => exp (ln (sm_w m k j) + v j) in
      s_sgd_rows mb lr mom prev
        (sm_with_w m (fun k' j => if Nat.eqb k' k then row j else sm_w m k' j), fun k' j => if Nat.eqb k' k then v j else vel k' j) ks'
  end.
Definition s_sgd_step (m : smodel) (prev : option mat) (lr mom : R) (mb : nat) : result (smodel * mat) :=
  match sm_data m with
  | [] => Raise ValueError
  | _ => s_sgd_rows mb lr mom (match prev with None => fun _ _ => 0 | Some v => v end) (m, fun _ _ => 0) (seq 0 (sm_K m))
  end.

(** Training histories: batch steps, and SGD steps that either thread the previous velocity or restart from None. *)
Inductive sop := SGd (stepsz : R) | SSgd (fresh : bool) (lr mom : R) (mb : nat).
Definition s_op (st : smodel * option mat) (o : sop) : result (smodel * option mat) :=
  match o with
  | SGd e => do m <- s_gradient_descent_step (fst st) e ;; Ok (m, snd st)
  | SSgd fresh lr mom mb =>
      do mv <- s_sgd_step (fst st) (if fresh then None else snd st) lr mom mb ;; Ok (fst mv, Some (snd mv))
  end.
Fixpoint s_run (st : smodel * option mat) (h : list sop) : result (smodel * option mat) :=
  match h with [] => Ok st | o :: h' => do st1 <- s_op st o ;; s_run st1 h' end.

(* ------------------------------------------------------------------ *)
(** ** Initialising a network model from a standard model *)

Fixpoint insertR (x : R) (l : list R) : list R :=
  match l with [] => [x] | y :: l' => if Rleb x y then x :: l else y :: insertR x l' end.
Fixpoint sortR (l : list R) : list R := match l with [] => [] | x :: l' => insertR x (sortR l') end.
(** np.percentile(x, q), linear interpolation; q outside [0,100] raises ValueError, an empty x IndexError. *)
Definition percentile (l : list R) (q : R) : result R :=
  if (Rltb q 0 || Rltb 100 q)%bool then Raise ValueError
  else match l with
  | [] => Raise IndexError
  | _ => let s := sortR l in
         let v := INR (length l - 1) * (q / 100) in
         let i := Z.to_nat (floorZ v) in
         let gam := v - INR i in
         Ok (nth i s 0 + gam * (nth (Nat.min (i + 1) (length l - 1)) s 0 - nth i s 0))
  end.
Definition flat_mat (K : nat) (W : mat) : list R := flat_map (fun i => map (fun j => W i j) (seq 0 K)) (seq 0 K).

(** models.py 655-710 with a standard model given: the parameters that are set, and the standard model as it is left
    behind (W is read before G; reading G divides the stored weights in place).  [mean_p] is np.mean(self.network.p).
    np.clip(g, 1e-2, np.inf). *)
Record init_params := { ip_lam : vec; ip_W : mat; ip_g : ten; ip_A : bmat }.
Definition init_from_std (m : smodel) (K B : nat) (mean_p : R) : result (init_params * smodel) :=
  do _ <- guard (Nat.eqb (sm_K m) K) AssertionError ;;
  do _ <- guard (Nat.eqb (sm_B m) B) AssertionError ;;
  let W := fun k1 k2 => s_W m k1 k2 + / 10 ^ 6 in
  let g0 := fun k1 k2 b => clip_lo (/ 10 ^ 2) (s_G m k1 k2 b) in
  let g := fun k1 k2 b => g0 k1 k2 b / Rsum B (fun b => g0 k1 k2 b) in
  do thr <- percentile (flat_mat K W) ((1 - mean_p) * 100) ;;
  Ok ({| ip_lam := s_bias m; ip_W := W; ip_g := g; ip_A := fun i j => Rltb thr (W i j) |}, s_after_G m).

(** models.py 1273-1303: the gamma-mixture model then sets its variational parameters. *)
Definition init_mf_bias (ip : init_params) : mfbias :=
  {| mb_alpha := fun k => clip_lo (/ 10 ^ 8) (100 * ip_lam ip k); mb_beta := fun _ => 100 |}.
Definition init_mf_weights (nu0 : R) (ip : init_params) : mfw :=
  {| w_p := fun i j => Fin (8 / 10 * b2R (ip_A ip i j) + 2 / 10 * (1 - b2R (ip_A ip i j)));
     w_kappa0 := fun i j => nu0 * ip_W ip i j; w_v0 := fun _ _ => nu0;
     w_kappa1 := fun i j => 100 * ip_W ip i j; w_v1 := fun _ _ => 100 |}.
Definition init_mf_gamma (ip : init_params) : ten := fun i j b => 100 * ip_g ip i j b.
