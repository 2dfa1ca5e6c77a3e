(** * M_Discrete: model of _DiscreteTimeNetworkHawkesModelBase
    (pyhawkes/models.py 526-1019): data, rates, simulation, likelihoods. *)
From Verif Require Import Prelude ExtReal Arrays M_Basis M_Parents.
Set Implicit Arguments.
Open Scope R_scope.

(** The state of a discrete-time network model that these methods read or write.
    [dm_bas] is the (finite) basis table with [dm_L] rows and [dm_B] columns
    (bases with NaN columns, see C01, are outside this record); [dm_L_int] says whether
    basis.L is a Python int; [dm_mix] distinguishes GammaMixtureWeights from
    SpikeAndSlabGammaWeights. *)
Record dmodel := {
  dm_K : nat; dm_B : nat; dm_dt : R;
  dm_L : nat; dm_L_int : bool; dm_bas : mat;
  dm_mix : bool;
  dm_A : bmat; dm_W : mat; dm_g : ten; dm_lam : vec;
  dm_data : list parents
}.

Definition with_data (m : dmodel) (d : list parents) : dmodel :=
  {| dm_K := dm_K m; dm_B := dm_B m; dm_dt := dm_dt m; dm_L := dm_L m; dm_L_int := dm_L_int m;
     dm_bas := dm_bas m; dm_mix := dm_mix m; dm_A := dm_A m; dm_W := dm_W m; dm_g := dm_g m;
     dm_lam := dm_lam m; dm_data := d |}.

(** internals/weights.py 38-39 (A * W) and 221-222 (W). *)
Definition W_effective (m : dmodel) : mat :=
  if dm_mix m then dm_W m else fun k1 k2 => b2R (dm_A m k1 k2) * dm_W m k1 k2.

Definition params_of (m : dmodel) : params :=
  {| q_lam := dm_lam m; q_W := W_effective m; q_g := dm_g m |}.

(** Values a caller may pass as S: [sv_isarray] isinstance(S, np.ndarray),
    [sv_dims] its shape, [sv_isint] dtype == int, [sv_at] the entries of a 2-d integer array. *)
Record sval := { sv_isarray : bool; sv_dims : list nat; sv_isint : bool; sv_at : imat }.
Definition sval_of (T K : nat) (S_ : imat) : sval :=
  {| sv_isarray := true; sv_dims := [T; K]; sv_isint := true; sv_at := S_ |}.
Record fval_ := { fv_isarray : bool; fv_dims : list nat; fv_at : ten }.
Definition fval_of (T K B : nat) (F : ten) : fval_ :=
  {| fv_isarray := true; fv_dims := [T; K; B]; fv_at := F |}.

Fixpoint dims_eqb (a b : list nat) : bool :=
  match a, b with
  | [], [] => true
  | x :: a', y :: b' => Nat.eqb x y && dims_eqb a' b'
  | _, _ => false
  end.

(** models.py 721-723: the assertion on S, evaluated left to right; np.amin of an
    empty array raises ValueError. *)
Definition check_S (K : nat) (s : sval) : result nat :=
  if negb (sv_isarray s) then Raise AssertionError
  else match sv_dims s with
  | [T; K'] =>
    if negb (Nat.eqb K' K) then Raise AssertionError
    else if (Nat.eqb T 0 || Nat.eqb K' 0)%bool then Raise ValueError
    else if negb (sv_isint s) then Raise AssertionError
    else if forall_lt T (fun t => forall_lt K' (fun k => Z.leb 0 (sv_at s t k)))
    then Ok T else Raise AssertionError
  | _ => Raise AssertionError
  end.

(** models.py 727-732: filter, or check the supplied filtered data. *)
Definition get_F (m : dmodel) (T : nat) (s : sval) (f : option fval_) : result ten :=
  match f with
  | Some fv =>
    if (fv_isarray fv && dims_eqb (fv_dims fv) [T; dm_K m; dm_B m])%bool
    then Ok (fv_at fv) else Raise AssertionError
  | None => convolve_with_basis T (dm_K m) (sv_at s) (dm_L m) (dm_B m) (dm_bas m)
  end.

(** Slices S[offset:end,:], F[offset:end,:]. *)
Definition slice2 {A} (off : nat) (f : nat -> nat -> A) : nat -> nat -> A := fun t k => f (off + t)%nat k.
Definition slice3 {A} (off : nat) (f : nat -> nat -> nat -> A) : nat -> nat -> nat -> A :=
  fun t k b => f (off + t)%nat k b.

(** np.arange(T, step=n) for n > 0, as the list of offsets; [fuel] bounds the
    number of batches (T suffices). *)
Fixpoint offsets (fuel T n off : nat) : list nat :=
  match fuel with
  | O => []
  | S fuel' => if Nat.ltb off T then off :: offsets fuel' T n (off + n) else []
  end.

(** models.py 734-753. A minibatch size of 0 raises in np.arange; a negative one
    yields no batches. *)
Definition batches (K B : nat) (dt : R) (T : nat) (S_ : imat) (F : ten) (mb : option Z)
  : result (list parents) :=
  match mb with
  | None => Ok [mk_parents K B dt T S_ F]
  | Some n =>
    if Z.eqb n 0 then Raise ZeroDivisionError
    else if Z.ltb n 0 then Ok []
    else Ok (map (fun off =>
               let end_ := Nat.min (off + Z.to_nat n) T in
               mk_parents K B dt (end_ - off) (slice2 off S_) (slice3 off F))
             (offsets T T (Z.to_nat n) 0))
  end.

(** models.py 712-753, [add_data], when it succeeds. *)
Definition add_data (m : dmodel) (s : sval) (f : option fval_) (mb : option Z) : result dmodel :=
  do T <- check_S (dm_K m) s ;;
  do F <- get_F m T s f ;;
  do ps <- batches (dm_K m) (dm_B m) (dm_dt m) T (sv_at s) F mb ;;
  Ok (with_data m (dm_data m ++ ps)).

(** The same method statement by statement, with the state it leaves behind even
    when it raises: data_list.append runs once per minibatch (735-746) or once (748-753). *)
Definition append_data (m : dmodel) (p : parents) : dmodel := with_data m (dm_data m ++ [p]).
Definition add_data_st (m : dmodel) (s : sval) (f : option fval_) (mb : option Z)
  : result unit * dmodel :=
  match check_S (dm_K m) s with
  | Raise e => (Raise e, m)
  | Ok T =>
    match get_F m T s f with
    | Raise e => (Raise e, m)
    | Ok F =>
      match mb with
      | None => (Ok tt, append_data m (mk_parents (dm_K m) (dm_B m) (dm_dt m) T (sv_at s) F))
      | Some n =>
        if Z.eqb n 0 then (Raise ZeroDivisionError, m)
        else if Z.ltb n 0 then (Ok tt, m)
        else (Ok tt, fold_left (fun m' off =>
                let end_ := Nat.min (off + Z.to_nat n) T in
                append_data m' (mk_parents (dm_K m') (dm_B m') (dm_dt m') (end_ - off)
                                  (slice2 off (sv_at s)) (slice3 off F)))
              (offsets T T (Z.to_nat n) 0) m)
      end
    end
  end.

(** Python list / array indexing with a possibly negative index. *)
Definition py_index (n : nat) (i : Z) : option nat :=
  if (Z.leb 0 i && Z.ltb i (Z.of_nat n))%bool then Some (Z.to_nat i)
  else if (Z.ltb i 0 && Z.leb 0 (Z.of_nat n + i))%bool then Some (Z.to_nat (Z.of_nat n + i))
  else None.

(** models.py 924-940: all processes. H[b,k,k'] = W_eff[k,k'] * g[k,k',b],
    R[t,k'] = lambda0[k'] + sum over (b,k) of F[t,k,b] * H[b,k,k']. *)
Definition rate_all (m : dmodel) (F : ten) (t k2 : nat) : R :=
  (0 + dm_lam m k2)
  + Rsum (dm_B m) (fun b => Rsum (dm_K m) (fun k1 =>
      F t k1 b * (W_effective m k1 k2 * dm_g m k1 k2 b))).
(** models.py 942-956: a single process. *)
Definition rate_proc (m : dmodel) (F : ten) (t proc : nat) : R :=
  (0 + dm_lam m proc)
  + Rsum (dm_K m) (fun k1 => Rsum (dm_B m) (fun b =>
      F t k1 b * (W_effective m k1 proc * dm_g m k1 proc b))).

(** models.py 909-922: which data the rate is computed for, giving (T, F).
    With [S] given, its number of columns must match the model (a mismatch fails
    in the in-place addition on line 929 or in tensordot: ValueError). *)
Definition rate_input (m : dmodel) (index : Z) (s : option sval) (f : option fval_)
  : result (nat * ten) :=
  match s with
  | Some s =>
    if negb (sv_isarray s) then Raise AssertionError
    else match sv_dims s with
    | [T; K'] =>
      match f with
      | Some fv =>
        if dims_eqb (fv_dims fv) [T; K'; dm_B m]
        then (if Nat.eqb K' (dm_K m) then Ok (T, fv_at fv) else Raise ValueError)
        else Raise AssertionError
      | None =>
        do F <- convolve_with_basis T K' (sv_at s) (dm_L m) (dm_B m) (dm_bas m) ;;
        if Nat.eqb K' (dm_K m) then Ok (T, F) else Raise ValueError
      end
    | _ => Raise AssertionError
    end
  | None =>
    if negb (Z.ltb index (Z.of_nat (length (dm_data m)))) then Raise AssertionError
    else match py_index (length (dm_data m)) index with
         | Some i => match nth_error (dm_data m) i with
                     | Some d => Ok (pa_T d, pa_F d)
                     | None => Raise IndexError
                     end
         | None => Raise IndexError
         end
  end.

(** models.py 900-956, [compute_rate] with proc=None: (T, R). *)
Definition compute_rate (m : dmodel) (index : Z) (s : option sval) (f : option fval_)
  : result (nat * mat) :=
  do TF <- rate_input m index s f ;; Ok (fst TF, rate_all m (snd TF)).
(** ... and with an integer proc (negative values index from the end). *)
Definition compute_rate_proc (m : dmodel) (index : Z) (proc : Z) (s : option sval) (f : option fval_)
  : result (nat * vec) :=
  do TF <- rate_input m index s f ;;
  if negb (Z.ltb proc (Z.of_nat (dm_K m))) then Raise AssertionError
  else match py_index (dm_K m) proc with
       | Some k => Ok (fst TF, fun t => rate_proc m (snd TF) t k)
       | None => Raise IndexError
       end.

(** models.py 958-966, [_poisson_log_likelihood]: (S*log(R) - R*dt).sum(). *)
Definition poisson_ll (dt : R) (T K : nat) (S_ : imat) (R_ : mat) : er :=
  esum T (fun t => esum K (fun k =>
    esub (emul (Fin (IZR (S_ t k))) (elog (Fin (R_ t k)))) (Fin (R_ t k * dt)))).

(** models.py 968-975, [heldout_log_likelihood]. It returns a value and touches
    nothing else: the model state is returned to make that checkable. *)
Definition heldout_log_likelihood (m : dmodel) (s : sval) (f : option fval_) : result er * dmodel :=
  (do TR <- compute_rate m 0 (Some s) f ;;
   Ok (poisson_ll (dm_dt m) (fst TR) (dm_K m) (sv_at s) (snd TR)), m).

(** models.py 993-1009, [log_likelihood]. *)
Inductive indices := All | One (i : Z) | Many (l : list Z).
Definition ll_at (m : dmodel) (i : Z) : result er :=
  match py_index (length (dm_data m)) i with
  | Some j => match nth_error (dm_data m) j with
              | Some d => Ok (pa_ll d (params_of m))
              | None => Raise IndexError
              end
  | None => Raise IndexError
  end.
Fixpoint ll_sum (m : dmodel) (l : list Z) (acc : er) : result er :=
  match l with
  | [] => Ok acc
  | i :: l' => do x <- ll_at m i ;; ll_sum m l' (eadd acc x)
  end.
Definition log_likelihood (m : dmodel) (ix : indices) : result er :=
  match ix with
  | All => ll_sum m (map Z.of_nat (seq 0 (length (dm_data m)))) (Fin 0)
  | One i => ll_sum m [i] (Fin 0)
  | Many l => ll_sum m l (Fin 0)
  end.

(* ---------------- simulation ---------------- *)

(** np.random.poisson(lam): oracle of (bin, process, requested mean). *)
Definition pois_oracle := nat -> nat -> R -> Z.

(** models.py 808-814: H[l,k',k] = W_eff[k,k'] * sum_b basis[l,b] g[k,k',b]. *)
Definition gen_H (m : dmodel) (l k2 k1 : nat) : R :=
  W_effective m k1 k2 * Rsum (dm_B m) (fun b => dm_bas m l b * dm_g m k1 k2 b).

(** Loop state: counts, rates, and the log of requested Poisson means. *)
Record gstate := { gs_S : imat; gs_R : mat; gs_D : mat }.

(** models.py 825-831, one time bin. *)
Definition gen_step (m : dmodel) (pois : pois_oracle) (st : gstate) (t : nat) : gstate :=
  let D := fun k => gs_R st t k * dm_dt m in                                   (* 827 *)
  let St := fun k => pois t k (D k) in
  {| gs_S := fun t' k => if Nat.eqb t' t then St k else gs_S st t' k;
     gs_R := fun t' k2 =>                                                       (* 830-831 *)
       if (Nat.leb t t' && Nat.ltb t' (t + dm_L m))%bool
       then gs_R st t' k2 + Rsum (dm_K m) (fun k1 => gen_H m (t' - t) k2 k1 * IZR (St k1))
       else gs_R st t' k2;
     gs_D := fun t' k => if Nat.eqb t' t then D k else gs_D st t' k |}.

(** models.py 805, 817-820: initial arrays. *)
Definition gen_init (m : dmodel) : gstate :=
  {| gs_S := fun _ _ => 0%Z; gs_R := fun _ k => 0 + dm_lam m k; gs_D := fun _ _ => 0 |}.

Definition gen_loop (m : dmodel) (pois : pois_oracle) (T : nat) : gstate :=
  fold_left (gen_step m pois) (seq 0 T) (gen_init m).

(** models.py 791-853, [generate].  check_stability's value is discarded (802).
    A float basis.L makes np.zeros((T+L, K)) raise TypeError (817).  1000 or more
    events in a bin drop into the debugger (839-841), modelled as an exception.
    Returns the new model, S and R. *)
Definition generate (m : dmodel) (pois : pois_oracle) (keep : bool) (T : nat)
  : result (dmodel * imat * mat) :=
  if negb (dm_L_int m) then Raise TypeError
  else
  let st := gen_loop m pois T in
  if negb (forall_lt T (fun t => forall_lt (dm_K m) (fun k => Z.ltb (gs_S st t k) 1000)))
  then Raise GenericException
  else
  if keep
  then do m' <- add_data m (sval_of T (dm_K m) (gs_S st)) None None ;;           (* 850 *)
       Ok (m', gs_S st, gs_R st)
  else Ok (m, gs_S st, gs_R st).
