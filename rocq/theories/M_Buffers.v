(** * M_Buffers: arrays a data set keeps by reference and arrays it copies
    (pyhawkes/internals/parents.py 35-55, pyhawkes/models.py 712-753, 900-956, 150-192).

    The value-level model files store the contents of S and F in a data set.  In
    the program a data set of a network model keeps *references* to S and F and, next to
    them, copies (the sparse arrays ts, Ss, Ns, Fs); later calls read the one or the
    other.  Here arrays live in a memory, the caller may overwrite the arrays it
    holds between any two calls, and each method reads exactly what the program reads. *)
From Verif Require Import Prelude ExtReal Arrays M_Basis M_Parents M_Discrete M_Standard.
Set Implicit Arguments.
Open Scope R_scope.

(** Arrays created by the caller and arrays created by the library. *)
Inductive addr := User (n : nat) | Lib (n : nat).
Definition addr_eqb (a b : addr) : bool :=
  match a, b with
  | User i, User j => Nat.eqb i j
  | Lib i, Lib j => Nat.eqb i j
  | _, _ => false
  end.
(** Contents: integer count arrays (T x K), filtered arrays of network models (T x K x B) and of standard models
    (T x (1+KB)); [m_next] numbers the library's arrays. *)
Record mem := { m_ints : addr -> imat; m_reals : addr -> ten; m_flat : addr -> mat; m_next : nat }.
Definition put {A} (f : addr -> A) (a : addr) (x : A) : addr -> A := fun b => if addr_eqb b a then x else f b.
(** a[...] = x for an array a *)
Definition put_ints (h : mem) (a : addr) (x : imat) : mem :=
  {| m_ints := put (m_ints h) a x; m_reals := m_reals h; m_flat := m_flat h; m_next := m_next h |}.
Definition put_reals (h : mem) (a : addr) (x : ten) : mem :=
  {| m_ints := m_ints h; m_reals := put (m_reals h) a x; m_flat := m_flat h; m_next := m_next h |}.
Definition put_flat (h : mem) (a : addr) (x : mat) : mem :=
  {| m_ints := m_ints h; m_reals := m_reals h; m_flat := put (m_flat h) a x; m_next := m_next h |}.
(** a new array made by the library *)
Definition bump (h : mem) : mem :=
  {| m_ints := m_ints h; m_reals := m_reals h; m_flat := m_flat h; m_next := S (m_next h) |}.
Definition new_ints (h : mem) (x : imat) : mem * addr := (bump (put_ints h (Lib (m_next h)) x), Lib (m_next h)).
Definition new_reals (h : mem) (x : ten) : mem * addr := (bump (put_reals h (Lib (m_next h)) x), Lib (m_next h)).
Definition new_flat (h : mem) (x : mat) : mem * addr := (bump (put_flat h (Lib (m_next h)) x), Lib (m_next h)).

(** The arguments of add_data, as objects: a count array and possibly a filtered array of the caller. *)
Record sref := { sr_isarray : bool; sr_dims : list nat; sr_isint : bool; sr_addr : addr }.
Record fref := { fr_isarray : bool; fr_dims : list nat; fr_user : nat }.
Definition sval_in (h : mem) (s : sref) : sval :=
  {| sv_isarray := sr_isarray s; sv_dims := sr_dims s; sv_isint := sr_isint s; sv_at := m_ints h (sr_addr s) |}.
Definition fval_in (h : mem) (f : fref) : fval_ :=
  {| fv_isarray := fr_isarray f; fv_dims := fr_dims f; fv_at := m_reals h (User (fr_user f)) |}.

(** A DiscreteTimeParents object (parents.py 30-55): S and F by reference (35-37; for a minibatch they are the
    views S[offset:end,:], F[offset:end,:]), the rest copied: np.where gives a new array (47), fancy indexing S[tk,k],
    F[tk] and astype copy (50-52), the sum is a number (51). *)
Record live := {
  lv_T : nat; lv_K : nat; lv_B : nat; lv_dt : R;
  lv_S : addr; lv_F : addr; lv_off : nat;
  lv_ts : nat -> list nat; lv_Ss : nat -> nat -> Z; lv_Ns : nat -> Z; lv_Fs : nat -> nat -> mat;
  lv_Z : nat -> nat -> nat -> Z; lv_EZ : nat -> nat -> nat -> R }.
(** self.S and self.F as read later (data.S, data.F). *)
Definition live_S (h : mem) (d : live) : imat := slice2 (lv_off d) (m_ints h (lv_S d)).
Definition live_F (h : mem) (d : live) : ten := slice3 (lv_off d) (m_reals h (lv_F d)).

(** parents.py 14-80 on the arrays at [sa], [fa] from row [off] on. *)
Definition mk_live (h : mem) (K B : nat) (dt : R) (T : nat) (sa fa : addr) (off : nat) : live :=
  let S_ := slice2 off (m_ints h sa) in
  let F := slice3 off (m_reals h fa) in
  let ts k := filter (fun t => negb (Z.eqb (S_ t k) 0)) (seq 0 T) in                  (* 47 *)
  {| lv_T := T; lv_K := K; lv_B := B; lv_dt := dt; lv_S := sa; lv_F := fa; lv_off := off;
     lv_ts := ts;
     lv_Ss := fun k r => u32 (S_ (nth r (ts k) 0%nat) k);                              (* 50 *)
     lv_Ns := fun k => lsumZ (map (fun t => S_ t k) (ts k));                           (* 51 *)
     lv_Fs := fun k r k1 b => F (nth r (ts k) 0%nat) k1 b;                             (* 52 *)
     lv_Z := fun _ _ _ => 0%Z; lv_EZ := fun _ _ _ => 0 |}.

Definition lv_Tk (d : live) (k : nat) : nat := length (lv_ts d k).                     (* 49 *)
Definition live_set_Z (d : live) (z : nat -> nat -> nat -> Z) : live :=
  {| lv_T := lv_T d; lv_K := lv_K d; lv_B := lv_B d; lv_dt := lv_dt d; lv_S := lv_S d; lv_F := lv_F d; lv_off := lv_off d;
     lv_ts := lv_ts d; lv_Ss := lv_Ss d; lv_Ns := lv_Ns d; lv_Fs := lv_Fs d; lv_Z := z; lv_EZ := lv_EZ d |}.
Definition live_set_EZ (d : live) (z : nat -> nat -> nat -> R) : live :=
  {| lv_T := lv_T d; lv_K := lv_K d; lv_B := lv_B d; lv_dt := lv_dt d; lv_S := lv_S d; lv_F := lv_F d; lv_off := lv_off d;
     lv_ts := lv_ts d; lv_Ss := lv_Ss d; lv_Ns := lv_Ns d; lv_Fs := lv_Fs d; lv_Z := lv_Z d; lv_EZ := z |}.

(** parents.py 130-156: reads model parameters, T, dt, Ns, Ss, Fs. *)
Definition lv_row_rate (d : live) (q : params) (k2 r : nat) : R :=
  q_lam q k2 + Rsum (lv_K d) (fun k1 => Rsum (lv_B d) (fun b => q_W q k1 k2 * q_g q k1 k2 b * lv_Fs d k2 r k1 b)).
Definition lv_ll_single (d : live) (q : params) (k2 : nat) : er :=
  let ll := Fin (- q_lam q k2 * INR (lv_T d) * lv_dt d) in
  let ll := eadd ll (Fin (- Rsum (lv_K d) (fun k1 => q_W q k1 k2 * IZR (lv_Ns d k1)))) in
  eadd ll (esum (lv_Tk d k2) (fun r => emul (Fin (IZR (lv_Ss d k2 r))) (elog (Fin (lv_row_rate d q k2 r))))).
(** parents.py 118-128 *)
Definition lv_ll (d : live) (q : params) : er := esum (lv_K d) (fun k => lv_ll_single d q k).

(** parents.py 164-181, 208-217: the statistics handed to the conjugate updates. *)
Definition lv_bkgd_ss (d : live) (k : nat) : Z * R :=
  (Zsum (lv_Tk d k) (fun r => lv_Z d k r 0%nat), INR (lv_T d) * lv_dt d).
Definition lv_weight_ss (d : live) (k1 k2 : nat) : Z * Z :=
  (Zsum (lv_B d) (fun b => Zsum (lv_Tk d k2) (fun r => lv_Z d k2 r (1 + (k1 * lv_B d + b))%nat)), lv_Ns d k1).
Definition lv_ir_ss (d : live) (k1 k2 b : nat) : Z :=
  Zsum (lv_Tk d k2) (fun r => lv_Z d k2 r (1 + (k1 * lv_B d + b))%nat).
(** parents.py 183-203: the exact statistic reads self.F (189). *)
Definition lv_exact_ss1 (h : mem) (d : live) (A : bmat) (g : ten) (k1 k2 : nat) : R :=
  b2R (A k1 k2) * Rsum (lv_T d) (fun t => Rsum (lv_B d) (fun b => live_F h d t k1 b * g k1 k2 b)).

(** parents.py 219-282: the Gibbs parent update reads Ss and Fs. *)
Definition lv_pvec_python (d : live) (q : params) (k2 r : nat) : vec :=
  fun c => match c with
           | O => q_lam q k2
           | S i => let k1 := (i / lv_B d)%nat in let b := (i mod lv_B d)%nat in
                    lv_Fs d k2 r k1 b * q_W q k1 k2 * q_g q k1 k2 b
           end.
Definition lv_pvec_gsl (d : live) (q : params) (k2 r : nat) : vec :=
  fun c => match c with
           | O => q_lam q k2
           | S i => q_W q (i / lv_B d)%nat k2 * q_g q (i / lv_B d)%nat k2 (i mod lv_B d)%nat
                    * lv_Fs d k2 r (i / lv_B d)%nat (i mod lv_B d)%nat
           end.
Definition lv_all_rows (d : live) (f : nat -> nat -> bool) : bool :=
  forall_lt (lv_K d) (fun k => forall_lt (lv_Tk d k) (fun r => f k r)).
Definition lv_resample (use_gsl : bool) (mult : mult_oracle) (d : live) (q : params) : result live :=
  let n := (1 + lv_K d * lv_B d)%nat in
  if use_gsl
  then if negb (lv_all_rows d (fun k r => negb (Reqb (Rsum n (lv_pvec_gsl d q k r)) 0)))
       then Raise ValueError
       else Ok (live_set_Z d (fun k r c => u32 (mult k r (lv_Ss d k r) (normalise n (lv_pvec_gsl d q k r)) c)))
  else if negb (lv_all_rows d (fun k r => Z.ltb 0 (lv_Ss d k r))) then Raise AssertionError
       else if negb (lv_all_rows d (fun k r => negb (Reqb (Rsum n (lv_pvec_python d q k r)) 0)))
       then Raise ValueError
       else Ok (live_set_Z d (fun k r c => u32 (mult k r (lv_Ss d k r) (normalise n (lv_pvec_python d q k r)) c))).

(** parents.py 352-380: the mean-field parent update reads Ss and Fs. *)
Definition lv_pkb (d : live) (e : mf_in) (k2 r i : nat) : R :=
  lv_Fs d k2 r (i / lv_B d)%nat (i mod lv_B d)%nat
  * e_W e (i / lv_B d)%nat k2 * e_g e (i / lv_B d)%nat k2 (i mod lv_B d)%nat.
Definition lv_mf_norm (d : live) (e : mf_in) (k2 r : nat) : R :=
  e_lam e k2 + Rsum (lv_K d * lv_B d) (fun i => lv_pkb d e k2 r i).
Definition lv_mf_update (d : live) (e : mf_in) : result live :=
  if negb (lv_all_rows d (fun k r => negb (Reqb (lv_mf_norm d e k r) 0)))
  then Raise AssertionError
  else Ok (live_set_EZ d (fun k2 r c =>
         match c with
         | O => e_lam e k2 / lv_mf_norm d e k2 r * IZR (lv_Ss d k2 r)
         | S i => lv_pkb d e k2 r i / lv_mf_norm d e k2 r * IZR (lv_Ss d k2 r)
         end)).

(** A network model holding live data sets; [lm_par] carries the parameters (its own data list is not used). *)
Record lmodel := { lm_par : dmodel; lm_data : list live }.

(** models.py 734-753 *)
Definition live_batches (h : mem) (m : dmodel) (T : nat) (sa fa : addr) (mb : option Z) : result (list live) :=
  match mb with
  | None => Ok [mk_live h (dm_K m) (dm_B m) (dm_dt m) T sa fa 0]
  | Some n =>
    if Z.eqb n 0 then Raise ZeroDivisionError
    else if Z.ltb n 0 then Ok []
    else Ok (map (fun off =>
               mk_live h (dm_K m) (dm_B m) (dm_dt m) (Nat.min (off + Z.to_nat n) T - off) sa fa off)
             (offsets T T (Z.to_nat n) 0))
  end.
(** models.py 712-753: S is kept as passed; F is kept as passed, or is a new array. *)
Definition live_add_data (h : mem) (m : lmodel) (s : sref) (f : option fref) (mb : option Z) : result (mem * lmodel) :=
  do T <- check_S (dm_K (lm_par m)) (sval_in h s) ;;
  do F <- get_F (lm_par m) T (sval_in h s) (option_map (fval_in h) f) ;;
  let (h1, fa) := match f with Some fr => (h, User (fr_user fr)) | None => new_reals h F end in
  do ds <- live_batches h1 (lm_par m) T (sr_addr s) fa mb ;;
  Ok (h1, {| lm_par := lm_par m; lm_data := lm_data m ++ ds |}).

(** models.py 993-1009, [log_likelihood] *)
Definition live_ll_at (m : lmodel) (i : Z) : result er :=
  match py_index (length (lm_data m)) i with
  | Some j => match nth_error (lm_data m) j with
              | Some d => Ok (lv_ll d (params_of (lm_par m)))
              | None => Raise IndexError
              end
  | None => Raise IndexError
  end.
Fixpoint live_ll_sum (m : lmodel) (l : list Z) (acc : er) : result er :=
  match l with
  | [] => Ok acc
  | i :: l' => do x <- live_ll_at m i ;; live_ll_sum m l' (eadd acc x)
  end.
Definition live_log_likelihood (m : lmodel) (ix : indices) : result er :=
  match ix with
  | All => live_ll_sum m (map Z.of_nat (seq 0 (length (lm_data m)))) (Fin 0)
  | One i => live_ll_sum m [i] (Fin 0)
  | Many l => live_ll_sum m l (Fin 0)
  end.
(** models.py 900-940, [compute_rate(index)]: T,K,S,F = data.T, data.K, data.S, data.F (922). *)
Definition live_compute_rate (h : mem) (m : lmodel) (index : Z) : result (nat * mat) :=
  if negb (Z.ltb index (Z.of_nat (length (lm_data m)))) then Raise AssertionError
  else match py_index (length (lm_data m)) index with
       | Some i => match nth_error (lm_data m) i with
                   | Some d => Ok (lv_T d, rate_all (lm_par m) (live_F h d))
                   | None => Raise IndexError
                   end
       | None => Raise IndexError
       end.
(** models.py 791-853, [generate]: the array S returned is the one handed to add_data (850-853). *)
Definition live_generate (h : mem) (m : lmodel) (pois : pois_oracle) (keep : bool) (T : nat)
  : result (mem * lmodel * addr * mat) :=
  if negb (dm_L_int (lm_par m)) then Raise TypeError
  else
  let st := gen_loop (lm_par m) pois T in
  if negb (forall_lt T (fun t => forall_lt (dm_K (lm_par m)) (fun k => Z.ltb (gs_S st t k) 1000)))
  then Raise GenericException
  else
  let (h1, a) := new_ints h (gs_S st) in
  if keep
  then do hm <- live_add_data h1 m {| sr_isarray := true; sr_dims := [T; dm_K (lm_par m)]; sr_isint := true; sr_addr := a |}
                  None None ;;
       Ok (fst hm, snd hm, a, gs_R st)
  else Ok (h1, m, a, gs_R st).

(** What a program does with a network model and with the arrays it holds: every count array was passed in or returned,
    so the caller may overwrite any of them; of the filtered arrays it holds only those it made. *)
Inductive event :=
| Write_counts (a : addr) (x : imat)
| Write_filtered (n : nat) (x : ten)
| Add (s : sref) (f : option fref) (mb : option Z)
| Simulate (pois : pois_oracle) (keep : bool) (T : nat)
| Set_params (A : bmat) (W : mat) (g : ten) (lam : vec)
| Resample_parents (i : nat) (use_gsl : bool) (mult : mult_oracle)
| Mf_parents (i : nat) (e : mf_in)
| Ask_ll (ix : indices)
| Ask_stats (i : nat)
| Ask_rate (index : Z)
| Ask_exact (i : nat).

(** What an event lets the caller see. *)
Inductive answer :=
| Nothing
| Done (r : result unit)
| Simulated (r : result (imat * mat))
| Parents (r : result (nat -> nat -> nat -> Z))
| Mf_Parents (r : result (nat -> nat -> nat -> R))
| Value (r : result er)
| Stats (bkgd : nat -> Z * R) (weight : nat -> nat -> Z * Z) (ir : nat -> nat -> nat -> Z)
| Rate (r : result (nat * mat))
| Exact (r : nat -> nat -> R).

Definition par_set (m : dmodel) (A : bmat) (W : mat) (g : ten) (lam : vec) : dmodel :=
  {| dm_K := dm_K m; dm_B := dm_B m; dm_dt := dm_dt m; dm_L := dm_L m; dm_L_int := dm_L_int m; dm_bas := dm_bas m;
     dm_mix := dm_mix m; dm_A := A; dm_W := W; dm_g := g; dm_lam := lam; dm_data := dm_data m |}.
(** data_list[i] replaced *)
Fixpoint replace_nth {A} (l : list A) (i : nat) (x : A) : list A :=
  match l, i with
  | [], _ => []
  | _ :: l', O => x :: l'
  | y :: l', S i' => y :: replace_nth l' i' x
  end.

(** The program.  A call that raises is modelled as leaving the state as it was (C102, C103 treat interrupted updates). *)
Definition live_step (h : mem) (m : lmodel) (e : event) : mem * lmodel * answer :=
  match e with
  | Write_counts a x => (put_ints h a x, m, Nothing)
  | Write_filtered n x => (put_reals h (User n) x, m, Nothing)
  | Add s f mb => match live_add_data h m s f mb with
                  | Ok (h1, m1) => (h1, m1, Done (Ok tt))
                  | Raise x => (h, m, Done (Raise x))
                  end
  | Simulate pois keep T => match live_generate h m pois keep T with
                            | Ok (h1, m1, a, r) => (h1, m1, Simulated (Ok (m_ints h1 a, r)))
                            | Raise x => (h, m, Simulated (Raise x))
                            end
  | Set_params A W g lam => (h, {| lm_par := par_set (lm_par m) A W g lam; lm_data := lm_data m |}, Nothing)
  | Resample_parents i gsl mult =>
      match nth_error (lm_data m) i with
      | Some d => match lv_resample gsl mult d (params_of (lm_par m)) with
                  | Ok d' => (h, {| lm_par := lm_par m; lm_data := replace_nth (lm_data m) i d' |}, Parents (Ok (lv_Z d')))
                  | Raise x => (h, m, Parents (Raise x))
                  end
      | None => (h, m, Nothing)
      end
  | Mf_parents i e =>
      match nth_error (lm_data m) i with
      | Some d => match lv_mf_update d e with
                  | Ok d' => (h, {| lm_par := lm_par m; lm_data := replace_nth (lm_data m) i d' |}, Mf_Parents (Ok (lv_EZ d')))
                  | Raise x => (h, m, Mf_Parents (Raise x))
                  end
      | None => (h, m, Nothing)
      end
  | Ask_ll ix => (h, m, Value (live_log_likelihood m ix))
  | Ask_stats i => (h, m, match nth_error (lm_data m) i with
                          | Some d => Stats (lv_bkgd_ss d) (lv_weight_ss d) (lv_ir_ss d)
                          | None => Nothing
                          end)
  | Ask_rate ix => (h, m, Rate (live_compute_rate h m ix))
  | Ask_exact i => (h, m, match nth_error (lm_data m) i with
                          | Some d => Exact (lv_exact_ss1 h d (dm_A (lm_par m)) (dm_g (lm_par m)))
                          | None => Nothing
                          end)
  end.
Fixpoint live_run (h : mem) (m : lmodel) (es : list event) : list answer :=
  match es with
  | [] => []
  | e :: es' => let '(h1, m1, a) := live_step h m e in a :: live_run h1 m1 es'
  end.

(** The standard model keeps the pair (S, F) as it is (models.py 181-192; S[offset:end,:], F[offset:end,:] are views):
    both are read anew by every method (242, 286, 323, 105). *)
Record slive := { sl_T : nat; sl_S : addr; sl_F : addr; sl_off : nat }.
Record slmodel := { slm_par : smodel; slm_data : list slive }.
Definition sdata_in (h : mem) (d : slive) : sdata :=
  {| sd_T := sl_T d; sd_S := slice2 (sl_off d) (m_ints h (sl_S d)); sd_F := slice2 (sl_off d) (m_flat h (sl_F d)) |}.
(** What a method of the live model computes is what it computes on the present contents of the arrays. *)
Definition smodel_in (h : mem) (m : slmodel) : smodel := sm_with_data (slm_par m) (map (sdata_in h) (slm_data m)).
(** models.py 150-192, [add_data] *)
Definition slive_batches (T : nat) (sa fa : addr) (mb : option Z) : result (list slive) :=
  match mb with
  | None => Ok [{| sl_T := T; sl_S := sa; sl_F := fa; sl_off := 0 |}]
  | Some n =>
    if Z.eqb n 0 then Raise ZeroDivisionError
    else if Z.ltb n 0 then Ok []
    else Ok (map (fun off => {| sl_T := (Nat.min (off + Z.to_nat n) T - off)%nat; sl_S := sa; sl_F := fa; sl_off := off |})
             (offsets T T (Z.to_nat n) 0))
  end.
Definition slive_add_data (h : mem) (m : slmodel) (s : sref) (f : option nat) (mb : option Z) : result (mem * slmodel) :=
  do T <- check_S (sm_K (slm_par m)) (sval_in h s) ;;
  do hf <- match f with
           | Some n => Ok (h, User n)
           | None => do F <- convolve_with_basis T (sm_K (slm_par m)) (sv_at (sval_in h s))
                               (sm_L (slm_par m)) (sm_B (slm_par m)) (sm_bas (slm_par m)) ;;
                     if Nat.eqb (sm_B (slm_par m)) 0 then Raise IndexError
                     else Ok (new_flat h (flatten_F (sm_B (slm_par m)) F))
           end ;;
  do ds <- slive_batches T (sr_addr s) (snd hf) mb ;;
  Ok (fst hf, {| slm_par := slm_par m; slm_data := slm_data m ++ ds |}).
