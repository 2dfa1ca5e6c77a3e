(** * M_Parents: model of DiscreteTimeParents (pyhawkes/internals/parents.py 9-482)
    and of the Cython updates (pyhawkes/internals/parent_updates.pyx). *)
From Verif Require Import Prelude ExtReal Arrays.
Set Implicit Arguments.
Open Scope R_scope.

(** The parameters a parents object reads through [self.model]:
    background rates, effective weights and impulse weights. *)
Record params := {
  q_lam : vec;          (* bias_model.lambda0[k] *)
  q_W   : mat;          (* weight_model.W_effective[k,k'] *)
  q_g   : ten           (* impulse_model.g[k,k',b] *)
}.

(** parents.py 14-80, [DiscreteTimeParents.__init__].  [pa_ts k] are the rows with
    a non-zero count (line 47); [Ss] is cast to uint32 (50), [Ns] is not (51). [Z] and [EZ]
    (83-99) are functions of (process, row, column), column 0 the background and
    column 1 + k*B + b the pair (k, b); they start as zeros. *)
Record parents := {
  pa_T : nat; pa_K : nat; pa_B : nat; pa_dt : R;
  pa_S : imat;
  pa_F : ten;
  pa_Z : nat -> nat -> nat -> Z;
  pa_EZ : nat -> nat -> nat -> R
}.

Definition mk_parents (K B : nat) (dt : R) (T : nat) (S_ : imat) (F : ten) : parents :=
  {| pa_T := T; pa_K := K; pa_B := B; pa_dt := dt; pa_S := S_; pa_F := F;
     pa_Z := fun _ _ _ => 0%Z; pa_EZ := fun _ _ _ => 0 |}.

Definition pa_ts (p : parents) (k : nat) : list nat :=                 (* 47 *)
  filter (fun t => negb (Z.eqb (pa_S p t k) 0)) (seq 0 (pa_T p)).
Definition pa_Tk (p : parents) (k : nat) : nat := length (pa_ts p k).  (* 49 *)
Definition pa_row (p : parents) (k r : nat) : nat := nth r (pa_ts p k) 0%nat.
Definition pa_Ss (p : parents) (k r : nat) : Z := u32 (pa_S p (pa_row p k r) k).  (* 50 *)
Definition pa_Ns (p : parents) (k : nat) : Z :=                        (* 51 *)
  lsumZ (map (fun t => pa_S p t k) (pa_ts p k)).
Definition pa_Fs (p : parents) (k r : nat) : mat :=                    (* 52 *)
  fun k1 b => pa_F p (pa_row p k r) k1 b.

(** parents.py 150-153: the instantaneous rate of process k2 at its r-th
    non-empty bin. *)
Definition row_rate (p : parents) (q : params) (k2 r : nat) : R :=
  q_lam q k2
  + Rsum (pa_K p) (fun k1 => Rsum (pa_B p) (fun b =>
      q_W q k1 k2 * q_g q k1 k2 b * pa_Fs p k2 r k1 b)).

(** parents.py 130-156, [log_likelihood_single_process]. *)
Definition ll_single (p : parents) (q : params) (k2 : nat) : er :=
  let ll := Fin (- q_lam q k2 * INR (pa_T p) * pa_dt p) in              (* 147 *)
  let ll := eadd ll (Fin (- Rsum (pa_K p) (fun k1 => q_W q k1 k2 * IZR (pa_Ns p k1)))) in (* 148 *)
  eadd ll (esum (pa_Tk p k2) (fun r =>                                   (* 155 *)
    emul (Fin (IZR (pa_Ss p k2 r))) (elog (Fin (row_rate p q k2 r))))).

(** parents.py 118-128, [log_likelihood]. *)
Definition pa_ll (p : parents) (q : params) : er :=
  esum (pa_K p) (fun k => ll_single p q k).

(* ---------------- sufficient statistics ---------------- *)

(** parents.py 164-171, [compute_bkgd_ss]. *)
Definition bkgd_ss0 (p : parents) (k : nat) : Z := Zsum (pa_Tk p k) (fun r => pa_Z p k r 0%nat).
Definition bkgd_ss1 (p : parents) (k : nat) : R := INR (pa_T p) * pa_dt p.

(** parents.py 173-181, [compute_approx_weight_ss] (= [compute_weight_ss], 205-206):
    columns 1.. are summed over rows, reshaped to (K,B), summed over B. *)
Definition weight_ss0 (p : parents) (k1 k2 : nat) : Z :=
  Zsum (pa_B p) (fun b => Zsum (pa_Tk p k2) (fun r => pa_Z p k2 r (1 + (k1 * pa_B p + b))%nat)).
Definition weight_ss1 (p : parents) (k1 k2 : nat) : Z := pa_Ns p k1.

(** parents.py 183-203, [compute_exact_weight_ss], second component. *)
Definition exact_weight_ss1 (p : parents) (A : bmat) (g : ten) (k1 k2 : nat) : R :=
  b2R (A k1 k2) * Rsum (pa_T p) (fun t => Rsum (pa_B p) (fun b => pa_F p t k1 b * g k1 k2 b)).

(** parents.py 208-217, [compute_ir_ss]. *)
Definition ir_ss (p : parents) (k1 k2 b : nat) : Z :=
  Zsum (pa_Tk p k2) (fun r => pa_Z p k2 r (1 + (k1 * pa_B p + b))%nat).

(* ---------------- Gibbs update ---------------- *)

(** np.random.multinomial(n, pvals): an oracle receiving the call's position, the
    count and the probability vector. *)
Definition mult_oracle := nat -> nat -> Z -> vec -> nat -> Z.

(** parents.py 232-236: unnormalised vector, python version.  Index 0 is the
    background, index 1 + i with i = k1*B + b is (ft * Wk2[:,None] * Gk2).ravel()[i]. *)
Definition pvec_python (p : parents) (q : params) (k2 r : nat) : vec :=
  fun c => match c with
           | O => q_lam q k2
           | S i => let k1 := (i / pa_B p)%nat in let b := (i mod pa_B p)%nat in
                    pa_Fs p k2 r k1 b * q_W q k1 k2 * q_g q k1 k2 b
           end.
(** parents.py 262-268: GSL version, Wk2 = repeat(W_eff[:,k2], B),
    Gk2 = g[:,k2,:].reshape(K*B), P[:,1:] = Wk2*Gk2*Fk.reshape(Tk, K*B). *)
Definition pvec_gsl (p : parents) (q : params) (k2 r : nat) : vec :=
  fun c => match c with
           | O => q_lam q k2
           | S i => q_W q (i / pa_B p)%nat k2 * q_g q (i / pa_B p)%nat k2 (i mod pa_B p)%nat
                    * pa_Fs p k2 r (i / pa_B p)%nat (i mod pa_B p)%nat
           end.

Definition normalise (n : nat) (v : vec) : vec := fun c => v c / Rsum n v.

(** What each sampler asks the multinomial generator for. *)
Definition request_python (p : parents) (q : params) (k2 r : nat) : Z * vec :=
  (pa_Ss p k2 r, normalise (1 + pa_K p * pa_B p) (pvec_python p q k2 r)).
Definition request_gsl (p : parents) (q : params) (k2 r : nat) : Z * vec :=
  (pa_Ss p k2 r, normalise (1 + pa_K p * pa_B p) (pvec_gsl p q k2 r)).

Definition set_Z (p : parents) (Z_ : nat -> nat -> nat -> Z) : parents :=
  {| pa_T := pa_T p; pa_K := pa_K p; pa_B := pa_B p; pa_dt := pa_dt p;
     pa_S := pa_S p; pa_F := pa_F p; pa_Z := Z_; pa_EZ := pa_EZ p |}.
Definition set_EZ (p : parents) (EZ_ : nat -> nat -> nat -> R) : parents :=
  {| pa_T := pa_T p; pa_K := pa_K p; pa_B := pa_B p; pa_dt := pa_dt p;
     pa_S := pa_S p; pa_F := pa_F p; pa_Z := pa_Z p; pa_EZ := EZ_ |}.

(** All rows of all processes satisfy [f]. *)
Definition all_rows (p : parents) (f : nat -> nat -> bool) : bool :=
  forall_lt (pa_K p) (fun k => forall_lt (pa_Tk p k) (fun r => f k r)).

(** parents.py 219-244, [_resample_Z_python]: asserts st > 0, normalises, draws;
    the draw is stored in a uint32 row.  A zero normaliser gives NaN probabilities,
    for which np.random.multinomial raises. *)
Definition resample_Z_python (mult : mult_oracle) (p : parents) (q : params) : result parents :=
  if negb (all_rows p (fun k r => Z.ltb 0 (pa_Ss p k r))) then Raise AssertionError   (* 228 *)
  else if negb (all_rows p (fun k r =>
            negb (Reqb (Rsum (1 + pa_K p * pa_B p) (pvec_python p q k r)) 0)))
  then Raise ValueError
  else Ok (set_Z p (fun k r c =>
         let '(n, v) := request_python p q k r in u32 (mult k r n v c))).             (* 242 *)

(** parents.py 246-276, [_resample_Z_gsl].  A zero normaliser gives a NaN row, which is handed to the external
    gslrandom library; what that library does with it is not in the repository, and is modelled as a refusal. *)
Definition resample_Z_gsl (mult : mult_oracle) (p : parents) (q : params) : result parents :=
  if negb (all_rows p (fun k r =>
            negb (Reqb (Rsum (1 + pa_K p * pa_B p) (pvec_gsl p q k r)) 0)))
  then Raise ValueError
  else Ok (set_Z p (fun k r c =>
         let '(n, v) := request_gsl p q k r in u32 (mult k r n v c))).

(** parents.py 278-282, [resample]. *)
Definition pa_resample (use_gsl : bool) (mult : mult_oracle) (p : parents) (q : params)
  : result parents :=
  if use_gsl then resample_Z_gsl mult p q else resample_Z_python mult p q.

(* ---------------- mean field ---------------- *)

(** Exponentiated expectations read by the mean-field update:
    exp(E[ln lambda0]), exp(E[ln W]), exp(E[ln g]). *)
Record mf_in := { e_lam : vec; e_W : mat; e_g : ten }.

(** parents.py 352-380, [_mf_update_Z_python].  Line 378 asserts finiteness. *)
Definition pkb (p : parents) (e : mf_in) (k2 r i : nat) : R :=
  pa_Fs p k2 r (i / pa_B p)%nat (i mod pa_B p)%nat
  * e_W e (i / pa_B p)%nat k2 * e_g e (i / pa_B p)%nat k2 (i mod pa_B p)%nat.
Definition mf_norm (p : parents) (e : mf_in) (k2 r : nat) : R :=
  e_lam e k2 + Rsum (pa_K p * pa_B p) (fun i => pkb p e k2 r i).

Definition mf_update_python (p : parents) (e : mf_in) : result parents :=
  if negb (all_rows p (fun k r => negb (Reqb (mf_norm p e k r) 0)))
  then Raise AssertionError
  else Ok (set_EZ p (fun k2 r c =>
         match c with
         | O => e_lam e k2 / mf_norm p e k2 r * IZR (pa_Ss p k2 r)
         | S i => pkb p e k2 r i / mf_norm p e k2 r * IZR (pa_Ss p k2 r)
         end)).

(** parent_updates.pyx 16-60, [mf_update_Z] for process k2 on a row with count [s]:
    rows with count 0 are skipped, otherwise the row is overwritten.  The normaliser
    is accumulated in the order of the source. *)
Definition cy_norm (p : parents) (e : mf_in) (k2 r : nat) : R :=
  0 + e_lam e k2
  + Rsum (pa_K p) (fun k1 => Rsum (pa_B p) (fun b =>
      e_W e k1 k2 * e_g e k1 k2 b * pa_Fs p k2 r k1 b)).
Definition cy_mf_row (p : parents) (e : mf_in) (k2 r : nat) (s : Z) (old : vec) : vec :=
  if Z.eqb s 0 then old
  else fun c =>
    match c with
    | O => e_lam e k2 / cy_norm p e k2 r * IZR s
    | S i => let k1 := (i / pa_B p)%nat in let b := (i mod pa_B p)%nat in
             e_W e k1 k2 * e_g e k1 k2 b * pa_Fs p k2 r k1 b / cy_norm p e k2 r * IZR s
    end.

(** A prange loop over rows: iterations in an arbitrary order [order]. *)
Fixpoint prange_rows (order : list nat) (f : nat -> vec -> vec) (rows : nat -> vec) : nat -> vec :=
  match order with
  | [] => rows
  | r :: rest => prange_rows rest f (upd rows r (f r (rows r)))
  end.

(** The compiled update applied to process k2 with the counts as an integer array
    of C type long. *)
Definition cy_mf_update (order : list nat) (p : parents) (e : mf_in) (k2 : nat) : nat -> vec :=
  prange_rows order (fun r old => cy_mf_row p e k2 r (pa_Ss p k2 r) old) (pa_EZ p k2).

(** parents.py 382-402, [_mf_update_Z]: calls the compiled update with [self.Ss]
    whose dtype is uint32, while parent_updates.pyx 18 declares [long[::1] Sk]:
    the buffer check raises ValueError at the first process. *)
Inductive dtype := U32 | I64.
Definition pa_Ss_dtype : dtype := U32.                                   (* 50 *)
Definition cy_Sk_dtype : dtype := I64.                                   (* pyx 18 *)
Definition mf_update_compiled (order : nat -> list nat) (p : parents) (e : mf_in) : result parents :=
  match pa_Ss_dtype, cy_Sk_dtype with
  | U32, U32 | I64, I64 => Ok (set_EZ p (fun k2 => cy_mf_update (order k2) p e k2))
  | _, _ => if Nat.eqb (pa_K p) 0 then Ok p else Raise ValueError
  end.

(** parents.py 319-349: expected sufficient statistics. *)
Definition exp_bkgd_ss0 (p : parents) (k : nat) : R := Rsum (pa_Tk p k) (fun r => pa_EZ p k r 0%nat).
Definition exp_weight_ss0 (p : parents) (k1 k2 : nat) : R :=
  Rsum (pa_B p) (fun b => Rsum (pa_Tk p k2) (fun r => pa_EZ p k2 r (1 + (k1 * pa_B p + b))%nat)).
Definition exp_ir_ss (p : parents) (k1 k2 b : nat) : R :=
  Rsum (pa_Tk p k2) (fun r => pa_EZ p k2 r (1 + (k1 * pa_B p + b))%nat).

(** Expectations read by the variational bound. *)
Record mf_exp := { x_ln_lam : vec; x_lam : vec; x_ln_W : mat; x_W : mat; x_ln_g : ten }.

(** parents.py 427-480, [get_vlb_python], restricted to process k (the loops over
    k just add up).  Counts on the rows are positive so EZ/Sk is a real division;
    [np.log] and [np.nan_to_num] are the extended-real ones. *)
Definition ntn_log (x : R) : R := nan_to_num (elog (Fin x)).
Definition vlb_python_k (p : parents) (x : mf_exp) (k : nat) : R :=
  Rsum (pa_Tk p k) (fun r => pa_EZ p k r 0%nat * x_ln_lam x k)                      (* 447 *)
  + - INR (pa_T p) * x_lam x k                                                      (* 448 *)
  + Rsum (pa_Tk p k) (fun r =>                                                      (* 454-457 *)
      - pa_EZ p k r 0%nat * ntn_log (pa_EZ p k r 0%nat / IZR (pa_Ss p k r)))
  + Rsum (pa_Tk p k) (fun r => Rsum (pa_K p * pa_B p) (fun i =>                     (* 464-469 *)
      let k1 := (i / pa_B p)%nat in let b := (i mod pa_B p)%nat in
      pa_EZ p k r (S i) *
      nan_to_num (eadd (eadd (elog (Fin (pa_Fs p k r k1 b))) (Fin (x_ln_W x k1 k)))
                       (Fin (x_ln_g x k1 k b)))))
  + - Rsum (pa_K p) (fun k1 => IZR (pa_Ns p k1) * x_W x k1 k)                       (* 472-473 *)
  + Rsum (pa_Tk p k) (fun r => Rsum (pa_K p * pa_B p) (fun i =>                     (* 477-479 *)
      - pa_EZ p k r (S i) * ntn_log (pa_EZ p k r (S i) / IZR (pa_Ss p k r)))).
Definition vlb_python (p : parents) (x : mf_exp) : R :=
  Rsum (pa_K p) (fun k => vlb_python_k p x k).

(** parent_updates.pyx 64-119, [mf_vlb] for process k2 (serial sum of the per-row
    terms; prange writes disjoint cells). *)
Definition cy_vlb_k (p : parents) (x : mf_exp) (k2 : nat) : R :=
  - INR (pa_T p) * x_lam x k2
  + Rsum (pa_K p) (fun k1 => - IZR (pa_Ns p k1) * x_W x k1 k2)
  + Rsum (pa_Tk p k2) (fun r =>
      pa_EZ p k2 r 0%nat * x_ln_lam x k2
      + - pa_EZ p k2 r 0%nat * ln (pa_EZ p k2 r 0%nat / IZR (pa_Ss p k2 r) + / 10 ^ 32)
      + Rsum (pa_K p) (fun k1 => Rsum (pa_B p) (fun b =>
          let c := (1 + (k1 * pa_B p + b))%nat in
          pa_EZ p k2 r c * (ln (pa_Fs p k2 r k1 b + / 10 ^ 32) + x_ln_W x k1 k2 + x_ln_g x k1 k2 b)
          + - pa_EZ p k2 r c * ln (pa_EZ p k2 r c / IZR (pa_Ss p k2 r) + / 10 ^ 32)))).
Definition cy_vlb (p : parents) (x : mf_exp) : R := Rsum (pa_K p) (fun k => cy_vlb_k p x k).

(** parents.py 285-316, [expected_log_likelihood]: the marginal log likelihood
    evaluated at expected parameters (factors multiplied in another order). *)
Definition exp_ll (p : parents) (exp_lam : vec) (exp_W : mat) (exp_g : ten) : er :=
  pa_ll p {| q_lam := exp_lam; q_W := exp_W; q_g := exp_g |}.
