(** * M_Network: pyhawkes/internals/network.py.

    Random draws are oracles applied to the parameters passed to NumPy.  [lgam], [psi]
    stand for scipy's gammaln, psi.  Arrays handed over by the caller are taken as float64
    (int64 for labels). *)
From Verif Require Import Prelude ExtReal Arrays M_Dist M_Gibbs.
Set Implicit Arguments.
Open Scope R_scope.

(* ------------------------------------------------------------------ *)
(** ** Constructor arguments *)

(** A number or a 2-d array. *)
Inductive parg := PScalar (x : R) | PArray (rows cols : nat) (M : mat).
Inductive piarg := PiScalar (x : R) | PiArray (len : nat) (v : vec).
Record sbm_args := {
  ar_K : nat; ar_C : nat;
  ar_c : option (nat * (nat -> Z));        (* length, labels *)
  ar_m : option (nat * vec);
  ar_pi : piarg;
  ar_p : option parg; ar_tau0 : R; ar_tau1 : R;
  ar_v : option parg; ar_alpha : R; ar_beta : R;
  ar_kappa : R; ar_allow : bool }.

(** The state of a [StochasticBlockModel] that Gibbs sampling uses. *)
Record sbm := {
  sb_K : nat; sb_C : nat; sb_pi : vec; sb_tau0 : R; sb_tau1 : R; sb_kappa : R;
  sb_alpha : R; sb_beta : R; sb_allow : bool;
  sb_m : vec; sb_c : nat -> nat; sb_p : mat; sb_v : mat; sb_fixed : bool }.
Definition sb_set (s : sbm) (m : vec) (c : nat -> nat) (p v : mat) : sbm :=
  {| sb_K := sb_K s; sb_C := sb_C s; sb_pi := sb_pi s; sb_tau0 := sb_tau0 s; sb_tau1 := sb_tau1 s;
     sb_kappa := sb_kappa s; sb_alpha := sb_alpha s; sb_beta := sb_beta s; sb_allow := sb_allow s;
     sb_m := m; sb_c := c; sb_p := p; sb_v := v; sb_fixed := sb_fixed s |}.

(** Draws made while constructing: a first set in the base class, a second in GibbsSBM. *)
Record init_draws := {
  dr_m : vec -> vec;                       (* np.random.dirichlet *)
  dr_c : vec -> nat -> nat;                (* np.random.choice with p = m *)
  dr_p : R -> R -> mat;                    (* np.random.beta(tau1, tau0) *)
  dr_v : R -> R -> mat;                    (* np.random.gamma(shape, scale) *)
  dr_c2 : nat -> nat; dr_p2 : R -> R -> mat; dr_v2 : R -> R -> mat }.

(** network.py 106-115, 119-128: the assertions on p (upper bound 1) and on v (none). *)
Definition table_of (C : nat) (hi : option R) (a : parg) : result mat :=
  let below x := match hi with None => true | Some h => Rleb x h end in
  match a with
  | PScalar x => do _ <- guard (Rleb 0 x && below x) AssertionError ;; Ok (fun _ _ => x * 1)
  | PArray r c M =>
      do _ <- guard ((r =? C)%nat && (c =? C)%nat
                     && forall_lt C (fun i => forall_lt C (fun j => Rleb 0 (M i j)))
                     && forall_lt C (fun i => forall_lt C (fun j => below (M i j)))) AssertionError ;;
      Ok M
  end.

(** [x == None] followed by its truth value, for one member of the tuple: None is found by
    identity; a number is not None; an array compares elementwise (NumPy >= 1.13) and the truth value of an
    array with more than one element raises ValueError. *)
Inductive member := MNone | MNumber | MArr (size : nat).
Fixpoint none_in (l : list member) : result bool :=
  match l with
  | [] => Ok false
  | MNone :: _ => Ok true
  | MNumber :: l' => none_in l'
  | MArr n :: l' => if (n <=? 1)%nat then none_in l' else Raise ValueError
  end.
Definition member_of (a : option parg) : member :=
  match a with None => MNone | Some (PScalar _) => MNumber | Some (PArray r c _) => MArr (r * c) end.

(** network.py 61-137, [_StochasticBlockModelBase.__init__]. *)
Definition sbm_base_init (a : sbm_args) (d : init_draws) : result sbm :=
  let C := ar_C a in let K := ar_K a in
  do _ <- guard (1 <=? C)%nat AssertionError ;;                                   (* 70-74 *)
  do pi <- match ar_pi a with
           | PiScalar x => Ok (fun _ => x * 1)                                    (* 76-77 *)
           | PiArray n v => do _ <- guard (n =? C)%nat AssertionError ;; Ok v     (* 79-80 *)
           end ;;
  do m <- match ar_m a with                                                       (* 89-95 *)
          | Some (n, m) =>
              do _ <- guard ((n =? C)%nat && close1 (Rsum C m) && forall_lt C (fun i => Rleb 0 (m i))) AssertionError ;;
              Ok m
          | None => Ok (dr_m d pi)
          end ;;
  do c <- match ar_c a with                                                       (* 98-104 *)
          | Some (n, c) =>
              do _ <- guard (n =? K)%nat AssertionError ;;
              do _ <- guard (1 <=? n)%nat ValueError ;;                           (* amin of an empty array *)
              do _ <- guard (forall_lt n (fun i => Z.leb 0 (c i) && Z.leb (c i) (Z.of_nat C - 1))) AssertionError ;;
              Ok (fun k => Z.to_nat (c k))
          | None => Ok (dr_c d m)
          end ;;
  do p <- match ar_p a with                                                       (* 106-117 *)
          | Some x => table_of C (Some 1) x
          | None => Ok (dr_p d (ar_tau1 a) (ar_tau0 a))
          end ;;
  do v <- match ar_v a with                                                       (* 119-130 *)
          | Some x => table_of C None x
          | None => Ok (dr_v d (ar_alpha a) (1 / ar_beta a))
          end ;;
  do f <- none_in [match ar_c a with None => MNone | Some (n, _) => MArr n end;
                   member_of (ar_p a); member_of (ar_v a)] ;;                     (* 134 *)
  Ok {| sb_K := K; sb_C := C; sb_pi := pi; sb_tau0 := ar_tau0 a; sb_tau1 := ar_tau1 a;
        sb_kappa := ar_kappa a; sb_alpha := ar_alpha a; sb_beta := ar_beta a; sb_allow := ar_allow a;
        sb_m := m; sb_c := c; sb_p := p; sb_v := v; sb_fixed := negb f |}.

(** network.py 190-211, [GibbsSBM.__init__] (MeanFieldSBM.__init__ in between sets the
    variational parameters, see [mf_init]). *)
Definition sbm_init (a : sbm_args) (d : init_draws) : result sbm :=
  do s <- sbm_base_init a d ;;
  if sb_fixed s then Ok s
  else Ok (sb_set s (fun _ => 1 / INR (ar_C a) * 1) (dr_c2 d)
             (dr_p2 d (sb_tau1 s) (sb_tau0 s)) (dr_v2 d (sb_alpha s) (1 / sb_beta s))).

(** network.py 743-768, [StochasticBlockModelFixedSparsity.__init__]; tau0 and tau1 keep
    their defaults. *)
Definition fsbm_init (a : sbm_args) (d : init_draws) : result sbm :=
  match ar_p a with
  | None => Raise AssertionError
  | Some x =>
      do s <- sbm_init a d ;;
      do p <- table_of (ar_C a) (Some 1) x ;;
      Ok (sb_set s (sb_m s) (sb_c s) p (sb_v s))
  end.

(** network.py 880-889, [ErdosRenyiModel.__init__]: one block, explicit all-zero labels. *)
Definition erdos_renyi_args (K : nat) (p : option parg) (tau0 tau1 : R) (v : option parg)
    (alpha beta kappa : R) : sbm_args :=
  {| ar_K := K; ar_C := 1; ar_c := Some (K, fun _ => 0%Z); ar_m := None; ar_pi := PiScalar 1;
     ar_p := p; ar_tau0 := tau0; ar_tau1 := tau1; ar_v := v; ar_alpha := alpha; ar_beta := beta;
     ar_kappa := kappa; ar_allow := true |}.
Definition erdos_renyi_init K p tau0 tau1 v alpha beta kappa d : result sbm :=
  sbm_init (erdos_renyi_args K p tau0 tau1 v alpha beta kappa) d.

(* ------------------------------------------------------------------ *)
(** ** Reading P, V, Kappa *)

(** np.ix_(rows, cols) indexing: a new array. *)
Definition ix {A} (T : nat -> nat -> A) (r c : nat -> nat) : nat -> nat -> A := fun i j => T (r i) (c j).
Definition fill_diagonal (M : mat) (x : R) : mat := fun i j => if (i =? j)%nat then x else M i j.
(** network.py 139-148. *)
Definition sbm_P (s : sbm) : mat :=
  let P := ix (sb_p s) (sb_c s) (sb_c s) in
  if negb (sb_allow s) then fill_diagonal P 0 else P.
(** network.py 150-156. *)
Definition sbm_V (s : sbm) : mat := ix (sb_v s) (sb_c s) (sb_c s).
(** network.py 158-160. *)
Definition sbm_Kappa (s : sbm) : mat := fun _ _ => sb_kappa s * 1.
Definition net_of_sbm (s : sbm) : net := {| n_P := sbm_P s; n_V := sbm_V s; n_kappa := sb_kappa s |}.

(* ------------------------------------------------------------------ *)
(** ** Gibbs updates *)

(** Sum of M over A[np.ix_(c==c1, c==c2)]. *)
Definition block_sum (K : nat) (c : nat -> nat) (c1 c2 : nat) (M : mat) : R :=
  Rsum K (fun i => Rsum K (fun j => if ((c i =? c1) && (c j =? c2))%nat then M i j else 0)).
(** network.py 213-227, [resample_p]: parameters of np.random.beta for one block pair. *)
Definition p_request (s : sbm) (A : bmat) (c1 c2 : nat) : R * R :=
  (sb_tau1 s + block_sum (sb_K s) (sb_c s) c1 c2 (fun i j => b2R (A i j)),
   sb_tau0 s + block_sum (sb_K s) (sb_c s) c1 c2 (fun i j => 1 - b2R (A i j))).
(** network.py 229-240, [resample_v]: (shape, scale). *)
Definition v_request (s : sbm) (A : bmat) (W : mat) (c1 c2 : nat) : R * R :=
  (sb_alpha s + block_sum (sb_K s) (sb_c s) c1 c2 (fun i j => b2R (A i j)) * sb_kappa s,
   1 / (sb_beta s + block_sum (sb_K s) (sb_c s) c1 c2 (fun i j => if A i j then W i j else 0))).
(** network.py 250-279: log probability vector of the label of node k, other labels [c]. *)
Definition c_request (lgam : R -> R) (s : sbm) (A : bmat) (W : mat) (c : nat -> nat) (k ck : nat) : er :=
  let ct := upd c k ck in                                                         (* 260-261 *)
  let K := sb_K s in
  eadd (elog (Fin (sb_m s ck)))                                                   (* 256 *)
   (Fin (Rsum K (fun j => bernoulli_lp (sb_p s ck (ct j)) (b2R (A k j)))          (* 264-265 *)
       + Rsum K (fun j => bernoulli_lp (sb_p s (ct j) ck) (b2R (A j k)))          (* 268-269 *)
       + Rsum K (fun j => b2R (A k j) * gamma_lp lgam (sb_kappa s) (sb_v s ck (ct j)) (W k j))   (* 272-273 *)
       + Rsum K (fun j => b2R (A j k) * gamma_lp lgam (sb_kappa s) (sb_v s (ct j) ck) (W j k)))).
(** network.py 242-284, [resample_c]; [pick k lp] is sample_discrete_from_log. *)
Definition resample_c (lgam : R -> R) (pick : nat -> (nat -> er) -> nat) (s : sbm) (A : bmat) (W : mat)
  : nat -> nat :=
  if (sb_C s =? 1)%nat then sb_c s
  else fold_left (fun c k => upd c k (pick k (c_request lgam s A W c k))) (seq 0 (sb_K s)) (sb_c s).
(** network.py 286-291, [resample_m]: the Dirichlet parameter. *)
Definition m_request (s : sbm) : vec :=
  fun b => sb_pi s b + Rsum (sb_K s) (fun k => if (sb_c s k =? b)%nat then 1 else 0).

Record gibbs_draws := {
  gd_beta : nat -> nat -> R -> R -> R; gd_gamma : nat -> nat -> R -> R -> R;
  gd_pick : nat -> (nat -> er) -> nat; gd_dir : vec -> vec }.
(** network.py 293-301 (plain) and 784-791 (fixed sparsity: no resample_p). *)
Definition sbm_resample (lgam : R -> R) (fixed_p : bool) (d : gibbs_draws) (A : bmat) (W : mat) (s : sbm) : sbm :=
  if sb_fixed s then s
  else
    let s := if fixed_p then s
             else sb_set s (sb_m s) (sb_c s)
                    (fun c1 c2 => let '(a, b) := p_request s A c1 c2 in gd_beta d c1 c2 a b) (sb_v s) in
    let s := sb_set s (sb_m s) (sb_c s) (sb_p s)
               (fun c1 c2 => let '(a, b) := v_request s A W c1 c2 in gd_gamma d c1 c2 a b) in
    let s := sb_set s (sb_m s) (resample_c lgam (gd_pick d) s A W) (sb_p s) (sb_v s) in
    sb_set s (gd_dir d (m_request s)) (sb_c s) (sb_p s) (sb_v s).

(* ------------------------------------------------------------------ *)
(** ** Mean field *)

Record mfsbm := { mf_pi : vec; mf_m : mat; mf_tau0 : mat; mf_tau1 : mat; mf_alpha : mat; mf_beta : mat }.
(** network.py 307-330, [MeanFieldSBM.__init__]; [d] is the Dirichlet(10,...,10) sample. *)
Definition mf_init (s : sbm) (d : mat) : mfsbm :=
  {| mf_pi := fun _ => 1; mf_m := d; mf_tau0 := fun _ _ => sb_tau0 s * 1; mf_tau1 := fun _ _ => sb_tau1 s * 1;
     mf_alpha := fun _ _ => sb_alpha s * 1; mf_beta := fun _ _ => sb_beta s * 1 |}.

(** Expectation over block pairs, the loops of 340-347, 369-377 etc. *)
Definition block_mean (C : nat) (m : mat) (T : mat) : mat :=
  fun i j => Rsum C (fun c1 => Rsum C (fun c2 => m i c1 * m j c2 * T c1 c2)).
(** network.py 332-352, [expected_p]. *)
Definition sbm_expected_p (s : sbm) (f : mfsbm) : mat :=
  if sb_fixed s then sbm_P s
  else
    let E := block_mean (sb_C s) (mf_m f) (fun c1 c2 => mf_tau1 f c1 c2 / (mf_tau0 f c1 c2 + mf_tau1 f c1 c2)) in
    if negb (sb_allow s) then fill_diagonal E 0 else E.
Definition efill_diagonal (M : nat -> nat -> er) (x : er) : nat -> nat -> er :=
  fun i j => if (i =? j)%nat then x else M i j.
(** network.py 361-382, [expected_log_p], and 384-405, [expected_log_notp]. *)
Definition sbm_expected_log_p (psi : R -> R) (s : sbm) (f : mfsbm) : nat -> nat -> er :=
  let E := if sb_fixed s then (fun i j => elog (Fin (sbm_P s i j)))
           else (fun i j => Fin (block_mean (sb_C s) (mf_m f)
              (fun c1 c2 => psi (mf_tau1 f c1 c2) - psi (mf_tau0 f c1 c2 + mf_tau1 f c1 c2)) i j)) in
  if negb (sb_allow s) then efill_diagonal E NInf else E.
Definition sbm_expected_log_notp (psi : R -> R) (s : sbm) (f : mfsbm) : nat -> nat -> er :=
  let E := if sb_fixed s then (fun i j => elog (Fin (1 - sbm_P s i j)))
           else (fun i j => Fin (block_mean (sb_C s) (mf_m f)
              (fun c1 c2 => psi (mf_tau0 f c1 c2) - psi (mf_tau0 f c1 c2 + mf_tau1 f c1 c2)) i j)) in
  if negb (sb_allow s) then efill_diagonal E (Fin 0) else E.
(** network.py 407-423, 425-442. *)
Definition sbm_expected_v (s : sbm) (f : mfsbm) : mat :=
  if sb_fixed s then sbm_V s
  else block_mean (sb_C s) (mf_m f) (fun c1 c2 => mf_alpha f c1 c2 / mf_beta f c1 c2).
Definition sbm_expected_log_v (psi : R -> R) (s : sbm) (f : mfsbm) : mat :=
  if sb_fixed s then fun i j => ln (sbm_V s i j)
  else block_mean (sb_C s) (mf_m f) (fun c1 c2 => psi (mf_alpha f c1 c2) - ln (mf_beta f c1 c2)).

(** network.py 444-453, [expected_m], [expected_log_m]. *)
Definition sbm_expected_m (s : sbm) (f : mfsbm) : vec := fun c => mf_pi f c / Rsum (sb_C s) (mf_pi f).
Definition sbm_expected_log_m (psi : R -> R) (s : sbm) (f : mfsbm) : vec := fun c => psi (mf_pi f c) - psi (Rsum (sb_C s) (mf_pi f)).

(** network.py 796-822: fixed sparsity; note the diagonal of [expected_log_notp]. *)
Definition fsbm_expected_p (s : sbm) : mat := sbm_P s.
Definition fsbm_expected_log_p (s : sbm) : nat -> nat -> er :=
  let E := fun i j => elog (Fin (sbm_P s i j)) in
  if negb (sb_allow s) then efill_diagonal E NInf else E.
Definition fsbm_expected_log_notp (s : sbm) : nat -> nat -> er :=
  let E := fun i j => elog (Fin (1 - sbm_P s i j)) in
  if negb (sb_allow s) then efill_diagonal E PInf else E.

(** What the network update reads from the weight model: expected_A,
    expected_W_given_A(1.0), expected_log_W_given_A(1.0). *)
Record wstats := { ws_A : mat; ws_W : mat; ws_lnW : mat }.

(** (1.0 - stepsize) * old + stepsize * new *)
Definition mix_step (step old new : R) : R := (1 - step) * old + step * new.

(** network.py 566-587, [mf_update_p] (both branches of the if are the same). *)
Definition tau1_hat (s : sbm) (f : mfsbm) (w : wstats) (c1 c2 : nat) : R :=
  sb_tau1 s + Rsum (sb_K s) (fun i => Rsum (sb_K s) (fun j => mf_m f i c1 * mf_m f j c2 * ws_A w i j)).
Definition tau0_hat (s : sbm) (f : mfsbm) (w : wstats) (c1 c2 : nat) : R :=
  sb_tau0 s + Rsum (sb_K s) (fun i => Rsum (sb_K s) (fun j => mf_m f i c1 * mf_m f j c2 * (1 - ws_A w i j))).
Definition mf_update_p (s : sbm) (f : mfsbm) (w : wstats) (step : R) : mfsbm :=
  {| mf_pi := mf_pi f; mf_m := mf_m f;
     mf_tau0 := fun c1 c2 => mix_step step (mf_tau0 f c1 c2) (tau0_hat s f w c1 c2);
     mf_tau1 := fun c1 c2 => mix_step step (mf_tau1 f c1 c2) (tau1_hat s f w c1 c2);
     mf_alpha := mf_alpha f; mf_beta := mf_beta f |}.
(** network.py 589-604, [mf_update_v]. *)
Definition alpha_hat (s : sbm) (f : mfsbm) (w : wstats) (c1 c2 : nat) : R :=
  sb_alpha s + Rsum (sb_K s) (fun i => Rsum (sb_K s) (fun j => mf_m f i c1 * mf_m f j c2 * ws_A w i j * sb_kappa s)).
Definition beta_hat (s : sbm) (f : mfsbm) (w : wstats) (c1 c2 : nat) : R :=
  sb_beta s + Rsum (sb_K s) (fun i => Rsum (sb_K s) (fun j => mf_m f i c1 * mf_m f j c2 * ws_A w i j * ws_W w i j)).
Definition mf_update_v (s : sbm) (f : mfsbm) (w : wstats) (step : R) : mfsbm :=
  {| mf_pi := mf_pi f; mf_m := mf_m f; mf_tau0 := mf_tau0 f; mf_tau1 := mf_tau1 f;
     mf_alpha := fun c1 c2 => mix_step step (mf_alpha f c1 c2) (alpha_hat s f w c1 c2);
     mf_beta := fun c1 c2 => mix_step step (mf_beta f c1 c2) (beta_hat s f w c1 c2) |}.
(** network.py 606-612, [mf_update_m]. *)
Definition mf_update_m (s : sbm) (f : mfsbm) (step : R) : mfsbm :=
  {| mf_pi := fun c => mix_step step (mf_pi f c) (sb_pi s c + Rsum (sb_K s) (fun k => mf_m f k c));
     mf_m := mf_m f; mf_tau0 := mf_tau0 f; mf_tau1 := mf_tau1 f; mf_alpha := mf_alpha f; mf_beta := mf_beta f |}.

(** scipy.special.logsumexp of a finite vector. *)
Definition vmax (n : nat) (f : vec) : R := fold_left (fun m i => Rmax m (f i)) (seq 0 n) (f 0%nat).
Definition logsumexp (n : nat) (f : vec) : R :=
  let m := vmax n f in ln (Rsum n (fun i => exp (f i - m))) + m.

(** Sum over notk (network.py 466). *)
Definition Rsum_not (K k : nat) (f : vec) : R := Rsum K (fun j => if (j =? k)%nat then 0 else f j).
(** network.py 458-556: unnormalised log probability of block ck for node k. *)
Definition mf_c_lp (lgam psi : R -> R) (s : sbm) (f : mfsbm) (w : wstats) (k ck : nat) : R :=
  let C := sb_C s in let K := sb_K s in
  let lnp a b := psi (mf_tau1 f a b) - psi (mf_tau0 f a b + mf_tau1 f a b) in
  let lnnotp a b := psi (mf_tau0 f a b) - psi (mf_tau0 f a b + mf_tau1 f a b) in
  let ev a b := mf_alpha f a b / mf_beta f a b in
  let elnv a b := psi (mf_alpha f a b) - ln (mf_beta f a b) in
  (* expectations over the label of node j *)
  let from T := fun j => Rsum C (fun cn => mf_m f j cn * T ck cn) in
  let into T := fun j => Rsum C (fun cn => mf_m f j cn * T cn ck) in
  let bern i j lp lnp := ws_A w i j * lp + (1 - ws_A w i j) * lnp in
  let gam i j v lv := gamma_negentropy_with lgam (sb_kappa s) (ws_lnW w i j) (ws_W w i j) v lv in
  (psi (mf_pi f ck) - psi (Rsum C (mf_pi f)))                                      (* 472 *)
  + Rsum_not K k (fun j => bern k j (from lnp j) (from lnnotp j))                 (* 515-518 *)
  + Rsum_not K k (fun j => bern j k (into lnp j) (into lnnotp j))                 (* 520-523 *)
  + Rsum_not K k (fun j => ws_A w k j * gam k j (from ev j) (from elnv j))        (* 526-530 *)
  + Rsum_not K k (fun j => ws_A w j k * gam j k (into ev j) (into elnv j))        (* 532-536 *)
  + (if sb_allow s then                                                            (* 539-555 *)
       bern k k (lnp ck ck) (lnnotp ck ck) + ws_A w k k * gam k k (ev ck ck) (elnv ck ck)
     else 0).
(** network.py 458-563, [mf_update_c]: rows are updated one after the other. *)
Definition set_row (m : mat) (k : nat) (r : vec) : mat := fun i c => if (i =? k)%nat then r c else m i c.
Definition with_m (f : mfsbm) (m : mat) : mfsbm :=
  {| mf_pi := mf_pi f; mf_m := m; mf_tau0 := mf_tau0 f; mf_tau1 := mf_tau1 f; mf_alpha := mf_alpha f; mf_beta := mf_beta f |}.
Definition mf_c_row (lgam psi : R -> R) (s : sbm) (w : wstats) (step : R) (f : mfsbm) (k : nat) : mfsbm :=
  let lp := mf_c_lp lgam psi s f w k in
  let Z := logsumexp (sb_C s) lp in                                                (* 560 *)
  with_m f (set_row (mf_m f) k (fun c => mix_step step (mf_m f k c) (exp (lp c - Z)))).   (* 561-563 *)
Definition mf_update_c (lgam psi : R -> R) (s : sbm) (f : mfsbm) (w : wstats) (step : R) : mfsbm :=
  fold_left (fun f' k => mf_c_row lgam psi s w step f' k) (seq 0 (sb_K s)) f.

Record flags := { up_p : bool; up_v : bool; up_m : bool; up_c : bool }.
Definition when {A} (b : bool) (g : A -> A) (x : A) : A := if b then g x else x.
(** network.py 614-640, [meanfieldupdate]: line 626 tests update_c, not update_p. *)
Definition sbm_mf_batch (lgam psi : R -> R) (s : sbm) (fl : flags) (w : wstats) (f : mfsbm) : mfsbm :=
  let f := when (up_c fl) (fun f => mf_update_p s f w 1) f in
  let f := when (up_v fl) (fun f => mf_update_v s f w 1) f in
  let f := when (up_m fl) (fun f => mf_update_m s f 1) f in
  when (up_c fl) (fun f => mf_update_c lgam psi s f w 1) f.
(** network.py 642-669, [meanfield_sgdstep] (minibatchfrac is not used). *)
Definition sbm_mf_sgd (lgam psi : R -> R) (s : sbm) (fl : flags) (step : R) (w : wstats) (f : mfsbm) : mfsbm :=
  let f := when (up_p fl) (fun f => mf_update_p s f w step) f in
  let f := when (up_v fl) (fun f => mf_update_v s f w step) f in
  let f := when (up_m fl) (fun f => mf_update_m s f step) f in
  when (up_c fl) (fun f => mf_update_c lgam psi s f w step) f.

(** network.py 824-848: fixed sparsity refuses update_p and forwards update_p=False. *)
Definition no_p (fl : flags) : flags := {| up_p := false; up_v := up_v fl; up_m := up_m fl; up_c := up_c fl |}.
Definition fsbm_mf_batch lgam psi s fl w f : result mfsbm :=
  do _ <- guard (negb (up_p fl)) AssertionError ;; Ok (sbm_mf_batch lgam psi s (no_p fl) w f).
Definition fsbm_mf_sgd lgam psi s fl step w f : result mfsbm :=
  do _ <- guard (negb (up_p fl)) AssertionError ;; Ok (sbm_mf_sgd lgam psi s (no_p fl) step w f).

(** network.py 671-717, [get_vlb]. *)
Definition sbm_vlb (lgam psi : R -> R) (s : sbm) (f : mfsbm) (vlb_c vlb_p vlb_v vlb_m : bool) : R :=
  let C := sb_C s in
  let E_ln_m c := psi (mf_pi f c) - psi (Rsum C (mf_pi f)) in
  let flat (M : mat) : vec := fun r => M (r / C)%nat (r mod C)%nat in
  (if vlb_c then Rsum (sb_K s) (fun k =>
     discrete_negentropy C (mf_m f k) (Some (mf_m f k)) (Some (fun c => Fin (E_ln_m c)))
     - discrete_negentropy C (mf_m f k) None None) else 0)
  + (if vlb_p then
       beta_negentropy_with lgam 1 (C * C) (fun _ => sb_tau1 s) (fun _ => sb_tau0 s)
         (flat (fun a b => psi (mf_tau1 f a b) - psi (mf_tau0 f a b + mf_tau1 f a b)))
         (flat (fun a b => psi (mf_tau0 f a b) - psi (mf_tau0 f a b + mf_tau1 f a b)))
       - beta_negentropy lgam psi (C * C) (flat (mf_tau1 f)) (flat (mf_tau0 f)) else 0)
  + (if vlb_v then Rsum C (fun a => Rsum C (fun b =>
       gamma_negentropy_with lgam (sb_alpha s) (psi (mf_alpha f a b) - ln (mf_beta f a b))
         (mf_alpha f a b / mf_beta f a b) (sb_beta s) (ln (sb_beta s))
       - gamma_negentropy lgam psi (mf_alpha f a b) (mf_beta f a b))) else 0)
  + (if vlb_m then
       dirichlet_negentropy_with lgam 1 1 C (fun _ => sb_pi s) (fun _ => E_ln_m)
       - dirichlet_negentropy lgam psi 1 C (fun _ => mf_pi f) else 0).
(** network.py 850-860: the fixed-sparsity override drops the value. *)
Inductive pyval := PyNone | PyFloat (x : R).
Definition fsbm_vlb (lgam psi : R -> R) (s : sbm) (f : mfsbm) (vlb_c vlb_p vlb_v vlb_m : bool) : result pyval :=
  do _ <- guard (negb vlb_p) AssertionError ;;
  let _ := sbm_vlb lgam psi s f vlb_c false vlb_v vlb_m in Ok PyNone.

(** network.py 719-730 and 862-872, [resample_from_mf]. *)
Record mf_draws := { md_dir : vec -> vec; md_beta : nat -> nat -> R -> R -> R;
                     md_gamma : nat -> nat -> R -> R -> R; md_choice : nat -> vec -> nat }.
Definition sbm_from_mf (fixed_p : bool) (d : mf_draws) (f : mfsbm) (s : sbm) : sbm :=
  sb_set s (md_dir d (mf_pi f)) (fun k => md_choice d k (mf_m f k))
    (if fixed_p then sb_p s else fun a b => md_beta d a b (mf_tau1 f a b) (mf_tau0 f a b))
    (fun a b => md_gamma d a b (mf_alpha f a b) (1 / mf_beta f a b)).

(** network.py 162-181: log probability; the fixed-sparsity override (770-782) unpacks
    three names from a four-tuple. *)
Definition sbm_log_probability (lgam : R -> R) (s : sbm) : result er :=
  let C := sb_C s in
  do d <- dirichlet_lp lgam 1 C (fun _ => sb_pi s) (fun _ => sb_m s) ;;
  do b <- beta_lp lgam (C * C) (fun _ => sb_tau1 s * 1) (fun _ => sb_tau0 s * 1)
            (fun r => sb_p s (r / C)%nat (r mod C)%nat) ;;
  Ok (eadd (eadd (eadd (d 0%nat) (esum (C * C) b))
       (Fin (Rsum C (fun i => Rsum C (fun j => gamma_lp lgam (sb_alpha s) (sb_beta s) (sb_v s i j))))))
      (esum (sb_K s) (fun k => elog (Fin (sb_m s (sb_c s k)))))).
Definition fsbm_log_probability (lgam : R -> R) (s : sbm) : result er := Raise ValueError.

(* ------------------------------------------------------------------ *)
(** ** ErdosRenyiFixedSparsity *)

Record ernet := { e_K : nat; e_p : R; e_kappa : R; e_alpha : option R; e_beta : option R; e_v : R;
                  e_allow : bool; e_mf : option (R * R) }.
Definition truthy (x : option R) : bool := match x with None => false | Some a => negb (Reqb a 0) end.
(** network.py 896-928, [__init__], numbers being Python floats. *)
Definition er_init (K : nat) (p kappa : R) (alpha beta v : option R) (allow : bool) : result ernet :=
  do t <- match alpha, beta, v with
          | None, None, None => Ok (INR K * kappa * p / (1 / 2), None, None)               (* 902-907 *)
          | _, _, Some v => Ok (v, None, None)                                             (* 908-910 *)
          | Some a, _, None =>                                                             (* 911-917 *)
              let b := match beta with Some b => b | None => a * INR K end in
              if Reqb b 0 then Raise ZeroDivisionError else Ok (a / b, Some a, Some b)
          | None, Some _, None => Raise NotImplementedErr                                  (* 918-919 *)
          end ;;
  let '(v', a, b) := t in
  let mf := if truthy a && truthy b
            then match a, b with Some a, Some b => Some (a, b) | _, _ => None end else None in   (* 925-927 *)
  Ok {| e_K := K; e_p := p; e_kappa := kappa; e_alpha := a; e_beta := b; e_v := v'; e_allow := allow; e_mf := mf |}.
(** network.py 929-950. *)
Definition er_P (n : ernet) : mat :=
  let P := fun _ _ => e_p n * 1 in if negb (e_allow n) then fill_diagonal P 0 else P.
Definition er_V (n : ernet) : mat := fun _ _ => e_v n * 1.
Definition net_of_er (n : ernet) : net := {| n_P := er_P n; n_V := er_V n; n_kappa := e_kappa n |}.
(** network.py 963-964: self.m and self.c are never set. *)
Definition er_log_probability (n : ernet) : result R := Raise AttributeError.
(** network.py 970-976, [resample_v]: (shape, scale). *)
Definition er_v_request (n : ernet) (alpha beta : R) (A : bmat) (W : mat) : R * R :=
  (alpha + Rsum (e_K n) (fun i => Rsum (e_K n) (fun j => b2R (A i j))) * e_kappa n,
   1 / (beta + Rsum (e_K n) (fun i => Rsum (e_K n) (fun j => if A i j then W i j else 0)))).
Definition er_with_v (n : ernet) (v : R) : ernet :=
  {| e_K := e_K n; e_p := e_p n; e_kappa := e_kappa n; e_alpha := e_alpha n; e_beta := e_beta n; e_v := v;
     e_allow := e_allow n; e_mf := e_mf n |}.
Definition er_with_mf (n : ernet) (x : R * R) : ernet :=
  {| e_K := e_K n; e_p := e_p n; e_kappa := e_kappa n; e_alpha := e_alpha n; e_beta := e_beta n; e_v := e_v n;
     e_allow := e_allow n; e_mf := Some x |}.
(** network.py 978-981, [resample]. *)
Definition er_resample (g : R -> R -> R) (A : bmat) (W : mat) (n : ernet) : ernet :=
  match e_alpha n, e_beta n with
  | Some a, Some b =>
      if truthy (Some a) && truthy (Some b)
      then let '(sh, sc) := er_v_request n a b A W in er_with_v n (g sh sc) else n
  | _, _ => n
  end.
(** network.py 996-1001. *)
Definition er_expected_v (n : ernet) : result R :=
  match e_mf n with None => Raise AttributeError | Some (a, b) => Ok (a / b) end.
Definition er_expected_log_v (psi : R -> R) (n : ernet) : result R :=
  match e_mf n with None => Raise AttributeError | Some (a, b) => Ok (psi a - ln b) end.
(** network.py 1006-1024: [mf_update_v], [meanfieldupdate], [meanfield_sgdstep]. *)
Definition er_meanfieldupdate (n : ernet) (w : wstats) (step : R) : result ernet :=
  match e_alpha n, e_beta n with
  | Some a, Some b =>
      let ah := a + Rsum (e_K n) (fun i => Rsum (e_K n) (fun j => ws_A w i j * e_kappa n)) in
      let bh := b + Rsum (e_K n) (fun i => Rsum (e_K n) (fun j => ws_A w i j * ws_W w i j)) in
      match e_mf n with
      | None => Raise AttributeError
      | Some (ma, mb) => Ok (er_with_mf n (mix_step step ma ah, mix_step step mb bh))
      end
  | _, _ => Raise TypeError                                                               (* None + array *)
  end.
(** network.py 1026-1034, [get_vlb]: Gamma(None, None) compares None with 0. *)
Definition er_get_vlb (lgam psi : R -> R) (n : ernet) : result R :=
  match e_alpha n, e_beta n with
  | Some a, Some b =>
      match e_mf n with
      | None => Raise AttributeError
      | Some (ma, mb) =>
          Ok (gamma_negentropy_with lgam a (psi ma - ln mb) (ma / mb) b (ln b) - gamma_negentropy lgam psi ma mb)
      end
  | _, _ => Raise TypeError
  end.
