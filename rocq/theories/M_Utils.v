(** * Model of pyhawkes/utils/utils.py, pyhawkes/utils/poisson_process.py and baselines/xcorr.py.
    Reals for floats; random draws, argsort and sort are parameters. *)
From Verif Require Import Prelude Arrays ExtReal.
From Coq Require Import String Ascii DecimalString.
Open Scope string_scope.
Open Scope R_scope.
Set Implicit Arguments.

(* ---------------- utils.py 16-43: discrete <-> continuous ---------------- *)

(** pybasicbayes ibincount: np.repeat(np.arange(T), counts). *)
Definition ibincount (T : nat) (Sk : nat -> Z) : list nat :=
  List.concat (map (fun t => repeat t (Z.to_nat (Sk t))) (seq 0 T)).

(** utils.py 16-29, [convert_discrete_to_continuous(S, dt)] for a T x K integer matrix.  [rand i] is the i-th of the numbers
    np.random.rand returns; np.repeat rejects negative counts and np.concatenate rejects an empty list (K = 0). *)
Definition discrete_to_continuous (rand : nat -> R) (argsort : list R -> list nat) (T K : nat) (S_ : imat) (dt : R)
  : result (list R * list nat * R) :=
  do _ <- guard (negb (Nat.eqb K 0)) ValueError ;;
  do _ <- guard (forall_lt T (fun t => forall_lt K (fun k => (0 <=? S_ t k)%Z))) ValueError ;;
  let Tc := INR T * dt in                                                                       (* 19 *)
  let bins := List.concat (map (fun k => ibincount T (fun t => S_ t k)) (seq 0 K)) in                (* 20 *)
  let S_ct := map (fun i => dt * INR (nth i bins 0%nat) + dt * rand i) (seq 0 (List.length bins)) in (* 20-21 *)
  do _ <- guard (forallb (fun s => Rltb s Tc) S_ct) AssertionError ;;                           (* 22 *)
  let C_ct := List.concat (map (fun k => repeat k (Z.to_nat (Zsum T (fun t => S_ t k)))) (seq 0 K)) in (* 23 *)
  let perm := argsort S_ct in                                                                   (* 26 *)
  Ok (map (fun i => nth i S_ct 0) perm, map (fun i => nth i C_ct 0%nat) perm, Tc).              (* 27-29 *)

(** np.histogram(x, edges)[0] with N+1 increasing edges: half-open bins, the last one closed. *)
Definition histogram (x : list R) (N : nat) (edge : nat -> R) (i : nat) : Z :=
  Z.of_nat (List.length (filter (fun v => (Rleb (edge i) v && Rltb v (edge (S i))) || (Nat.eqb (S i) N && Reqb v (edge N)))%bool x)).

(** C.max() of a non-empty list. *)
Definition zmax (C_ : list Z) : Z := fold_right Z.max (hd 0%Z C_) C_.
(** S[C == k]. *)
Definition select (S_ : list R) (C_ : list Z) (k : Z) : list R := map fst (filter (fun sc => (snd sc =? k)%Z) (combine S_ C_)).

(** utils.py 31-43, [convert_continuous_to_discrete(S, C, dt, T_min, T_max)]: number of bins, number of processes, counts.
    Requires dt > 0 (np.arange with another step is outside the model: ValueError stands for what it does). *)
Definition continuous_to_discrete (S_ : list R) (C_ : list Z) (dt Tmin Tmax : R) : result (nat * nat * imat) :=
  do _ <- guard (Rltb 0 dt) ValueError ;;
  let n := arange_len (Tmax - Tmin) dt in                                                      (* 32 *)
  do _ <- guard (negb (Nat.eqb n 0)) IndexError ;;                                              (* 33: bins[-1] *)
  let last := Tmin + INR (n - 1) * dt in
  let nb := if Reqb last Tmax then n else S n in                                                (* 33-34 *)
  let edge := fun i => if Nat.ltb i n then Tmin + INR i * dt else Tmax in
  let T := (nb - 1)%nat in                                                                      (* 35 *)
  do _ <- guard (negb (Nat.eqb (List.length C_) 0)) ValueError ;;                                    (* 37: max of empty *)
  let K := (zmax C_ + 1)%Z in
  do _ <- guard (0 <=? K)%Z ValueError ;;                                                       (* 38 *)
  do _ <- guard (Nat.eqb (List.length S_) (List.length C_) || Z.eqb K 0) IndexError ;;                     (* 40: boolean mask *)
  let cnt := fun t k => histogram (select S_ C_ (Z.of_nat k)) T edge t in                       (* 39-40 *)
  do _ <- guard (Zsum T (fun t => Zsum (Z.to_nat K) (fun k => cnt t k)) =? Z.of_nat (List.length S_))%Z AssertionError ;; (* 42 *)
  Ok (T, Z.to_nat K, cnt).

(* ---------------- utils.py 45-62: file names ---------------- *)

(** The patterns of the standard library's fnmatch (POSIX: case-sensitive): literal, '?', '*' and '[...]' with ranges. *)
Inductive tok := TLit (c : ascii) | TAny | TStar | TClass (neg : bool) (rs : list (ascii * ascii)).
(** the text of a class up to its closing bracket; a ']' in first place is literal. *)
Fixpoint class_end (first : bool) (s : list ascii) : option (list ascii * list ascii) :=
  match s with
  | [] => None
  | c :: r => if (Ascii.eqb c "]"%char && negb first)%bool then Some ([], r)
              else match class_end false r with Some (b, r') => Some (c :: b, r') | None => None end
  end.
Fixpoint class_ranges (fuel : nat) (s : list ascii) : list (ascii * ascii) :=
  match fuel with O => [] | S f =>
    match s with
    | a :: m :: b :: r => if Ascii.eqb m "-"%char then (a, b) :: class_ranges f r else (a, a) :: class_ranges f (m :: b :: r)
    | a :: r => (a, a) :: class_ranges f r
    | [] => []
    end
  end.
Fixpoint tokens (fuel : nat) (s : list ascii) : list tok :=
  match fuel with O => [] | S f =>
    match s with
    | [] => []
    | c :: r =>
      if Ascii.eqb c "*"%char then TStar :: tokens f r
      else if Ascii.eqb c "?"%char then TAny :: tokens f r
      else if Ascii.eqb c "["%char then
        let neg := match r with b :: _ => Ascii.eqb b "!"%char | [] => false end in
        let r1 := if neg then tl r else r in
        match class_end true r1 with
        | Some (b, r') => TClass neg (class_ranges (List.length b) b) :: tokens f r'
        | None => TLit c :: tokens f r
        end
      else TLit c :: tokens f r
    end
  end.
Definition in_range (c : ascii) (r : ascii * ascii) : bool :=
  (Nat.leb (nat_of_ascii (fst r)) (nat_of_ascii c) && Nat.leb (nat_of_ascii c) (nat_of_ascii (snd r)))%bool.
Fixpoint suffixes (s : list ascii) : list (list ascii) := s :: match s with [] => [] | _ :: r => suffixes r end.
Fixpoint tmatch (ts : list tok) (s : list ascii) : bool :=
  match ts with
  | [] => match s with [] => true | _ => false end
  | TStar :: ts' => existsb (tmatch ts') (suffixes s)
  | TAny :: ts' => match s with _ :: r => tmatch ts' r | [] => false end
  | TLit c :: ts' => match s with d :: r => (Ascii.eqb c d && tmatch ts' r)%bool | [] => false end
  | TClass neg rs :: ts' => match s with d :: r => (xorb neg (existsb (in_range d) rs) && tmatch ts' r)%bool | [] => false end
  end.
Definition fnmatch (name pat : string) : bool :=
  let p := list_ascii_of_string pat in tmatch (tokens (List.length p) p) (list_ascii_of_string name).

(** "%d" % n *)
Definition show_nat (n : nat) : string := NilEmpty.string_of_uint (Nat.to_uint n).

(** utils.py 45-62, [get_unique_file_name(filedir, filename)] given the listing of the directory. *)
Definition get_unique_file_name (listing : list string) (filename : string) : string :=
  let nconflicts := List.length (filter (fun f => fnmatch f (filename ++ "*")) listing) in
  if Nat.ltb 0 nconflicts then (filename ++ "." ++ show_nat (nconflicts + 1))%string else filename.

(* ---------------- random number generators for the parallel sampler ---------------- *)

(** The part of the environment that decides: is gslrandom importable, is OMP_NUM_THREADS set (environment values are strings),
    what get_omp_num_threads() returns. *)
Record env := { env_gsl : bool; env_omp : option string; env_threads : Z }.
(** utils.py 4-14, [initialize_pyrngs()]: number of generators.  Under Python 3 comparing a string with 0 raises TypeError. *)
Definition initialize_pyrngs (e : env) : result nat :=
  do _ <- guard (env_gsl e) GenericException ;;                                      (* 5: ImportError *)
  match env_omp e with
  | Some _ => Raise TypeError                                                        (* 7, 10 *)
  | None => do _ <- guard (0 <? env_threads e)%Z AssertionError ;; Ok (Z.to_nat (env_threads e))
  end.
(** parents.py 62-80, the same logic in [DiscreteTimeParents.__init__], under a bare except: (USE_GSL, number of generators). *)
Definition parents_use_gsl (e : env) : bool * nat :=
  match initialize_pyrngs e with Ok n => (true, n) | Raise _ => (false, 0%nat) end.

(* ---------------- poisson_process.py 9-58 ---------------- *)

(** 25-27: cumulative trapezoids, [0, ...]. *)
Definition trap (tt lam : nat -> R) (i : nat) : R := / 2 * (tt (S i) - tt i) * (2 * lam (S i) - (lam (S i) - lam i)).
Definition cumlam (tt lam : nat -> R) (i : nat) : R := Rsum i (trap tt lam).
(** 43-45: the while loop; fuel bounds the number of iterations (the assertion stops it after at most Nt steps). *)
Fixpoint advance (fuel : nat) (cum : nat -> R) (Nt : nat) (q : R) (off : nat) : result nat :=
  match fuel with
  | O => Raise RecursionErr
  | S f => if Rltb (cum off) q then do _ <- guard (Nat.ltb (S off) Nt) AssertionError ;; advance f cum Nt q (S off) else Ok off
  end.
(** 49-56: index off-1 is the last entry when off = 0; 0/0 fails the assertion. *)
Definition invert (tt cum : nat -> R) (Nt : nat) (q : R) (off : nat) : result R :=
  let lo := match off with O => (Nt - 1)%nat | S i => i end in
  let frac := ediv (Fin (q - cum lo)) (Fin (cum off - cum lo)) in
  do _ <- guard (ele (Fin 0) frac && ele frac (Fin 1)) AssertionError ;;
  Ok (tt lo + fval frac * (tt off - tt lo)).
(** 40-56: the loop over the sorted draws. *)
Fixpoint invert_all (tt cum : nat -> R) (Nt : nat) (Q : list R) (off : nat) : result (list R) :=
  match Q with
  | [] => Ok []
  | q :: Q' =>
    do o <- advance (S Nt) cum Nt q off ;;
    do s <- invert tt cum Nt q o ;;
    do l <- invert_all tt cum Nt Q' o ;;
    Ok (s :: l)
  end.
(** 9-58, [sampleInhomogeneousPoissonProc(tt, lam)] on a grid of Nt points: [pois] and [unif] are the draws, [sort] is np.sort. *)
Definition sample_inhomogeneous (pois : R -> nat) (unif : R -> nat -> nat -> R) (sort : list R -> list R) (Nt : nat) (tt lam : nat -> R) : result (list R) :=
  let cum := cumlam tt lam in
  let intLam := cum (Nt - 1)%nat in                                                  (* 30; Nt = 0 gives the leading 0.0 *)
  do _ <- guard (Rleb 0 intLam) ValueError ;;
  let N := pois intLam in
  let Q := sort (map (unif intLam N) (seq 0 N)) in
  invert_all tt cum Nt Q 0.

(* ---------------- poisson_process.py 60-98 ---------------- *)
Definition kernel_raw (bw : R) (j : nat) : R := exp (- / 2 * ((- 4 * bw + INR j * bw) * (- 4 * bw + INR j * bw))).
Definition kernel (bw : R) (j : nat) : R := kernel_raw bw j / Rsum 9 (kernel_raw bw).          (* 77-84 *)
(** np.convolve(a, v, "same") for len(a) = L >= 9 = len(v): entry n of the centred convolution. *)
Definition convolve_same9 (L : nat) (a v : nat -> R) (n : nat) : R :=
  Rsum 9 (fun j => if (Nat.leb j (n + 4) && Nat.ltb (n + 4 - j) L)%bool then v j * a (n + 4 - j)%nat else 0).
(** 60-98, [approximateFiringRate(S, (T_start, T_stop), N_bins)], N_bins >= 1. *)
Definition binned_rate (S_ : list R) (T0 T1 : R) (Nb : nat) (i : nat) : R :=
  let bw := (T1 - T0) / INR Nb in
  let edge := fun i => if Nat.eqb i Nb then T1 else T0 + INR i * ((T1 - T0) / INR Nb) in
  IZR (histogram S_ Nb edge i) / bw.                                                            (* 68-73 *)
Definition approximate_firing_rate (S_ : list R) (T0 T1 : R) (Nb : nat) : result (nat -> R) :=
  do _ <- guard (Nat.ltb 0 Nb && Rltb T0 T1) ValueError ;;
  let bw := (T1 - T0) / INR Nb in
  let fr := binned_rate S_ T0 T1 Nb in
  let m := Nat.min 9 Nb in
  let l_pad := Rsum m fr / INR m in                                                             (* 88: fr[:9] *)
  let r_pad := Rsum m (fun i => fr (Nb - m + i)%nat) / INR m in                                 (* 89: fr[-9:] *)
  let pad := fun n => if Nat.ltb n 9 then l_pad else if Nat.ltb n (9 + Nb) then fr (n - 9)%nat else r_pad in  (* 90 *)
  Ok (fun i => convolve_same9 (Nb + 18) pad (kernel bw) (i + 9)).                               (* 91-94 *)

(* ---------------- baselines/xcorr.py ---------------- *)

Definition mean (n : nat) (x : nat -> R) : R := Rsum n x / INR n.
(** np.cov entry (ddof = 1); with at most one observation the factor 1/0 makes it NaN. *)
Definition cov (n : nat) (x y : nat -> R) : er :=
  if Nat.leb n 1 then NaN else Fin (Rsum n (fun i => (x i - mean n x) * (y i - mean n y)) * (1 / INR (n - 1))).
Definition esqrt (x : er) : er := match x with Fin a => if Rltb a 0 then NaN else Fin (sqrt a) | PInf => PInf | _ => NaN end.
Definition eclip1 (x : er) : er := match x with Fin a => Fin (clip (-1) 1 a) | PInf => Fin 1 | NInf => Fin (-1) | NaN => NaN end.
(** np.corrcoef entry for two rows. *)
Definition corrcoef (n : nat) (x y : nat -> R) : er :=
  eclip1 (ediv (ediv (cov n x y) (esqrt (cov n x x))) (esqrt (cov n y y))).

(** xcorr.py 33-40: one write H[n1:n1c, n2:n2c, dt] = corrcoef(...)[:(n1c-n1), (n1c-n1):] of the stacked rows. *)
Definition write_block (N T dt : nat) (S_ : mat) (n1 n2 : nat) (H : nat -> nat -> er) : nat -> nat -> er :=
  let n1c := Nat.min (n1 + 16) N in let n2c := Nat.min (n2 + 16) N in
  let nobs := (T - dt)%nat in
  let row := fun r => if Nat.ltb r (n1c - n1) then (fun t => S_ t (n1 + r)%nat) else (fun t => S_ (dt + t)%nat (n2 + (r - (n1c - n1)))%nat) in
  fun i j => if (Nat.leb n1 i && Nat.ltb i n1c && Nat.leb n2 j && Nat.ltb j n2c)%bool
             then corrcoef nobs (row (i - n1)%nat) (row ((n1c - n1) + (j - n2))%nat) else H i j.
(** np.arange(N, step=16). *)
Definition starts (N : nat) : list nat := map (fun i => (16 * i)%nat) (seq 0 ((N + 15) / 16)).
(** 19-46, [xcorr(S, dtmax)]; for an offset beyond the recording the two slices differ in length unless both are empty. *)
Definition xcorr_lag (N T dt : nat) (S_ : mat) (H : nat -> nat -> er) : nat -> nat -> er :=
  let H1 := fold_left (fun H n1 => fold_left (fun H n2 => write_block N T dt S_ n1 n2 H) (starts N) H) (starts N) H in
  if Nat.eqb dt 0 then (fun i j => esub (H1 i j) (if Nat.eqb i j then H1 i j else Fin 0)) else H1.     (* 43-44 *)
Definition slices_match (T dt : nat) : bool := (Nat.leb dt T || Nat.leb (2 * T) dt)%bool.
Definition xcorr (N T dtmax : nat) (S_ : mat) : result (nat -> nat -> nat -> er) :=
  do _ <- guard (forall_lt dtmax (fun dt => slices_match T dt || Nat.eqb N 0)%bool) ValueError ;;
  Ok (fun i j dt => xcorr_lag N T dt S_ (fun _ _ => Fin 0) i j).
(** 49-52, [_moving_average(a, axis=0, window)] of one column of length T, window >= 1: its T - window + 1 entries. *)
Definition moving_average (T window : nat) (a : nat -> R) (i : nat) : R :=
  let cs := fun i => Rsum (S i) a in                                                       (* 50 *)
  let ret := fun i => if Nat.leb window i then cs i - cs (i - window)%nat else cs i in     (* 51 *)
  ret (window - 1 + i)%nat / INR window.                                                   (* 52 *)
(** 7-17, [infer_net_from_xcorr(S, dtmax, smooth)]. *)
Definition eabs (x : er) : er := match x with Fin a => Fin (Rabs a) | NaN => NaN | _ => PInf end.
Definition infer_net_from_xcorr (N T dtmax : nat) (S_ : mat) (smooth : option nat) : result (nat -> nat -> er) :=
  let '(T', S') := match smooth with None => (T, S_) | Some w => ((T + 1 - w)%nat, fun t k => moving_average T w (fun t => S_ t k) t) end in
  do H <- xcorr N T' dtmax S' ;;
  Ok (fun i j => esum dtmax (fun dt => eabs (H i j dt))).
