(** * M_FloatConv: discrete <-> continuous conversion in double precision (utils.py 16-43).
    Every arithmetic operation is rounded ([b64] of Spec_Float); overflow is outside the model (the theorems bound the sizes). *)
From Verif Require Import Prelude ExtReal Arrays Spec_Float M_Utils.
Set Implicit Arguments.
Open Scope R_scope.

(** utils.py 16-29, [convert_discrete_to_continuous(S, dt)] for a T x K integer matrix: as M_Utils.discrete_to_continuous,
    with rounding.  [rand i] is the i-th number np.random.rand returns. *)
Definition f_discrete_to_continuous (rand : nat -> R) (argsort : list R -> list nat) (T K : nat) (S_ : imat) (dt : R)
  : result (list R * list nat * R) :=
  do _ <- guard (negb (Nat.eqb K 0)) ValueError ;;
  do _ <- guard (forall_lt T (fun t => forall_lt K (fun k => (0 <=? S_ t k)%Z))) ValueError ;;
  let Tc := b64 (INR T * dt) in                                                                      (* 19 *)
  let bins := List.concat (map (fun k => ibincount T (fun t => S_ t k)) (seq 0 K)) in                (* 20 *)
  let S_ct := map (fun i => b64 (b64 (dt * INR (nth i bins 0%nat)) + b64 (dt * rand i))) (seq 0 (List.length bins)) in (* 20-21 *)
  do _ <- guard (forallb (fun s => Rltb s Tc) S_ct) AssertionError ;;                                (* 22 *)
  let C_ct := List.concat (map (fun k => repeat k (Z.to_nat (Zsum T (fun t => S_ t k)))) (seq 0 K)) in (* 23 *)
  let perm := argsort S_ct in                                                                        (* 26 *)
  Ok (map (fun i => nth i S_ct 0) perm, map (fun i => nth i C_ct 0%nat) perm, Tc).                   (* 27-29 *)

(** utils.py 32: np.arange(start, stop, step): its length is the ceiling of the rounded quotient; its first two entries are
    start and start + step, the others start + i * ((start + step) - start). *)
Definition f_arange_len (start stop step : R) : nat := Z.to_nat (ceilZ (b64 (b64 (stop - start) / step))).
Definition f_arange (start step : R) (i : nat) : R :=
  match i with
  | O => start
  | S O => b64 (start + step)
  | _ => b64 (start + b64 (INR i * b64 (b64 (start + step) - start)))
  end.

(** utils.py 31-43, [convert_continuous_to_discrete(S, C, dt, T_min, T_max)]: as M_Utils.continuous_to_discrete, with rounded
    bin edges; np.histogram raises ValueError on edges that decrease. *)
Definition f_continuous_to_discrete (S_ : list R) (C_ : list Z) (dt Tmin Tmax : R) : result (nat * nat * imat) :=
  do _ <- guard (Rltb 0 dt) ValueError ;;
  let n := f_arange_len Tmin Tmax dt in                                                              (* 32 *)
  do _ <- guard (negb (Nat.eqb n 0)) IndexError ;;                                                   (* 33: bins[-1] *)
  let nb := if Reqb (f_arange Tmin dt (n - 1)) Tmax then n else S n in                               (* 33-34 *)
  let edge := fun i => if Nat.ltb i n then f_arange Tmin dt i else Tmax in
  let T := (nb - 1)%nat in                                                                           (* 35 *)
  do _ <- guard (negb (Nat.eqb (List.length C_) 0)) ValueError ;;                                    (* 37: max of empty *)
  let K := (zmax C_ + 1)%Z in
  do _ <- guard (0 <=? K)%Z ValueError ;;                                                            (* 38 *)
  do _ <- guard (Nat.eqb (List.length S_) (List.length C_) || Z.eqb K 0) IndexError ;;               (* 40: boolean mask *)
  do _ <- guard (Z.eqb K 0 || forall_lt T (fun i => Rleb (edge i) (edge (S i)))) ValueError ;; (* 40: np.histogram *)
  let cnt := fun t k => histogram (select S_ C_ (Z.of_nat k)) T edge t in                            (* 39-40 *)
  do _ <- guard (Zsum T (fun t => Zsum (Z.to_nat K) (fun k => cnt t k)) =? Z.of_nat (List.length S_))%Z AssertionError ;; (* 42 *)
  Ok (T, Z.to_nat K, cnt).
