(** * Spec_Float: IEEE double precision, round to nearest even (Flocq's rounding function), with overflow to infinity. *)
From Verif Require Import Prelude ExtReal Arrays.
From Flocq Require Import Core.
Set Implicit Arguments.
Open Scope R_scope.

(** Nearest number with 53 significant bits and exponent at least -1074. *)
Definition b64 (x : R) : R := round radix2 (FLT_exp (-1074) 53) ZnearestE x.
Definition is64 (x : R) : Prop := generic_format radix2 (FLT_exp (-1074) 53) x.
(** Result of an operation whose exact result is x. *)
Definition fround (x : er) : er :=
  match x with
  | Fin a => if Rltb (Rabs (b64 a)) (bpow radix2 1024) then Fin (b64 a) else if Rltb 0 a then PInf else NInf
  | y => y
  end.
Definition fadd (x y : er) : er := fround (eadd x y).
Definition fmul (x y : er) : er := fround (emul x y).
Definition fdiv (x y : er) : er := fround (ediv x y).

(** An order in which the entries of an array are added: a tree whose leaves are indices. *)
Inductive order := Entry (i : nat) | Plus (l r : order).
Fixpoint entries (o : order) : list nat := match o with Entry i => i :: nil | Plus l r => entries l ++ entries r end.
Fixpoint depth (o : order) : nat := match o with Entry _ => O | Plus l r => S (Nat.max (depth l) (depth r)) end.
Fixpoint fsum (o : order) (v : nat -> er) : er :=
  match o with Entry i => v i | Plus l r => fadd (fsum l v) (fsum r v) end.
(** Every entry of an array of length M is added exactly once. *)
Definition sums_all (M : nat) (o : order) : Prop := Permutation.Permutation (entries o) (seq 0 M).

(** A multinomial generator that refuses its probabilities v_0, ..., v_{M-1} only if one is outside [0,1], or if those before
    the last clearly add up to more than one (NumPy's threshold is 1 + 10^-12, applied to a compensated sum). *)
Definition lenient (accepts : nat -> (nat -> er) -> bool) : Prop :=
  forall M (v : vec) (p : nat -> er), (forall c, (c < M)%nat -> p c = Fin (v c)) ->
  (forall c, (c < M)%nat -> 0 <= v c <= 1) -> Rsum (M - 1) v <= 1 + 9 / 10 * / 10 ^ 12 -> accepts M p = true.
