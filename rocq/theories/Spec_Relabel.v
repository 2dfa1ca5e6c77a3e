(** * Spec_Relabel: renaming the processes of a network.

    [s] says which old process each new label denotes.  Only the labels below [K] matter.  Nothing here models
    pyhawkes. *)
From Coq Require Import Permutation.
From Verif Require Import Prelude ExtReal Arrays.
Set Implicit Arguments.
Open Scope R_scope.

(** A renaming of K processes: every new label denotes an old one, no two the same. *)
Definition relabelling (K : nat) (s : nat -> nat) : Prop :=
  (forall k, (k < K)%nat -> (s k < K)%nat) /\
  (forall i j, (i < K)%nat -> (j < K)%nat -> s i = s j -> i = j).

(** The same vector, matrix and tensor (third index untouched) under the new labels. *)
Definition vec_as {A} (K : nat) (s : nat -> nat) (v v' : nat -> A) : Prop :=
  forall k, (k < K)%nat -> v' k = v (s k).
Definition mat_as {A} (K : nat) (s : nat -> nat) (v v' : nat -> nat -> A) : Prop :=
  forall i j, (i < K)%nat -> (j < K)%nat -> v' i j = v (s i) (s j).
Definition ten_as {A} (K B : nat) (s : nat -> nat) (v v' : nat -> nat -> nat -> A) : Prop :=
  forall i j b, (i < K)%nat -> (j < K)%nat -> (b < B)%nat -> v' i j b = v (s i) (s j) b.
(** Time series: rows are bins, columns processes. *)
Definition series_as {A} (T K : nat) (s : nat -> nat) (v v' : nat -> nat -> A) : Prop :=
  forall t k, (t < T)%nat -> (k < K)%nat -> v' t k = v t (s k).
(** Filtered series: bins, processes, basis functions. *)
Definition filtered_as {A} (T K B : nat) (s : nat -> nat) (v v' : nat -> nat -> nat -> A) : Prop :=
  forall t k b, (t < T)%nat -> (k < K)%nat -> (b < B)%nat -> v' t k b = v t (s k) b.
