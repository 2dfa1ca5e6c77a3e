(** * Spec_Workers: schedules of forked workers and averages over the numbers of one generator.  Plain mathematics. *)
From Coquelicot Require Import Coquelicot.
From Verif Require Import Prelude Arrays.
Set Implicit Arguments.
Open Scope R_scope.

(** Column c is the first one worker w serves. *)
Definition serves_first (w c : nat) (sched : list (nat * nat)) : Prop :=
  exists pre post, sched = pre ++ (w, c) :: post /\ forall x, ~ In (w, x) pre.

(** An edge is free if neither certain nor impossible; i is the first free row of column c. *)
Definition free (P : mat) (i j : nat) : Prop := P i j <> 0 /\ P i j <> 1.
Definition first_free (K : nat) (P : mat) (c i : nat) : Prop := (i < K)%nat /\ free P i c /\ forall r, (r < i)%nat -> ~ free P r c.

(** A stream of uniforms on (0,1). *)
Definition unit_stream (g : vec) : Prop := forall i, 0 < g i < 1.

(** v is the mean of G when the entries of the stream at the listed positions are independent uniforms. *)
Fixpoint stream_mean (ps : list nat) (G : vec -> R) (g : vec) (v : R) : Prop :=
  match ps with
  | [] => v = G g
  | p :: ps' => exists h : R -> R, (forall x, 0 < x < 1 -> stream_mean ps' G (upd g p x) (h x)) /\ is_RInt h 0 1 v
  end.
