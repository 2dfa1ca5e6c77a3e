(** * Prelude: finite sums over the reals and over the integers, and the
    [result] type used for Python exceptions.  Nothing here models pyhawkes:
    it is the mathematical vocabulary shared by the model, the specifications
    and the proofs. *)
From Coq Require Export Reals Lra Lia List ZArith Bool Arith.
From Coq Require Import Permutation.
Export ListNotations.
Set Implicit Arguments.
Open Scope R_scope.

(** Python exceptions, as values. *)
Inductive err : Set :=
  AssertionError | ValueError | TypeError | AttributeError | IndexError
| AxisError | NotImplementedErr | ZeroDivisionError | KeyErr | GenericException
| RecursionErr.

Inductive result (A : Type) : Type :=
| Ok : A -> result A
| Raise : err -> result A.
Arguments Ok {A} _.
Arguments Raise {A} _.

Definition bindr {A B} (x : result A) (f : A -> result B) : result B :=
  match x with Ok a => f a | Raise e => Raise e end.
Notation "'do' x <- m ;; k" := (bindr m (fun x => k))
  (at level 200, x name, m at level 100, k at level 200, right associativity).

(** [guard b e]: [assert b] raising [e]. *)
Definition guard (b : bool) (e : err) : result unit :=
  if b then Ok tt else Raise e.

Definition is_ok {A} (r : result A) : bool :=
  match r with Ok _ => true | Raise _ => false end.

(** Finite sums  [Rsum n f = f 0 + ... + f (n-1)]. *)
Fixpoint Rsum (n : nat) (f : nat -> R) : R :=
  match n with O => 0 | S n' => Rsum n' f + f n' end.

Fixpoint Zsum (n : nat) (f : nat -> Z) : Z :=
  match n with O => 0%Z | S n' => (Zsum n' f + f n')%Z end.

Fixpoint lsum (l : list R) : R :=
  match l with [] => 0 | x :: l' => x + lsum l' end.

Fixpoint lsumZ (l : list Z) : Z :=
  match l with [] => 0%Z | x :: l' => (x + lsumZ l')%Z end.

(** Functional update, for in-place array writes. *)
Definition upd {A} (f : nat -> A) (i : nat) (x : A) : nat -> A :=
  fun j => if Nat.eqb j i then x else f j.
Definition upd2 {A} (f : nat -> nat -> A) (i j : nat) (x : A) : nat -> nat -> A :=
  fun a b => if Nat.eqb a i && Nat.eqb b j then x else f a b.

(** Boolean comparisons on [R] (classical, non-computing). *)
Definition Rltb (x y : R) : bool := if Rlt_dec x y then true else false.
Definition Rleb (x y : R) : bool := if Rle_dec x y then true else false.
Definition Reqb (x y : R) : bool := if Req_EM_T x y then true else false.

Definition forall_lt (n : nat) (p : nat -> bool) : bool := forallb p (seq 0 n).

(* ------------------------------------------------------------------ *)
(** ** Comparisons *)

Lemma Rltb_true x y : Rltb x y = true <-> x < y.
Proof. unfold Rltb; destruct (Rlt_dec x y); split; intros; try easy; lra. Qed.
Lemma Rltb_false x y : Rltb x y = false <-> y <= x.
Proof. unfold Rltb; destruct (Rlt_dec x y); split; intros; try easy; lra. Qed.
Lemma Rleb_true x y : Rleb x y = true <-> x <= y.
Proof. unfold Rleb; destruct (Rle_dec x y); split; intros; try easy; lra. Qed.
Lemma Rleb_false x y : Rleb x y = false <-> y < x.
Proof. unfold Rleb; destruct (Rle_dec x y); split; intros; try easy; lra. Qed.
Lemma Reqb_true x y : Reqb x y = true <-> x = y.
Proof. unfold Reqb; destruct (Req_EM_T x y); split; intros; easy. Qed.
Lemma Reqb_false x y : Reqb x y = false <-> x <> y.
Proof. unfold Reqb; destruct (Req_EM_T x y); split; intros; easy. Qed.

Lemma forall_lt_true n p :
  forall_lt n p = true <-> (forall i, (i < n)%nat -> p i = true).
Proof.
  unfold forall_lt; rewrite forallb_forall; split; intros H i Hi.
  - apply H, in_seq; lia.
  - apply H; apply in_seq in Hi; lia.
Qed.

Lemma forall_lt_false n p :
  forall_lt n p = false -> exists i, (i < n)%nat /\ p i = false.
Proof.
  intros H. induction n as [|n IH]; [discriminate|].
  unfold forall_lt in *. rewrite seq_S, forallb_app in H. cbn in H.
  apply andb_false_iff in H as [H|H].
  - destruct (IH H) as (i & Hi & Hp). exists i; split; [lia|exact Hp].
  - rewrite andb_true_r in H. exists n; split; [lia|exact H].
Qed.

(* ------------------------------------------------------------------ *)
(** ** [Rsum] *)

Lemma Rsum_ext n f g :
  (forall i, (i < n)%nat -> f i = g i) -> Rsum n f = Rsum n g.
Proof.
  induction n as [|n IH]; intros H; cbn; [reflexivity|].
  rewrite IH, H; auto.
Qed.

Lemma Rsum_0 n f : (forall i, (i < n)%nat -> f i = 0) -> Rsum n f = 0.
Proof.
  induction n as [|n IH]; intros H; cbn; [reflexivity|].
  rewrite IH, H; auto; lra.
Qed.

Lemma Rsum_zero n : Rsum n (fun _ => 0) = 0.
Proof. apply Rsum_0; auto. Qed.

Lemma Rsum_plus n f g : Rsum n (fun i => f i + g i) = Rsum n f + Rsum n g.
Proof. induction n as [|n IH]; cbn; [lra|]. rewrite IH; lra. Qed.

Lemma Rsum_minus n f g : Rsum n (fun i => f i - g i) = Rsum n f - Rsum n g.
Proof. induction n as [|n IH]; cbn; [lra|]. rewrite IH; lra. Qed.

Lemma Rsum_opp n f : Rsum n (fun i => - f i) = - Rsum n f.
Proof. induction n as [|n IH]; cbn; [lra|]. rewrite IH; lra. Qed.

Lemma Rsum_scal n c f : Rsum n (fun i => c * f i) = c * Rsum n f.
Proof. induction n as [|n IH]; cbn; [lra|]. rewrite IH; lra. Qed.

Lemma Rsum_scal_r n c f : Rsum n (fun i => f i * c) = Rsum n f * c.
Proof. induction n as [|n IH]; cbn; [lra|]. rewrite IH; lra. Qed.

Lemma Rsum_div n c f : Rsum n (fun i => f i / c) = Rsum n f / c.
Proof. unfold Rdiv; apply Rsum_scal_r. Qed.

Lemma Rsum_const n c : Rsum n (fun _ => c) = INR n * c.
Proof.
  induction n as [|n IH]; [cbn; lra|].
  rewrite S_INR. cbn [Rsum]. rewrite IH; lra.
Qed.

Lemma Rsum_nonneg n f : (forall i, (i < n)%nat -> 0 <= f i) -> 0 <= Rsum n f.
Proof.
  induction n as [|n IH]; intros H; cbn; [lra|].
  specialize (IH (fun i Hi => H i (Nat.lt_lt_succ_r _ _ Hi))).
  specialize (H n (Nat.lt_succ_diag_r n)); lra.
Qed.

Lemma Rsum_le n f g :
  (forall i, (i < n)%nat -> f i <= g i) -> Rsum n f <= Rsum n g.
Proof.
  induction n as [|n IH]; intros H; cbn; [lra|].
  specialize (IH (fun i Hi => H i (Nat.lt_lt_succ_r _ _ Hi))).
  specialize (H n (Nat.lt_succ_diag_r n)); lra.
Qed.

Lemma Rsum_pos n f :
  (0 < n)%nat -> (forall i, (i < n)%nat -> 0 < f i) -> 0 < Rsum n f.
Proof.
  intros Hn H. destruct n as [|n]; [lia|]. cbn.
  assert (0 <= Rsum n f) by (apply Rsum_nonneg; intros i Hi; left; apply H; lia).
  assert (0 < f n) by (apply H; lia). lra.
Qed.

Lemma Rsum_term_le n f i :
  (forall j, (j < n)%nat -> 0 <= f j) -> (i < n)%nat -> f i <= Rsum n f.
Proof.
  induction n as [|n IH]; intros H Hi; [lia|]. cbn.
  destruct (Nat.eq_dec i n) as [->|Hne].
  - assert (0 <= Rsum n f) by (apply Rsum_nonneg; intros; apply H; lia). lra.
  - assert (f i <= Rsum n f) by (apply IH; [intros; apply H; lia|lia]).
    assert (0 <= f n) by (apply H; lia). lra.
Qed.

Lemma Rsum_nonneg_zero n f :
  (forall i, (i < n)%nat -> 0 <= f i) -> Rsum n f = 0 ->
  forall i, (i < n)%nat -> f i = 0.
Proof.
  intros H H0 i Hi. assert (f i <= Rsum n f) by (apply Rsum_term_le; auto).
  specialize (H i Hi); lra.
Qed.

Lemma Rsum_swap n m (f : nat -> nat -> R) :
  Rsum n (fun i => Rsum m (fun j => f i j)) = Rsum m (fun j => Rsum n (fun i => f i j)).
Proof.
  induction n as [|n IH]; cbn; [now rewrite Rsum_zero|].
  rewrite IH, <- Rsum_plus; reflexivity.
Qed.

Lemma Rsum_app n m f :
  Rsum (n + m) f = Rsum n f + Rsum m (fun i => f (n + i)%nat).
Proof.
  induction m as [|m IH]; [cbn; rewrite Nat.add_0_r; lra|].
  rewrite Nat.add_succ_r. cbn. rewrite IH; lra.
Qed.

Lemma Rsum_S_l n f : Rsum (S n) f = f O + Rsum n (fun i => f (S i)).
Proof.
  change (S n) with (1 + n)%nat. rewrite Rsum_app. cbn. lra.
Qed.

Lemma Rsum_mul K B f :
  Rsum (K * B) f = Rsum K (fun k => Rsum B (fun b => f (k * B + b)%nat)).
Proof.
  induction K as [|K IH]; [reflexivity|].
  cbn [Rsum]. rewrite <- IH.
  replace (S K * B)%nat with (K * B + B)%nat by lia.
  apply Rsum_app.
Qed.

Lemma Rsum_ind n i f :
  Rsum n (fun j => if Nat.eqb j i then f j else 0) = if Nat.ltb i n then f i else 0.
Proof.
  induction n as [|n IH]; [reflexivity|]. cbn [Rsum]. rewrite IH.
  destruct (Nat.ltb_spec i n); destruct (Nat.ltb_spec i (S n));
    destruct (Nat.eqb_spec n i); subst; try lia; lra.
Qed.

Lemma Rsum_rev n f : Rsum n f = Rsum n (fun i => f (n - 1 - i)%nat).
Proof.
  induction n as [|n IH]; [reflexivity|].
  rewrite (Rsum_S_l n (fun i => f (S n - 1 - i)%nat)). cbn [Rsum].
  rewrite IH. replace (S n - 1 - 0)%nat with n by lia.
  rewrite Rplus_comm. f_equal. apply Rsum_ext; intros i Hi. f_equal; lia.
Qed.

Lemma Rsum_upd n f i x :
  (i < n)%nat -> Rsum n (upd f i x) = Rsum n f + x - f i.
Proof.
  induction n as [|n IH]; intros Hi; [lia|]. cbn [Rsum].
  destruct (Nat.eq_dec i n) as [->|Hne].
  - unfold upd at 2. rewrite Nat.eqb_refl.
    rewrite (Rsum_ext (n:=n) (upd f n x) f); [lra|].
    intros j Hj; unfold upd. destruct (Nat.eqb_spec j n); [lia|reflexivity].
  - rewrite IH by lia. unfold upd at 1. destruct (Nat.eqb_spec n i); [lia|lra].
Qed.

Lemma Rsum_le_sub n m f :
  (n <= m)%nat -> (forall i, (i < m)%nat -> 0 <= f i) -> Rsum n f <= Rsum m f.
Proof.
  intros Hnm H. replace m with (n + (m - n))%nat by lia. rewrite Rsum_app.
  assert (0 <= Rsum (m - n) (fun i => f (n + i)%nat))
    by (apply Rsum_nonneg; intros; apply H; lia). lra.
Qed.

Lemma Rsum_abs n f : Rabs (Rsum n f) <= Rsum n (fun i => Rabs (f i)).
Proof.
  induction n as [|n IH]; cbn; [rewrite Rabs_R0; lra|].
  eapply Rle_trans; [apply Rabs_triang|]. lra.
Qed.

(* ------------------------------------------------------------------ *)
(** ** [lsum] *)

Lemma lsum_app l1 l2 : lsum (l1 ++ l2) = lsum l1 + lsum l2.
Proof. induction l1 as [|x l IH]; cbn; [lra|]. rewrite IH; lra. Qed.

Lemma lsum_perm l1 l2 : Permutation l1 l2 -> lsum l1 = lsum l2.
Proof. induction 1; cbn; lra. Qed.

Lemma lsum_map_ext {A} (f g : A -> R) l :
  (forall x, In x l -> f x = g x) -> lsum (map f l) = lsum (map g l).
Proof.
  induction l as [|x l IH]; intros H; cbn; [reflexivity|].
  rewrite IH, H; auto; [now left|intros; apply H; now right].
Qed.

Lemma lsum_map_plus {A} (f g : A -> R) l :
  lsum (map (fun x => f x + g x) l) = lsum (map f l) + lsum (map g l).
Proof. induction l as [|x l IH]; cbn; [lra|]. rewrite IH; lra. Qed.

Lemma lsum_map_minus {A} (f g : A -> R) l :
  lsum (map (fun x => f x - g x) l) = lsum (map f l) - lsum (map g l).
Proof. induction l as [|x l IH]; cbn; [lra|]. rewrite IH; lra. Qed.

Lemma lsum_map_scal {A} c (f : A -> R) l :
  lsum (map (fun x => c * f x) l) = c * lsum (map f l).
Proof. induction l as [|x l IH]; cbn; [lra|]. rewrite IH; lra. Qed.

Lemma lsum_map_scal_r {A} c (f : A -> R) l :
  lsum (map (fun x => f x * c) l) = lsum (map f l) * c.
Proof. induction l as [|x l IH]; cbn; [lra|]. rewrite IH; lra. Qed.

Lemma lsum_map_const {A} c (l : list A) :
  lsum (map (fun _ => c) l) = INR (length l) * c.
Proof.
  induction l as [|x l IH]; [cbn; lra|].
  cbn [map lsum length]. rewrite S_INR, IH; lra.
Qed.

Lemma lsum_map_seq f n : lsum (map f (seq 0 n)) = Rsum n f.
Proof.
  induction n as [|n IH]; [reflexivity|].
  rewrite seq_S, map_app, lsum_app, IH. cbn. lra.
Qed.

Lemma lsum_map_seq_from f s n :
  lsum (map f (seq s n)) = Rsum n (fun i => f (s + i)%nat).
Proof.
  revert s. induction n as [|n IH]; intros s; [reflexivity|].
  rewrite seq_S, map_app, lsum_app, IH. cbn. lra.
Qed.

Lemma lsum_nth l : lsum l = Rsum (length l) (fun i => nth i l 0).
Proof.
  induction l as [|x l IH]; [reflexivity|].
  cbn [length lsum]. rewrite Rsum_S_l. cbn [nth]. now rewrite IH.
Qed.

Lemma lsum_map_nth {A} (f : A -> R) l d :
  lsum (map f l) = Rsum (length l) (fun i => f (nth i l d)).
Proof.
  induction l as [|x l IH]; [reflexivity|].
  cbn [length lsum map]. rewrite Rsum_S_l. cbn [nth]. now rewrite IH.
Qed.

Lemma lsum_filter {A} (f : A -> R) p l :
  lsum (map f (filter p l)) = lsum (map (fun x => if p x then f x else 0) l).
Proof.
  induction l as [|x l IH]; [reflexivity|]. cbn.
  destruct (p x); cbn; rewrite IH; lra.
Qed.

Lemma lsum_nonneg l : (forall x, In x l -> 0 <= x) -> 0 <= lsum l.
Proof.
  induction l as [|x l IH]; intros H; cbn; [lra|].
  assert (0 <= x) by (apply H; now left).
  assert (0 <= lsum l) by (apply IH; intros; apply H; now right). lra.
Qed.

Lemma lsum_flat_map {A B} (f : B -> R) (g : A -> list B) l :
  lsum (map f (flat_map g l)) = lsum (map (fun x => lsum (map f (g x))) l).
Proof.
  induction l as [|x l IH]; [reflexivity|].
  cbn. rewrite map_app, lsum_app, IH; reflexivity.
Qed.

Lemma lsum_concat_map {A} (f : A -> R) ll :
  lsum (map f (concat ll)) = lsum (map (fun l => lsum (map f l)) ll).
Proof.
  induction ll as [|l ll IH]; [reflexivity|].
  cbn. rewrite map_app, lsum_app, IH; reflexivity.
Qed.

Lemma lsum_Rsum_swap {A} n (f : A -> nat -> R) l :
  lsum (map (fun x => Rsum n (f x)) l) = Rsum n (fun i => lsum (map (fun x => f x i) l)).
Proof.
  induction l as [|x l IH]; cbn; [now rewrite Rsum_zero|].
  rewrite IH, <- Rsum_plus. reflexivity.
Qed.

(** Summing over the positions selected by a filter of [0..n-1]. *)
Lemma lsum_where n (p : nat -> bool) f :
  (forall i, (i < n)%nat -> p i = false -> f i = 0) ->
  lsum (map f (filter p (seq 0 n))) = Rsum n f.
Proof.
  intros H. rewrite lsum_filter, lsum_map_seq. apply Rsum_ext.
  intros i Hi. destruct (p i) eqn:E; [reflexivity|]. symmetry; auto.
Qed.

(* ------------------------------------------------------------------ *)
(** ** [Zsum] *)

Lemma Zsum_ext n f g :
  (forall i, (i < n)%nat -> f i = g i) -> Zsum n f = Zsum n g.
Proof.
  induction n as [|n IH]; intros H; cbn; [reflexivity|]. rewrite IH, H; auto.
Qed.

Lemma Zsum_nonneg n f :
  (forall i, (i < n)%nat -> (0 <= f i)%Z) -> (0 <= Zsum n f)%Z.
Proof.
  induction n as [|n IH]; intros H; cbn; [lia|].
  specialize (IH (fun i Hi => H i (Nat.lt_lt_succ_r _ _ Hi))).
  specialize (H n (Nat.lt_succ_diag_r n)); lia.
Qed.

Lemma Zsum_0 n f : (forall i, (i < n)%nat -> f i = 0%Z) -> Zsum n f = 0%Z.
Proof.
  induction n as [|n IH]; intros H; cbn; [reflexivity|].
  rewrite IH, H; auto.
Qed.

Lemma Zsum_plus n f g : Zsum n (fun i => f i + g i)%Z = (Zsum n f + Zsum n g)%Z.
Proof. induction n as [|n IH]; cbn; [lia|]. rewrite IH; lia. Qed.

Lemma Zsum_swap n m (f : nat -> nat -> Z) :
  Zsum n (fun i => Zsum m (fun j => f i j)) = Zsum m (fun j => Zsum n (fun i => f i j)).
Proof.
  induction n as [|n IH]; cbn; [symmetry; apply Zsum_0; auto|].
  rewrite IH, <- Zsum_plus; reflexivity.
Qed.

Lemma Zsum_app n m f :
  Zsum (n + m) f = (Zsum n f + Zsum m (fun i => f (n + i)%nat))%Z.
Proof.
  induction m as [|m IH]; [cbn; rewrite Nat.add_0_r; lia|].
  rewrite Nat.add_succ_r. cbn. rewrite IH; lia.
Qed.

Lemma Zsum_S_l n f : Zsum (S n) f = (f O + Zsum n (fun i => f (S i)))%Z.
Proof. change (S n) with (1 + n)%nat. rewrite Zsum_app. cbn. lia. Qed.

Lemma Zsum_mul K B f :
  Zsum (K * B) f = Zsum K (fun k => Zsum B (fun b => f (k * B + b)%nat)).
Proof.
  induction K as [|K IH]; [reflexivity|].
  cbn [Zsum]. rewrite <- IH.
  replace (S K * B)%nat with (K * B + B)%nat by lia. apply Zsum_app.
Qed.

Lemma Zsum_term_le n f i :
  (forall j, (j < n)%nat -> (0 <= f j)%Z) -> (i < n)%nat -> (f i <= Zsum n f)%Z.
Proof.
  induction n as [|n IH]; intros H Hi; [lia|]. cbn.
  destruct (Nat.eq_dec i n) as [->|Hne].
  - assert (0 <= Zsum n f)%Z by (apply Zsum_nonneg; intros; apply H; lia). lia.
  - assert (f i <= Zsum n f)%Z by (apply IH; [intros; apply H; lia|lia]).
    assert (0 <= f n)%Z by (apply H; lia). lia.
Qed.

Lemma IZR_Zsum n f : IZR (Zsum n f) = Rsum n (fun i => IZR (f i)).
Proof. induction n as [|n IH]; cbn; [reflexivity|]. rewrite plus_IZR, IH; reflexivity. Qed.

Lemma lsumZ_app l1 l2 : lsumZ (l1 ++ l2) = (lsumZ l1 + lsumZ l2)%Z.
Proof. induction l1 as [|x l IH]; cbn; [lia|]. rewrite IH; lia. Qed.

Lemma lsumZ_map_seq f n : lsumZ (map f (seq 0 n)) = Zsum n f.
Proof.
  induction n as [|n IH]; [reflexivity|].
  rewrite seq_S, map_app, lsumZ_app, IH. cbn. lia.
Qed.

Lemma lsumZ_map_nth {A} (f : A -> Z) l d :
  lsumZ (map f l) = Zsum (length l) (fun i => f (nth i l d)).
Proof.
  induction l as [|x l IH]; [reflexivity|].
  cbn [length lsumZ map]. rewrite Zsum_S_l. cbn [nth]. now rewrite IH.
Qed.

Lemma lsumZ_filter {A} (f : A -> Z) p l :
  lsumZ (map f (filter p l)) = lsumZ (map (fun x => if p x then f x else 0%Z) l).
Proof.
  induction l as [|x l IH]; [reflexivity|]. cbn.
  destruct (p x); cbn; rewrite IH; lia.
Qed.

Lemma lsumZ_where n (p : nat -> bool) f :
  (forall i, (i < n)%nat -> p i = false -> f i = 0%Z) ->
  lsumZ (map f (filter p (seq 0 n))) = Zsum n f.
Proof.
  intros H. rewrite lsumZ_filter, lsumZ_map_seq. apply Zsum_ext.
  intros i Hi. destruct (p i) eqn:E; [reflexivity|]. symmetry; auto.
Qed.

Lemma IZR_lsumZ l : IZR (lsumZ l) = lsum (map IZR l).
Proof. induction l as [|x l IH]; cbn; [reflexivity|]. rewrite plus_IZR, IH; reflexivity. Qed.

Lemma lsumZ_perm l1 l2 : Permutation l1 l2 -> lsumZ l1 = lsumZ l2.
Proof. induction 1; cbn; lia. Qed.

(* ------------------------------------------------------------------ *)
(** ** [upd] *)

Lemma upd_eq {A} (f : nat -> A) i x : upd f i x i = x.
Proof. unfold upd; now rewrite Nat.eqb_refl. Qed.
Lemma upd_neq {A} (f : nat -> A) i j x : j <> i -> upd f i x j = f j.
Proof. unfold upd; destruct (Nat.eqb_spec j i); congruence. Qed.
Lemma upd2_eq {A} (f : nat -> nat -> A) i j x : upd2 f i j x i j = x.
Proof. unfold upd2; now rewrite !Nat.eqb_refl. Qed.
Lemma upd2_neq {A} (f : nat -> nat -> A) i j a b x :
  a <> i \/ b <> j -> upd2 f i j x a b = f a b.
Proof.
  unfold upd2; intros H.
  destruct (Nat.eqb_spec a i), (Nat.eqb_spec b j); cbn; try reflexivity.
  destruct H; congruence.
Qed.

(* ------------------------------------------------------------------ *)
(** ** logarithm facts used throughout *)

Lemma ln_le_sub1 x : 0 < x -> ln x <= x - 1.
Proof.
  intros Hx. pose proof (exp_ineq1_le (x - 1)) as H.
  replace (1 + (x - 1)) with x in H by lra.
  destruct (Req_dec x (exp (x - 1))) as [E|N].
  - rewrite E at 1. rewrite ln_exp; lra.
  - assert (x < exp (x - 1)) by lra.
    apply Rlt_le. rewrite <- (ln_exp (x - 1)). apply ln_increasing; auto.
Qed.

Lemma ln_div x y : 0 < x -> 0 < y -> ln (x / y) = ln x - ln y.
Proof.
  intros Hx Hy. unfold Rdiv. rewrite ln_mult by (auto using Rinv_0_lt_compat).
  rewrite ln_Rinv by auto. lra.
Qed.

Lemma ln_le_mono x y : 0 < x -> x <= y -> ln x <= ln y.
Proof.
  intros Hx [H|E]; [left; apply ln_increasing; auto|right; now rewrite E].
Qed.

Lemma ln_lt_iff x y : 0 < x -> 0 < y -> (ln x < ln y <-> x < y).
Proof.
  intros Hx Hy; split; intros H; [apply ln_lt_inv; auto | apply ln_increasing; auto].
Qed.
