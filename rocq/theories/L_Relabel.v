(** * L_Relabel: sums over relabelled processes. *)
From Coq Require Import Permutation.
From Verif Require Import Prelude ExtReal Arrays Spec_Relabel.
Set Implicit Arguments.
Open Scope R_scope.

Lemma NoDup_map_in {A B} (f : A -> B) l :
  (forall x y, In x l -> In y l -> f x = f y -> x = y) -> NoDup l -> NoDup (map f l).
Proof.
  induction l as [|a l IH]; intros H N; [constructor|]. inversion N; subst. cbn. constructor.
  - intros Hin. apply in_map_iff in Hin. destruct Hin as (y & E & Hy).
    apply H in E; [subst; contradiction|now right|now left].
  - apply IH; auto. intros; apply H; auto; now right.
Qed.
Lemma relabelling_perm K s : relabelling K s -> Permutation (map s (seq 0 K)) (seq 0 K).
Proof.
  intros [H1 H2]. apply NoDup_Permutation_bis.
  - apply NoDup_map_in; [|apply seq_NoDup].
    intros x y Hx Hy E. apply in_seq in Hx, Hy. apply H2; [lia|lia|exact E].
  - rewrite map_length, seq_length. lia.
  - intros x Hx. apply in_map_iff in Hx. destruct Hx as (k & <- & Hk). apply in_seq in Hk.
    apply in_seq. pose proof (H1 k). lia.
Qed.
Lemma relabelling_onto K s j : relabelling K s -> (j < K)%nat -> exists i, (i < K)%nat /\ s i = j.
Proof.
  intros H Hj. pose proof (relabelling_perm H) as P.
  assert (In j (seq 0 K)) as Hin by (apply in_seq; lia).
  apply (Permutation_in _ (Permutation_sym P)) in Hin. apply in_map_iff in Hin.
  destruct Hin as (i & E & Hi). apply in_seq in Hi. exists i. split; [lia|exact E].
Qed.

Lemma Rsum_relabel K s f : relabelling K s -> Rsum K (fun k => f (s k)) = Rsum K f.
Proof.
  intros H. rewrite <- !lsum_map_seq, <- (map_map s f). apply lsum_perm, Permutation_map, relabelling_perm, H.
Qed.
Lemma Zsum_relabel K s f : relabelling K s -> Zsum K (fun k => f (s k)) = Zsum K f.
Proof.
  intros H. rewrite <- !lsumZ_map_seq, <- (map_map s f). apply lsumZ_perm, Permutation_map, relabelling_perm, H.
Qed.
Lemma esum_relabel K s f : relabelling K s -> esum K (fun k => f (s k)) = esum K f.
Proof.
  intros H. rewrite <- !elsum_map_seq, <- (map_map s f). apply elsum_perm, Permutation_map, relabelling_perm, H.
Qed.
Lemma forall_lt_relabel K s f : relabelling K s -> forall_lt K (fun k => f (s k)) = forall_lt K f.
Proof.
  intros H. destruct (forall_lt K f) eqn:E.
  - apply forall_lt_true. intros k Hk. rewrite forall_lt_true in E. apply E, H, Hk.
  - destruct (forall_lt K (fun k => f (s k))) eqn:E2; [|reflexivity].
    rewrite forall_lt_true in E2. rewrite <- E. symmetry. apply forall_lt_true. intros j Hj.
    destruct (relabelling_onto H Hj) as (i & Hi & <-). apply E2, Hi.
Qed.
Lemma forall_lt_ext n f g : (forall i, (i < n)%nat -> f i = g i) -> forall_lt n f = forall_lt n g.
Proof.
  intros H. destruct (forall_lt n g) eqn:E.
  - apply forall_lt_true. intros i Hi. rewrite H by auto. rewrite forall_lt_true in E. auto.
  - destruct (forall_lt n f) eqn:E2; [|reflexivity]. rewrite <- E. symmetry. apply forall_lt_true.
    intros i Hi. rewrite <- H by auto. rewrite forall_lt_true in E2. auto.
Qed.

(** Sums of relabelled arrays. *)
Lemma Rsum_as K s f g : relabelling K s -> vec_as K s f g -> Rsum K g = Rsum K f.
Proof. intros H E. rewrite (@Rsum_ext K g (fun k => f (s k))) by exact E. apply Rsum_relabel, H. Qed.
Lemma esum_as K s f g : relabelling K s -> vec_as K s f g -> esum K g = esum K f.
Proof. intros H E. rewrite (@esum_ext K g (fun k => f (s k))) by exact E. apply esum_relabel, H. Qed.
Lemma forall_as K s f g : relabelling K s -> vec_as K s f g -> forall_lt K g = forall_lt K f.
Proof. intros H E. rewrite (@forall_lt_ext K g (fun k => f (s k))) by exact E. apply forall_lt_relabel, H. Qed.
Lemma Rsum2_as K s f g : relabelling K s -> mat_as K s f g ->
  Rsum K (fun i => Rsum K (g i)) = Rsum K (fun i => Rsum K (f i)).
Proof.
  intros H E. apply (@Rsum_as K s (fun i => Rsum K (f i))); [exact H|]. intros i Hi.
  apply (@Rsum_as K s); [exact H|]. intros j Hj. apply E; auto.
Qed.
Lemma esum2_as K s f g : relabelling K s -> mat_as K s f g ->
  esum K (fun i => esum K (g i)) = esum K (fun i => esum K (f i)).
Proof.
  intros H E. apply (@esum_as K s (fun i => esum K (f i))); [exact H|]. intros i Hi.
  apply (@esum_as K s); [exact H|]. intros j Hj. apply E; auto.
Qed.
Lemma forall2_as K s f g : relabelling K s -> mat_as K s f g ->
  forall_lt K (fun i => forall_lt K (g i)) = forall_lt K (fun i => forall_lt K (f i)).
Proof.
  intros H E. apply (@forall_as K s (fun i => forall_lt K (f i))); [exact H|]. intros i Hi.
  apply (@forall_as K s); [exact H|]. intros j Hj. apply E; auto.
Qed.
Lemma relabelling_eqb K s i j : relabelling K s -> (i < K)%nat -> (j < K)%nat -> Nat.eqb (s i) (s j) = Nat.eqb i j.
Proof.
  intros [_ H2] Hi Hj. destruct (Nat.eqb_spec i j) as [->|N]; [apply Nat.eqb_refl|].
  apply Nat.eqb_neq. intros E. apply N, H2; auto.
Qed.
