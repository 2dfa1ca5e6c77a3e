(** * L_Workers: positions of the draws of a pool of workers. *)
From Coquelicot Require Import Coquelicot.
From Coq Require Import FunctionalExtensionality Permutation.
From Verif Require Import Prelude ExtReal Arrays M_Basis M_Parents M_Discrete M_Gibbs M_Dist M_Network M_Sweep M_Continuous M_Workers.
From Verif Require Import Spec_Gibbs Spec_Invariance Spec_Workers L_Gibbs L_Invariance.
Set Implicit Arguments.
Open Scope R_scope.

Definition freeb (p : vec) (k : nat) : bool := negb (Reqb (p k) 0) && negb (Reqb (p k) 1).
Fixpoint nfree (p : vec) (k : nat) : nat := match k with 0%nat => 0%nat | S k' => (nfree p k' + (if freeb p k' then 1 else 0))%nat end.

Lemma freeb_true P i j : freeb (fun k => P k j) i = true <-> free P i j.
Proof.
  unfold freeb, free. rewrite andb_true_iff, !negb_true_iff. unfold Reqb.
  destruct (Req_EM_T (P i j) 0), (Req_EM_T (P i j) 1); intuition congruence.
Qed.
Lemma nfree_le p i k : (i <= k)%nat -> (nfree p i <= nfree p k)%nat.
Proof. induction 1; cbn; [lia|]. destruct (freeb p m); lia. Qed.
Lemma nfree_lt p i k : (i < k)%nat -> freeb p i = true -> (nfree p i < nfree p k)%nat.
Proof. intros H Hf. pose proof (@nfree_le p (S i) k H). cbn in H0. rewrite Hf in H0. lia. Qed.
Lemma nfree_0 p i : (forall r, (r < i)%nat -> freeb p r = false) -> nfree p i = 0%nat.
Proof. induction i as [|i IH]; intros H; cbn; [reflexivity|]. rewrite IH, H by (try lia; intros; apply H; lia). reflexivity. Qed.

Lemma column_rng_spec ll p g K a pos :
  column_rng ll p g K a pos = (resample_column ll p (fun i => g (pos + nfree p i)%nat) K a, (pos + nfree p K)%nat).
Proof.
  unfold column_rng, resample_column. induction K as [|K IH]; [cbn; f_equal; lia|].
  rewrite seq_S, !fold_left_app, IH. change (0 + K)%nat with K. cbn [fold_left].
  set (a' := fold_left _ (seq 0 K) a). clearbody a'. unfold row_rng, col_step. cbn [nfree]. unfold freeb.
  destruct (Reqb (p K) 0); cbn [negb andb]; [now rewrite Nat.add_0_r|].
  destruct (Reqb (p K) 1); cbn [negb andb]; [now rewrite Nat.add_0_r|]. now rewrite Nat.add_assoc, Nat.add_1_r.
Qed.

(** Start positions of the columns. *)
Fixpoint starts (adv : nat -> nat) (sched : list (nat * nat)) (wpos : nat -> nat) : nat -> nat :=
  match sched with
  | [] => fun _ => 0%nat
  | (w, k2) :: rest => upd (starts adv rest (upd wpos w (wpos w + adv k2)%nat)) k2 (wpos w)
  end.
Lemma run_pool_spec (task : nat -> nat -> (nat -> bool) * nat) adv sched : (forall k2 pos, snd (task k2 pos) = (pos + adv k2)%nat) ->
  forall wpos cols, NoDup (map snd sched) ->
  fst (run_pool task sched wpos cols) = run_tasks (map snd sched) (fun k2 => fst (task k2 (starts adv sched wpos k2))) cols.
Proof.
  intros Hadv. induction sched as [|(w, k) rest IH]; intros wpos cols Hnd; [reflexivity|].
  cbn [map snd] in Hnd. inversion Hnd as [|? ? Hni Hnd']; subst. cbn [run_pool map snd starts run_tasks].
  pose proof (Hadv k (wpos w)) as Hk. destruct (task k (wpos w)) as [c pos] eqn:E. cbn [snd] in Hk. subst pos. rewrite IH by auto.
  rewrite upd_eq, E. cbn [fst]. apply functional_extensionality; intros k'. rewrite !run_tasks_spec.
  destruct (existsb (Nat.eqb k') (map snd rest)) eqn:Ex; [|reflexivity].
  rewrite upd_neq; [reflexivity|]. intros ->. apply existsb_exists in Ex as (x & Hx & Hxe). apply Nat.eqb_eq in Hxe. subst. contradiction.
Qed.
Lemma run_pool_pos (task : nat -> nat -> (nat -> bool) * nat) adv : (forall k2 pos, snd (task k2 pos) = (pos + adv k2)%nat) ->
  forall n c pos cols wpos, wpos 0%nat = pos -> snd (run_pool task (map (fun k2 => (0%nat, k2)) (seq c n)) wpos cols) 0%nat = fold_left (fun s k => (s + adv k)%nat) (seq c n) pos.
Proof.
  intros Hadv. induction n as [|n IH]; intros c pos cols wpos Hw; cbn [seq map run_pool fold_left]; [exact Hw|].
  pose proof (Hadv c (wpos 0%nat)) as Hk. destruct (task c (wpos 0%nat)) as [x pos'] eqn:E. cbn [snd] in Hk. subst pos'. apply IH. rewrite upd_eq. now rewrite Hw.
Qed.

(** Columns served by one worker start after the positions it has used before. *)
Lemma starts_ge adv sched : forall wpos w c, In (w, c) sched -> NoDup (map snd sched) -> (wpos w <= starts adv sched wpos c)%nat.
Proof.
  induction sched as [|(w', c') rest IH]; intros wpos w c Hin Hnd; [contradiction|]. cbn [starts]. cbn [map snd] in Hnd. inversion Hnd as [|? ? Hni Hnd']; subst.
  destruct Hin as [E|Hin].
  - injection E as -> ->. rewrite upd_eq. lia.
  - rewrite upd_neq by (intros ->; apply Hni, in_map_iff; exists (w, c'); auto).
    etransitivity; [|apply IH with (w := w); auto]. destruct (Nat.eq_dec w w') as [->|Hne]; [rewrite upd_eq; lia|rewrite upd_neq by auto; lia].
Qed.
Lemma starts_sep adv sched : forall wpos w c c', In (w, c) sched -> In (w, c') sched -> c <> c' -> NoDup (map snd sched) ->
  (starts adv sched wpos c + adv c <= starts adv sched wpos c' \/ starts adv sched wpos c' + adv c' <= starts adv sched wpos c)%nat.
Proof.
  induction sched as [|(w0, c0) rest IH]; intros wpos w c c' H1 H2 Hne Hnd; [contradiction|]. cbn [starts]. cbn [map snd] in Hnd. inversion Hnd as [|? ? Hni Hnd']; subst.
  assert (Hin : forall x, In (w, x) rest -> x <> c0) by (intros x Hx ->; apply Hni, in_map_iff; exists (w, c0); auto).
  destruct H1 as [E1|H1], H2 as [E2|H2].
  - congruence.
  - injection E1 as -> ->. rewrite upd_eq, (upd_neq _ _ (Hin c' H2)). left. etransitivity; [|apply (@starts_ge adv rest _ w c' H2 Hnd')]. rewrite upd_eq. lia.
  - injection E2 as -> ->. rewrite upd_eq, (upd_neq _ _ (Hin c H1)). right. etransitivity; [|apply (@starts_ge adv rest _ w c H1 Hnd')]. rewrite upd_eq. lia.
  - rewrite (upd_neq _ _ (Hin c H1)), (upd_neq _ _ (Hin c' H2)). eapply IH; eauto.
Qed.
Lemma starts_first adv sched : forall wpos w c, serves_first w c sched -> NoDup (map snd sched) -> starts adv sched wpos c = wpos w.
Proof.
  intros wpos w c (pre & post & -> & Hpre). revert wpos. induction pre as [|(w', c') pre IH]; intros wpos Hnd; cbn [app starts].
  - now rewrite upd_eq.
  - cbn [app map snd] in Hnd. inversion Hnd as [|? ? Hni Hnd']; subst.
    rewrite upd_neq by (intros ->; apply Hni, in_map_iff; exists (w, c'); split; [reflexivity|apply in_or_app; right; now left]).
    rewrite IH by (auto; intros x Hx; apply (Hpre x); now right).
    apply upd_neq. intros ->. apply (Hpre c'). now left.
Qed.

(** ** The parallel update with a generator is the update with the uniforms found at known positions. *)
Definition sched_of (how : pool) (K : nat) : list (nat * nat) := match how with InProcess => map (fun k2 => (0%nat, k2)) (seq 0 K) | Forked s => s end.
Definition draw_pos (how : pool) (P : mat) (K pos k1 k2 : nat) : nat :=
  (starts (fun k => nfree (fun i => P i k) K) (sched_of how K) (fun _ => pos) k2 + nfree (fun i => P i k2) k1)%nat.
Lemma snd_sched K : map snd (map (fun k2 : nat => (0%nat, k2)) (seq 0 K)) = seq 0 K.
Proof. rewrite map_map. cbn. apply map_id. Qed.
Lemma parallel_rng_spec how ll P g K A pos : NoDup (map snd (sched_of how K)) ->
  fst (parallel_rng how ll P g K A pos) = ct_A_parallel (map snd (sched_of how K)) ll P (fun k1 k2 => g (draw_pos how P K pos k1 k2)) K A.
Proof.
  intros Hnd. unfold parallel_rng, ct_A_parallel.
  set (task := fun k2 => column_rng (ll k2) (fun k1 => P k1 k2) g K (fun k1 => A k1 k2)).
  set (adv := fun k => nfree (fun i => P i k) K).
  assert (Hadv : forall k2 p, snd (task k2 p) = (p + adv k2)%nat) by (intros; unfold task; now rewrite column_rng_spec).
  assert (E : forall sched, NoDup (map snd sched) -> fst (run_pool task sched (fun _ => pos) (fun _ _ => false)) =
     run_tasks (map snd sched) (fun k2 => resample_column (ll k2) (fun k1 => P k1 k2) (fun k1 => g (starts adv sched (fun _ => pos) k2 + nfree (fun i => P i k2) k1)%nat) K (fun k1 => A k1 k2)) (fun _ _ => false)).
  { intros sched Hs. rewrite (@run_pool_spec task adv sched Hadv _ _ Hs). f_equal. apply functional_extensionality; intros k2. unfold task. now rewrite column_rng_spec. }
  destruct how as [|sched]; cbn [sched_of] in *.
  - specialize (E _ Hnd). destruct (run_pool task _ _ _) as [cols wp]. cbn [fst] in *. rewrite E. reflexivity.
  - specialize (E _ Hnd). destruct (run_pool task _ _ _) as [cols wp]. cbn [fst] in *. rewrite E. reflexivity.
Qed.
Definition pool_end (how : pool) (P : mat) (K pos : nat) : nat :=
  match how with InProcess => fold_left (fun s k => (s + nfree (fun i => P i k) K)%nat) (seq 0 K) pos | Forked _ => pos end.
Lemma parallel_rng_pos how ll P g K A pos : snd (parallel_rng how ll P g K A pos) = pool_end how P K pos.
Proof.
  unfold parallel_rng. destruct how as [|sched]; cbn [pool_end].
  - set (task := fun k2 => column_rng (ll k2) (fun k1 => P k1 k2) g K (fun k1 => A k1 k2)).
    rewrite <- (@run_pool_pos task (fun k => nfree (fun i => P i k) K) (fun k2 p => f_equal snd (column_rng_spec _ _ _ _ _ _)) K 0 pos (fun _ _ => false) (fun _ => pos) eq_refl).
    destruct (run_pool task _ _ _) as [cols wp]. reflexivity.
  - destruct (run_pool _ _ _ _) as [cols wp]. reflexivity.
Qed.
(** Free edges in columns of one worker are decided by different numbers. *)
Lemma draw_pos_inj how P K pos w i c i' c' : NoDup (map snd (sched_of how K)) -> In (w, c) (sched_of how K) -> In (w, c') (sched_of how K) ->
  (i < K)%nat -> (i' < K)%nat -> free P i c -> free P i' c' -> draw_pos how P K pos i c = draw_pos how P K pos i' c' -> i = i' /\ c = c'.
Proof.
  intros Hnd H1 H2 Hi Hi' Hf Hf' E. unfold draw_pos in E. set (adv := fun k => nfree (fun i => P i k) K) in *.
  apply freeb_true in Hf, Hf'. pose proof (@nfree_lt _ i K Hi Hf). pose proof (@nfree_lt _ i' K Hi' Hf').
  destruct (Nat.eq_dec c c') as [->|Hne].
  - split; [|reflexivity]. destruct (lt_eq_lt_dec i i') as [[Hl|Hl]|Hl]; [|exact Hl|].
    + pose proof (@nfree_lt _ i i' Hl Hf). lia.
    + pose proof (@nfree_lt _ i' i Hl Hf'). lia.
  - exfalso. destruct (@starts_sep adv (sched_of how K) (fun _ => pos) w c c' H1 H2 Hne Hnd); unfold adv in *; lia.
Qed.
