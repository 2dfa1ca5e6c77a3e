(** * C101: every edge is decided by its own random number. *)
From Coquelicot Require Import Coquelicot.
From Coq Require Import FunctionalExtensionality Permutation.
From Verif Require Import Prelude ExtReal Arrays M_Basis M_Parents M_Discrete M_Gibbs M_Dist M_Network M_Sweep M_Continuous M_Workers.
From Verif Require Import Spec_Gibbs Spec_Gamma Spec_Continuous Spec_Invariance Spec_Workers L_Invariance L_Workers L_Gibbs L_Sweep L_Continuous.
From Verif Require Import Props_Discrete Props_Gibbs Props_Network Props_Continuous Props_Continuous2 Props_Continuous3 Props_Continuous4 Props_Invariance.
Set Implicit Arguments.
Open Scope R_scope.

(* ------------------------------------------------------------------ *)
(** ** Means over a stream *)
Lemma stream_of_mean (idx : nat -> nat -> nat) (all : list (nat * nat)) (G : mat -> R) :
  (forall i j i' j', In (i, j) all -> In (i', j') all -> idx i j = idx i' j' -> (i, j) = (i', j')) ->
  (forall u u' : mat, (forall i j, In (i, j) all -> u i j = u' i j) -> G u = G u') ->
  forall cs, (forall c, In c cs -> In c all) -> forall u g v, (forall i j, In (i, j) all -> u i j = g (idx i j)) ->
  is_mean cs G u v -> stream_mean (map (fun c => idx (fst c) (snd c)) cs) (fun g => G (fun i j => g (idx i j))) g v.
Proof.
  intros Hinj HG. induction cs as [|(i, j) cs IH]; intros Hin u g v Hu Hm; cbn [map stream_mean is_mean fst snd] in *.
  - rewrite Hm. now apply HG.
  - destruct Hm as (h & Hh & Hr). exists h. split; [|exact Hr]. intros x Hx. apply IH with (u := upd2 u i j x); [intros; apply Hin; now right| |now apply Hh].
    intros a b Hab. unfold upd2, upd. destruct (Nat.eqb_spec (idx a b) (idx i j)) as [E|E].
    + assert (Ec : (a, b) = (i, j)) by (apply Hinj; auto; apply Hin; now left). injection Ec as -> ->. now rewrite !Nat.eqb_refl.
    + destruct (Nat.eqb_spec a i), (Nat.eqb_spec b j); cbn [andb]; try (now apply Hu). subst. congruence.
Qed.
(** Entries the function does not depend on need not be averaged. *)
Lemma is_mean_drop (keep : nat * nat -> bool) (G : mat -> R) :
  (forall u i j x, keep (i, j) = false -> G (upd2 u i j x) = G u) ->
  forall cs, NoDup cs -> forall u v, is_mean cs G u v -> is_mean (filter keep cs) G u v.
Proof.
  intros HG. induction cs as [|(i, j) cs IH]; intros Hnd u v Hm; cbn [filter is_mean] in *; [exact Hm|].
  inversion Hnd as [|? ? Hni Hnd']; subst. destruct Hm as (h & Hh & Hr). destruct (keep (i, j)) eqn:Ek.
  - exists h. split; [|exact Hr]. intros x Hx. apply IH; auto.
  - assert (Hall : forall x, 0 < x < 1 -> is_mean (filter keep cs) G u (h x)).
    { intros x Hx. specialize (IH Hnd' _ _ (Hh x Hx)).
      assert (Hind : forall l u' w, is_mean l G (upd2 u' i j x) w -> (forall c, In c l -> c <> (i, j)) -> is_mean l G u' w).
      { clear -HG Ek. induction l as [|(a, b) l IHl]; intros u' w H Hl; cbn [is_mean] in *; [now rewrite H, HG|].
        destruct H as (h' & Hh' & Hr'). exists h'. split; [|exact Hr']. intros y Hy. apply IHl; [|intros; apply Hl; now right].
        rewrite upd2_swap by (apply Hl; now left). now apply Hh'. }
      apply (Hind _ _ _ IH). intros c Hc ->. apply filter_In in Hc as (Hc & _). contradiction. }
    assert (Ec : forall x, 0 < x < 1 -> h x = h (1/2)) by (intros x Hx; apply (@is_mean_unique _ _ _ _ _ (Hall x Hx)), Hall; lra).
    replace v with (h (1/2)); [apply Hall; lra|].
    assert (Hc : is_RInt (fun _ => h (1/2)) 0 1 v).
    { eapply is_RInt_ext; [|exact Hr]. rewrite Rmin_left, Rmax_right by lra. intros x Hx. now apply Ec. }
    apply (@is_RInt_unique R_CompleteNormedModule) in Hc. rewrite <- Hc, RInt_const. unfold scal; cbn; unfold mult; cbn. ring.
Qed.

(* ------------------------------------------------------------------ *)
(** ** The columns one after the other *)
Definition col_pairs (K : nat) : list (nat * nat) := flat_map (fun j => map (fun i => (i, j)) (seq 0 K)) (seq 0 K).
Lemma in_col_pairs K i j : In (i, j) (col_pairs K) <-> (i < K)%nat /\ (j < K)%nat.
Proof.
  unfold col_pairs. rewrite in_flat_map. split.
  - intros (c & Hc & Hi). apply in_map_iff in Hi as (r & E & Hr). injection E as -> ->. apply in_seq in Hc, Hr. lia.
  - intros (Hi & Hj). exists j. split; [apply in_seq; lia|]. apply in_map_iff. exists i. split; [reflexivity|]. apply in_seq. lia.
Qed.
Lemma col_pairs_NoDup K : NoDup (col_pairs K).
Proof.
  unfold col_pairs. assert (G : forall l : list nat, NoDup l -> NoDup (flat_map (fun j => map (fun i => (i, j)) (seq 0 K)) l)).
  { induction 1 as [|j l Hj Hl IH]; cbn; [constructor|].
    assert (G : forall r, NoDup r -> NoDup (map (fun i : nat => (i, j)) r ++ flat_map (fun j => map (fun i => (i, j)) (seq 0 K)) l)).
    { induction 1 as [|i r Hi Hr IHr]; cbn; [exact IH|]. constructor; [|exact IHr]. rewrite in_app_iff, in_map_iff, in_flat_map.
      intros [(z & E & Hz)|(c & Hc & Hz)]; [congruence|]. apply in_map_iff in Hz as (z & E & _). congruence. }
    apply G, seq_NoDup. }
  apply G, seq_NoDup.
Qed.
Lemma scan_col K q u A A' c : sequential K q u A A' -> (c < K)%nat ->
  forall n r S, (r + n = K)%nat -> (forall i j, (i < K)%nat -> (j < K)%nat -> S i j = if (Nat.ltb j c || (Nat.eqb j c && Nat.ltb i r))%bool then A' i j else A i j) ->
  forall i j, (i < K)%nat -> (j < K)%nat -> scan q (map (fun y => (y, c)) (seq r n)) u S i j = if Nat.ltb j (c + 1) then A' i j else A i j.
Proof.
  intros Hseq Hc. induction n as [|n IH]; intros r S Hr HS i j Hi Hj; cbn [seq map].
  - unfold scan; cbn [fold_left]. rewrite HS by auto. destruct (Nat.ltb_spec j c), (Nat.eqb_spec j c), (Nat.ltb_spec j (c + 1)), (Nat.ltb_spec i r); cbn [orb andb]; try reflexivity; lia.
  - unfold scan. cbn [fold_left fst snd]. fold (scan q (map (fun y => (y, c)) (seq (Datatypes.S r) n)) u (upd2 S r c (Rltb (u r c) (q r c S)))).
    apply IH; auto; [lia|]. intros a b Ha Hb. unfold upd2.
    destruct (Nat.eqb_spec b c) as [->|Hne]; destruct (Nat.eqb_spec a r) as [->|Hna]; cbn [andb].
    + rewrite Nat.ltb_irrefl. cbn [orb]. rewrite (proj2 (Nat.ltb_lt r (Datatypes.S r))) by lia.
      assert (HM : A' r c = true <-> u r c < q r c S).
      { apply Hseq; auto. intros a Ha'. rewrite HS by auto. rewrite Nat.ltb_irrefl, Nat.eqb_refl. reflexivity. }
      destruct (A' r c) eqn:E.
      * apply Rltb_true. now apply HM.
      * apply Rltb_false. destruct (Rlt_dec (u r c) (q r c S)) as [Hl|Hl]; [apply HM in Hl; discriminate|lra].
    + rewrite HS by auto. rewrite Nat.eqb_refl, Nat.ltb_irrefl. cbn [orb andb].
      destruct (Nat.ltb_spec a r), (Nat.ltb_spec a (Datatypes.S r)); try reflexivity; lia.
    + rewrite HS by auto. rewrite (proj2 (Nat.eqb_neq b c)) by auto. reflexivity.
    + rewrite HS by auto. rewrite (proj2 (Nat.eqb_neq b c)) by auto. reflexivity.
Qed.
Lemma sequential_scan_cols K q u A A' : sequential K q u A A' ->
  forall i j, (i < K)%nat -> (j < K)%nat -> A' i j = scan q (col_pairs K) u A i j.
Proof.
  intros Hseq.
  assert (G : forall n c S, (c + n = K)%nat -> (forall i j, (i < K)%nat -> (j < K)%nat -> S i j = if Nat.ltb j c then A' i j else A i j) ->
    forall i j, (i < K)%nat -> (j < K)%nat -> scan q (flat_map (fun j => map (fun i => (i, j)) (seq 0 K)) (seq c n)) u S i j = A' i j).
  { induction n as [|n IH]; intros c S Hc HS i j Hi Hj; cbn [seq flat_map].
    - unfold scan; cbn [fold_left]. rewrite HS by auto. destruct (Nat.ltb_spec j c); [reflexivity|lia].
    - rewrite scan_app. apply IH; auto; [lia|]. intros a b Ha Hb. rewrite (@scan_col K q u A A' c Hseq) by (auto; try lia; intros i' j' Hi' Hj'; rewrite HS by auto; rewrite (proj2 (Nat.ltb_ge i' 0)), andb_false_r, orb_false_r by lia; reflexivity).
      replace (c + 1)%nat with (Datatypes.S c) by lia. reflexivity. }
  intros i j Hi Hj. symmetry. unfold col_pairs. apply (G K 0%nat A); auto.
Qed.

(* ------------------------------------------------------------------ *)
(** ** An update that reads its uniforms from distinct positions of a stream leaves the posterior invariant *)
Lemma stream_invariant K P (L : bmat -> R) F (upd : bmat -> mat -> bmat) idx cs (keep : nat * nat -> bool) :
  let q := fun i j M => edge_posterior (P i j) (L (upd2 M i j false)) (L (upd2 M i j true)) in
  (forall i j, (i < K)%nat -> (j < K)%nat -> 0 <= P i j <= 1) -> on_nodes K F ->
  (forall A u, (forall i j, (i < K)%nat -> (j < K)%nat -> 0 < u i j < 1) -> sequential K q u A (upd A u)) ->
  (forall u A A', sequential K q u A A' -> forall i j, (i < K)%nat -> (j < K)%nat -> A' i j = scan q cs u A i j) ->
  NoDup cs -> (forall i j, In (i, j) cs <-> (i < K)%nat /\ (j < K)%nat) ->
  (forall A u u', (forall i j, (i < K)%nat -> (j < K)%nat -> keep (i, j) = true -> u i j = u' i j) -> F (upd A u) = F (upd A u')) ->
  (forall i j i' j', In (i, j) (filter keep cs) -> In (i', j') (filter keep cs) -> idx i j = idx i' j' -> (i, j) = (i', j')) ->
  exists e : bmat -> R,
    (forall A g, stream_mean (map (fun c => idx (fst c) (snd c)) (filter keep cs)) (fun g => F (upd A (fun i j => g (idx i j)))) g (e A)) /\
    over_networks K (fun A => exp (L A) * edge_prior K P A * e A) = over_networks K (fun A => exp (L A) * edge_prior K P A * F A).
Proof.
  intros q HP HF Hs Hscan Hnd Hcs Hdep Hinj. exists (kern q cs F). split.
  - intros A g. apply (@stream_of_mean idx (filter keep cs) (fun u => F (upd A u)) Hinj) with (u := fun i j => g (idx i j)); auto.
    { intros u u' Hu. apply Hdep. intros i j Hi Hj Hk. apply Hu, filter_In. split; [now apply Hcs|exact Hk]. }
    apply is_mean_drop; auto.
    { intros u i j x Hk. apply Hdep. intros a b _ _ Hab. apply upd2_neq. destruct (Nat.eq_dec a i); [|now left]. right. intros ->. subst. congruence. }
    eapply is_mean_ext; [exact Hnd| |apply (@scan_mean q cs F Hnd)].
    + intros u' Hu'. cbv beta. apply HF. intros i j Hi Hj. symmetry. apply Hscan; auto. apply Hs.
      intros a b Ha Hb. apply (proj1 (Hu' a b)). now apply Hcs.
    + intros i j B Hin. apply edge_posterior_unit. apply Hcs in Hin as (Hi & Hj). auto.
  - unfold over_networks. apply (@scan_invariant q (pairs K) (fun A => exp (L A) * edge_prior K P A) F (fun _ _ => false) (pairs_NoDup K)); auto.
    + intros i j B b _. unfold q. now rewrite !upd2_same.
    + intros i j B Hin. apply edge_balance; auto. apply in_pairs in Hin as (Hi & Hj). auto.
    + intros (i, j) Hin. apply in_pairs. now apply Hcs.
Qed.

(** Positions in the calling process: consecutive. *)
Lemma column_positions p st n : map (fun i => (st + nfree p i)%nat) (filter (freeb p) (seq 0 n)) = seq st (nfree p n).
Proof.
  induction n as [|n IH]; [reflexivity|]. rewrite seq_S, filter_app, map_app, IH. change (0 + n)%nat with n. cbn [filter nfree]. destruct (freeb p n); cbn [map].
  - now rewrite Nat.add_1_r, seq_S.
  - now rewrite Nat.add_0_r, app_nil_r.
Qed.
Lemma in_process_positions adv : forall n c wpos,
  flat_map (fun j => seq (starts adv (map (fun k2 => (0%nat, k2)) (seq c n)) wpos j) (adv j)) (seq c n) =
  seq (wpos 0%nat) (fold_left (fun s k => (s + adv k)%nat) (seq c n) (wpos 0%nat) - wpos 0%nat).
Proof.
  induction n as [|n IH]; intros c wpos; cbn [seq map flat_map starts fold_left]; [now rewrite Nat.sub_diag|]. rewrite upd_eq.
  specialize (IH (Datatypes.S c) (upd wpos 0%nat (wpos 0%nat + adv c)%nat)). rewrite upd_eq in IH.
  assert (Hge : forall l s, (s <= fold_left (fun s k => (s + adv k)%nat) l s)%nat) by (induction l as [|x l IHl]; intros s; cbn; [lia|]; etransitivity; [|apply IHl]; lia).
  specialize (Hge (seq (Datatypes.S c) n) (wpos 0%nat + adv c)%nat).
  set (tot := fold_left _ _ _) in *. replace (tot - wpos 0%nat)%nat with (adv c + (tot - (wpos 0%nat + adv c)))%nat by lia.
  rewrite seq_app. f_equal. rewrite <- IH. rewrite !flat_map_concat_map. f_equal. apply map_ext_in. intros j Hj. apply in_seq in Hj. rewrite upd_neq by lia. reflexivity.
Qed.
Definition free_cell (P : mat) (c : nat * nat) : bool := freeb (fun i => P i (snd c)) (fst c).
Lemma in_process_map P K pos :
  map (fun c => draw_pos InProcess P K pos (fst c) (snd c)) (filter (free_cell P) (col_pairs K)) = seq pos (pool_end InProcess P K pos - pos).
Proof.
  cbn [pool_end]. rewrite <- (@in_process_positions (fun k => nfree (fun i => P i k) K) K 0%nat (fun _ => pos)). unfold col_pairs.
  assert (G : forall l, map (fun c => draw_pos InProcess P K pos (fst c) (snd c)) (filter (free_cell P) (flat_map (fun j => map (fun i => (i, j)) (seq 0 K)) l)) =
    flat_map (fun j => seq (starts (fun k => nfree (fun i => P i k) K) (map (fun k2 => (0%nat, k2)) (seq 0 K)) (fun _ => pos) j) (nfree (fun i => P i j) K)) l).
  { induction l as [|j l IH]; [reflexivity|]. cbn [flat_map]. rewrite filter_app, map_app, IH. f_equal. rewrite <- column_positions.
    generalize (seq 0 K) at 1 3. intros r. induction r as [|i r IHr]; [reflexivity|]. cbn [map filter]. unfold free_cell at 1. cbn [fst snd].
    destruct (freeb (fun i0 => P i0 j) i); cbn [map]; [|exact IHr]. rewrite IHr. reflexivity. }
  apply G.
Qed.
Lemma row_positions K pos : map (fun c => (pos + (fst c * K + snd c))%nat) (pairs K) = seq pos (K * K).
Proof.
  unfold pairs. assert (G : forall n r, map (fun c => (pos + (fst c * K + snd c))%nat) (list_prod (seq r n) (seq 0 K)) = seq (pos + r * K)%nat (n * K)).
  { induction n as [|n IH]; intros r; [reflexivity|]. cbn [seq list_prod]. rewrite map_app, IH. change (Datatypes.S n * K)%nat with (K + n * K)%nat. rewrite seq_app. f_equal; [|f_equal; lia].
    rewrite map_map. cbn [fst snd]. clear. assert (G : forall m s, map (fun x => (pos + (r * K + x))%nat) (seq s m) = seq (pos + r * K + s)%nat m).
    { induction m as [|m IH]; intros s; [reflexivity|]. cbn [seq map]. rewrite IH. f_equal; [lia|f_equal; lia]. }
    rewrite G. f_equal. lia. }
  rewrite G. f_equal. lia.
Qed.
(** The parallel update looks only at the uniforms of free edges. *)
Lemma resample_column_free ll p u u' K a : (forall i, (i < K)%nat -> freeb p i = true -> u i = u' i) -> resample_column ll p u K a = resample_column ll p u' K a.
Proof.
  intros H. unfold resample_column. assert (G : forall l, (forall i, In i l -> (i < K)%nat) -> forall a, fold_left (fun a' k1 => col_step ll p u a' k1) l a = fold_left (fun a' k1 => col_step ll p u' a' k1) l a).
  { induction l as [|i l IH]; intros Hl b; [reflexivity|]. cbn [fold_left]. rewrite IH by (intros; apply Hl; now right). f_equal. unfold col_step.
    specialize (H i (Hl i (or_introl eq_refl))). unfold freeb in H. destruct (Reqb (p i) 0); [reflexivity|]. destruct (Reqb (p i) 1); [reflexivity|]. now rewrite H. }
  apply G. intros i Hi. apply in_seq in Hi. lia.
Qed.
Lemma ct_A_parallel_free order ll P u u' K A : (forall i j, (i < K)%nat -> (j < K)%nat -> freeb (fun k => P k j) i = true -> u i j = u' i j) ->
  forall i j, (j < K)%nat -> ct_A_parallel order ll P u K A i j = ct_A_parallel order ll P u' K A i j.
Proof.
  intros H i j Hj. unfold ct_A_parallel. rewrite !run_tasks_spec. destruct (existsb (Nat.eqb j) order); [|reflexivity].
  rewrite (@resample_column_free (ll j) (fun k1 => P k1 j) (fun k1 => u k1 j) (fun k1 => u' k1 j)); [reflexivity|]. intros k Hk Hf. now apply H.
Qed.

(* ------------------------------------------------------------------ *)
(** ** C101 *)
Lemma dt_sequential m n L : dm_mix m = false -> nonneg_params m -> good_data m (dm_data m) ->
  (forall i j, (i < dm_K m)%nat -> (j < dm_K m)%nat -> 0 <= n_P n i j <= 1) -> (forall A, log_likelihood (with_A m A) All = Ok (Fin (L A))) ->
  forall (parallel : bool) order A u, Permutation order (seq 0 (dm_K m)) -> (forall i j, (i < dm_K m)%nat -> (j < dm_K m)%nat -> 0 < u i j < 1) ->
  sequential (dm_K m) (fun i j M => edge_posterior (n_P n i j) (L (upd2 M i j false)) (L (upd2 M i j true))) u A
    (if parallel then resample_A_parallel order (with_A m A) n u (dm_data m) else resample_A_serial (with_A m A) n u (dm_data m)).
Proof.
  intros Hm Hn Hd HP EL parallel order A u Ho Hu k1 k2 M H1 H2 HM.
  destruct (@C25_edges_from_posterior parallel order (with_A m A) n u Hm Hn Hd) with (k1 := k1) (k2 := k2) (M := M) as (L0 & L1 & E0 & E1 & EA); auto.
  { intros i j Hi Hj. split; [specialize (Hu i j Hi Hj); split; lra|auto]. }
  change (with_A (with_A m A) (upd2 M k1 k2 false)) with (with_A m (upd2 M k1 k2 false)) in E0.
  change (with_A (with_A m A) (upd2 M k1 k2 true)) with (with_A m (upd2 M k1 k2 true)) in E1.
  rewrite EL in E0, E1. injection E0 as <-. injection E1 as <-. exact EA.
Qed.
Lemma ll_exists m : nonneg_params m -> good_data m (dm_data m) -> exists L : bmat -> R, forall A, log_likelihood (with_A m A) All = Ok (Fin (L A)).
Proof.
  intros Hn Hd.
  assert (HL : forall A, exists l, log_likelihood (with_A m A) All = Ok (Fin l)).
  { intros A. apply C13_training_finite; [exact Hn|]. intros d Hin. destruct (Hd d Hin) as (H1 & H2 & H3 & H4). auto. }
  exists (fun A => match log_likelihood (with_A m A) All with Ok (Fin l) => l | _ => 0 end). intros A. destruct (HL A) as (l & ->). reflexivity.
Qed.
Lemma row_idx_inj K pos i j i' j' : In (i, j) (pairs K) -> In (i', j') (pairs K) -> (pos + (i * K + j) = pos + (i' * K + j'))%nat -> (i, j) = (i', j').
Proof.
  intros H H' E. apply in_pairs in H as (Hi & Hj), H' as (Hi' & Hj').
  assert (i = i') by nia. subst i'. f_equal. nia.
Qed.

(** In the calling process - serial update, or parallel update on one core, or no data - the update reads consecutive
    numbers of the generator, moves it past them, and leaves the posterior invariant when these numbers are independent
    uniforms: the mean of every statistic F of the network is the same before and after. *)
Theorem C101_in_process_invariant_partial :
  forall m n pos, dm_mix m = false -> nonneg_params m -> good_data m (dm_data m) ->
  (forall i j, (i < dm_K m)%nat -> (j < dm_K m)%nat -> 0 <= n_P n i j <= 1) ->
  exists L : bmat -> R, (forall A, log_likelihood (with_A m A) All = Ok (Fin (L A))) /\
  forall (parallel : bool) (F : bmat -> R), on_nodes (dm_K m) F ->
  let update A g := if parallel then joblib_A InProcess (with_A m A) n (dm_data m) g pos else serial_A (with_A m A) n (dm_data m) g pos in
  let posterior A := exp (L A) * edge_prior (dm_K m) (n_P n) A in
  exists pos', (forall A g, snd (update A g) = pos') /\
  exists e : bmat -> R, (forall A g, stream_mean (seq pos (pos' - pos)) (fun g => F (fst (update A g))) g (e A)) /\
    over_networks (dm_K m) (fun A => posterior A * e A) = over_networks (dm_K m) (fun A => posterior A * F A).
Proof.
  intros m n pos Hm Hn Hd HP. destruct (ll_exists Hn Hd) as (L & EL). exists L. split; [exact EL|].
  intros parallel F HF update posterior. set (K := dm_K m) in *. set (P := n_P n) in *.
  pose proof (@dt_sequential m n L Hm Hn Hd HP EL) as Hseq. fold K P in Hseq.
  assert (Hrow : forall (upd : bmat -> mat -> bmat),
    (forall A u, (forall i j, (i < K)%nat -> (j < K)%nat -> 0 < u i j < 1) -> sequential K (fun i j M => edge_posterior (P i j) (L (upd2 M i j false)) (L (upd2 M i j true))) u A (upd A u)) ->
    (forall A u u', (forall i j, (i < K)%nat -> (j < K)%nat -> u i j = u' i j) -> F (upd A u) = F (upd A u')) ->
    exists e : bmat -> R, (forall A g, stream_mean (seq pos (pos + K * K - pos)) (fun g => F (upd A (fun i j => g (pos + (i * K + j))%nat))) g (e A)) /\
      over_networks K (fun A => posterior A * e A) = over_networks K (fun A => posterior A * F A)).
  { intros upd Hs Hdep. destruct (@stream_invariant K P L F upd (fun i j => (pos + (i * K + j))%nat) (pairs K) (fun _ => true) HP HF Hs) as (e & He & Hinv).
    - intros u A A' H. now apply sequential_scan.
    - apply pairs_NoDup.
    - intros i j. apply in_pairs.
    - intros A u u' H. apply Hdep. auto.
    - intros i j i' j' H H'. apply filter_In in H as (H & _), H' as (H' & _). now apply row_idx_inj with (K := K).
    - exists e. split; [|exact Hinv]. intros A g. specialize (He A g).
      assert (Ef : forall l : list (nat * nat), filter (fun _ => true) l = l) by (induction l as [|x l IH]; cbn; [reflexivity|now rewrite IH]).
      rewrite Ef, row_positions in He. replace (pos + K * K - pos)%nat with (K * K)%nat by lia. exact He. }
  destruct parallel.
  - destruct (dm_data m) as [|d0 data] eqn:Edata.
    + exists (pos + K * K)%nat. split; [reflexivity|].
      destruct (Hrow (fun _ u k1 k2 => Rltb (u k1 k2) (P k1 k2))) as (e & He & Hinv).
      * intros A u Hu. apply (Hseq true (seq 0 K) A u (Permutation_refl _) Hu).
      * intros A u u' Hu. apply HF. intros i j Hi Hj. now rewrite Hu.
      * exists e. split; [exact He|exact Hinv].
    + rewrite <- Edata in *.
      assert (Eu : forall A g, update A g = parallel_rng InProcess (par_ll m (dm_data m)) P g K A pos) by (intros; unfold update, joblib_A; rewrite Edata; reflexivity).
      exists (pool_end InProcess P K pos). split; [intros A g; rewrite Eu; apply parallel_rng_pos|].
      assert (Hnd : NoDup (map snd (sched_of InProcess K))) by (cbn [sched_of]; rewrite snd_sched; apply seq_NoDup).
      set (upd := fun A u => ct_A_parallel (seq 0 K) (par_ll m (dm_data m)) P u K A).
      destruct (@stream_invariant K P L F upd (draw_pos InProcess P K pos) (col_pairs K) (free_cell P) HP HF) as (e & He & Hinv).
      * intros A u Hu. pose proof (Hseq true (seq 0 K) A u (Permutation_refl _) Hu) as H. unfold resample_A_parallel in H. rewrite Edata in H. unfold upd, ct_A_parallel. rewrite Edata. exact H.
      * intros u A A' H. now apply sequential_scan_cols.
      * apply col_pairs_NoDup.
      * intros i j. apply in_col_pairs.
      * intros A u u' H. apply HF. intros i j Hi Hj. apply ct_A_parallel_free; auto.
      * intros i j i' j' H H' E. apply filter_In in H as (H & Hf), H' as (H' & Hf'). apply in_col_pairs in H as (Hi & Hj), H' as (Hi' & Hj').
        apply freeb_true in Hf, Hf'. cbn [fst snd] in Hf, Hf'.
        destruct (@draw_pos_inj InProcess P K pos 0%nat i j i' j' Hnd) as (-> & ->); auto; cbn [sched_of]; apply in_map_iff; eexists; (split; [reflexivity|]); apply in_seq; lia.
      * exists e. split; [|exact Hinv]. intros A g. specialize (He A g). rewrite in_process_map in He.
        replace (fun g0 => F (fst (update A g0))) with (fun g0 => F (upd A (fun i j => g0 (draw_pos InProcess P K pos i j)))); [exact He|].
        apply functional_extensionality; intros g0. rewrite Eu, parallel_rng_spec by exact Hnd. cbn [sched_of]. rewrite snd_sched. reflexivity.
  - exists (pos + K * K)%nat. split; [reflexivity|].
    destruct (Hrow (fun A u => resample_A_serial (with_A m A) n u (dm_data m))) as (e & He & Hinv).
    + intros A u Hu. apply (Hseq false (seq 0 K) A u (Permutation_refl _) Hu).
    + intros A u u' Hu. apply HF. intros i j Hi Hj. unfold resample_A_serial.
      assert (G : forall l r A0, (forall i, In i r -> (i < K)%nat) -> (forall i, In i l -> (i < K)%nat) ->
         fold_left (fun A' k1 => fold_left (fun A'' k2 => edge_step (data_ll (with_A m A) (dm_data m)) P u A'' k1 k2) r A') l A0 =
         fold_left (fun A' k1 => fold_left (fun A'' k2 => edge_step (data_ll (with_A m A) (dm_data m)) P u' A'' k1 k2) r A') l A0).
      { intros l r. induction l as [|k1 l IH]; intros A0 Hr Hl; [reflexivity|]. cbn [fold_left].
        assert (Er : forall r', (forall i, In i r' -> (i < K)%nat) -> forall A1, fold_left (fun A'' k2 => edge_step (data_ll (with_A m A) (dm_data m)) P u A'' k1 k2) r' A1 =
           fold_left (fun A'' k2 => edge_step (data_ll (with_A m A) (dm_data m)) P u' A'' k1 k2) r' A1).
        { induction r' as [|k2 r' IHr]; intros Hr' A1; [reflexivity|]. cbn [fold_left]. rewrite IHr by (intros; apply Hr'; now right). f_equal.
          unfold edge_step. rewrite Hu; [reflexivity|apply Hl; now left|apply Hr'; now left]. }
        rewrite Er by auto. apply IH; auto. intros; apply Hl; now right. }
      unfold serial_sweep. change (n_P n) with P. change (dm_K (with_A m A)) with K. rewrite G; [reflexivity| |]; intros x Hx; apply in_seq in Hx; lia.
    + exists e. split; [exact He|exact Hinv].
Qed.
Print Assumptions C101_in_process_invariant_partial.

(** ** Forked workers *)
Fixpoint fill (cs : list (nat * nat)) (B A : bmat) : bmat :=
  match cs with [] => A | (i, j) :: cs' => fill cs' B (upd2 A i j (B i j)) end.
Lemma over_ge cs F : (forall B, 0 <= F B) -> forall B A, F (fill cs B A) <= over_cells cs A F.
Proof.
  intros HF. assert (H0 : forall cs A, 0 <= over_cells cs A F). { induction cs0 as [|(i, j) cs0 IH]; intros A; cbn; [apply HF|]. pose proof (IH (upd2 A i j false)). pose proof (IH (upd2 A i j true)). lra. }
  induction cs as [|(i, j) cs IH]; intros B A; cbn [fill over_cells]; [lra|]. pose proof (IH B (upd2 A i j (B i j))).
  pose proof (H0 cs (upd2 A i j false)). pose proof (H0 cs (upd2 A i j true)). destruct (B i j); lra.
Qed.
Lemma fill_in cs B : forall A i j, (In (i, j) cs -> fill cs B A i j = B i j) /\ (~ In (i, j) cs -> fill cs B A i j = A i j).
Proof.
  induction cs as [|(a, b) cs IH]; intros A i j; cbn [fill]; [split; [contradiction|auto]|]. destruct (IH (upd2 A a b (B a b)) i j) as (H1 & H2). split.
  - intros Hin. destruct (in_dec cell_dec (i, j) cs) as [H|H]; [auto|]. rewrite H2 by auto. destruct Hin as [E|]; [|contradiction]. injection E as -> ->. apply upd2_eq.
  - intros Hn. rewrite H2 by (intros H; apply Hn; now right). apply upd2_neq. destruct (Nat.eq_dec i a); [|now left]. right. intros ->. subst. apply Hn. now left.
Qed.
Lemma over_networks_pos K (F : bmat -> R) B : (forall A, 0 <= F A) -> (forall A, (forall i j, (i < K)%nat -> (j < K)%nat -> A i j = B i j) -> 0 < F A) -> 0 < over_networks K F.
Proof.
  intros H0 HB. unfold over_networks. eapply Rlt_le_trans; [|apply over_ge with (B := B); exact H0]. apply HB. intros i j Hi Hj. apply fill_in. apply in_pairs. auto.
Qed.
Lemma prod_pos (f : nat * nat -> R) cs : (forall c, In c cs -> 0 < f c) -> 0 < fold_right Rmult 1 (map f cs).
Proof. induction cs as [|c cs IH]; intros H; cbn; [lra|]. apply Rmult_lt_0_compat; [apply H; now left|apply IH; intros; apply H; now right]. Qed.
Lemma prod_nonneg (f : nat * nat -> R) cs : (forall c, In c cs -> 0 <= f c) -> 0 <= fold_right Rmult 1 (map f cs).
Proof. induction cs as [|c cs IH]; intros H; cbn; [lra|]. apply Rmult_le_pos; [apply H; now left|apply IH; intros; apply H; now right]. Qed.

(** A network with edge e and without edge f, both free, has positive posterior probability. *)
Lemma posterior_mass K P (L : bmat -> R) (e f : nat * nat) : (forall i j, (i < K)%nat -> (j < K)%nat -> 0 <= P i j <= 1) ->
  In e (pairs K) -> In f (pairs K) -> e <> f -> free P (fst e) (snd e) -> free P (fst f) (snd f) ->
  0 < over_networks K (fun A => exp (L A) * edge_prior K P A * (if (A (fst e) (snd e) && negb (A (fst f) (snd f)))%bool then 1 else 0)).
Proof.
  intros HP He Hf Hne Fe Ff.
  pose (B := fun i j => if cell_dec (i, j) e then true else if cell_dec (i, j) f then false else if Req_EM_T (P i j) 1 then true else false).
  assert (Hpr : forall A, 0 <= edge_prior K P A).
  { intros A. unfold edge_prior. apply prod_nonneg. intros (i, j) Hin. apply in_pairs in Hin as (Hi & Hj). specialize (HP i j Hi Hj). cbn [fst snd]. destruct (A i j); lra. }
  apply (@over_networks_pos K _ B).
  - intros A. apply Rmult_le_pos; [apply Rmult_le_pos; [left; apply exp_pos|apply Hpr]|]. destruct (_ && _)%bool; lra.
  - intros A HA. assert (EA : forall c, In c (pairs K) -> A (fst c) (snd c) = B (fst c) (snd c)) by (intros (i, j) Hin; apply in_pairs in Hin as (Hi & Hj); now apply HA).
    rewrite (EA e He), (EA f Hf). assert (Be : B (fst e) (snd e) = true) by (unfold B; destruct e; cbn; destruct (cell_dec _ _); congruence).
    assert (Bf : B (fst f) (snd f) = false) by (unfold B; destruct f as [a b], e as [a' b']; cbn [fst snd]; destruct (cell_dec (a, b) (a', b')); [congruence|]; destruct (cell_dec (a, b) (a, b)); congruence).
    rewrite Be, Bf. cbn [andb negb]. rewrite Rmult_1_r. apply Rmult_lt_0_compat; [apply exp_pos|]. unfold edge_prior. apply prod_pos.
    intros (i, j) Hin. rewrite (EA (i, j) Hin). apply in_pairs in Hin as (Hi & Hj). specialize (HP i j Hi Hj). cbn [fst snd]. unfold B.
    destruct (cell_dec (i, j) e) as [E|E].
    + subst e. cbn [fst snd] in Fe. destruct Fe. lra.
    + destruct (cell_dec (i, j) f) as [E'|E']; [subst f; cbn [fst snd] in Ff; destruct Ff; lra|]. destruct (Req_EM_T (P i j) 1); lra.
Qed.
Lemma edge_posterior_open p l0 l1 : 0 < p < 1 -> 0 < edge_posterior p l0 l1 < 1.
Proof.
  intros Hp. unfold edge_posterior. pose proof (exp_pos l0). pose proof (exp_pos l1).
  assert (0 < p * exp l1) by (apply Rmult_lt_0_compat; lra). assert (0 < (1 - p) * exp l0) by (apply Rmult_lt_0_compat; lra).
  split; [apply Rdiv_lt_0_compat; lra|]. apply Rmult_lt_reg_r with (p * exp l1 + (1 - p) * exp l0); [lra|]. unfold Rdiv. rewrite Rmult_assoc, Rinv_l by lra. lra.
Qed.
(** In a sequential update the first free edge of a column has a probability that no draw influences. *)
Lemma first_edge K P (L : bmat -> R) A c i : (forall i j, (i < K)%nat -> (j < K)%nat -> 0 <= P i j <= 1) -> (c < K)%nat -> first_free K P c i ->
  exists q1, 0 < q1 < 1 /\ forall u A', (forall i j, 0 < u i j < 1) ->
    sequential K (fun i j M => edge_posterior (P i j) (L (upd2 M i j false)) (L (upd2 M i j true))) u A A' -> (A' i c = true <-> u i c < q1).
Proof.
  intros HP Hc (Hi & (Hf0 & Hf1) & Hfirst).
  pose (M := fun a (b : nat) => if Nat.ltb a i then (if Req_EM_T (P a b) 1 then true else false) else A a b).
  exists (edge_posterior (P i c) (L (upd2 M i c false)) (L (upd2 M i c true))). split.
  { apply edge_posterior_open. specialize (HP i c Hi Hc). lra. }
  intros u A' Hu Hs. apply Hs; auto. intros r Hr. unfold M. destruct (Nat.ltb_spec r i) as [Hl|Hl]; [|reflexivity].
  pose (M' := fun a (b : nat) => if Nat.ltb a r then A' a b else A a b).
  destruct (Hs r c M' Hr Hc) as (H1 & H2); [reflexivity|]. unfold edge_posterior in H1, H2.
  pose proof (exp_pos (L (upd2 M' r c false))) as X0. pose proof (exp_pos (L (upd2 M' r c true))) as X1. specialize (Hu r c).
  assert (Hnf : P r c = 0 \/ P r c = 1). { destruct (Req_EM_T (P r c) 0); [now left|]. destruct (Req_EM_T (P r c) 1); [now right|]. exfalso. apply (Hfirst r Hl). split; auto. }
  destruct (Req_EM_T (P r c) 1) as [E|E].
  - symmetry. apply H2. rewrite E. match goal with |- _ < ?x => replace x with 1; [lra|] end. field. lra.
  - assert (E0 : P r c = 0) by (destruct Hnf; [auto|contradiction]). destruct (A' r c) eqn:EA; [|reflexivity]. exfalso.
    specialize (H1 eq_refl). rewrite E0 in H1. match type of H1 with _ < ?x => replace x with 0 in H1; [lra|] end. field. lra.
Qed.
Lemma serves_first_in w c sched : serves_first w c sched -> In (w, c) sched.
Proof. intros (pre & post & -> & _). apply in_or_app. right. now left. Qed.
Lemma sched_worker (sched : list (nat * nat)) w w' c : NoDup (map snd sched) -> In (w, c) sched -> In (w', c) sched -> w = w'.
Proof.
  induction sched as [|(w0, c0) s IH]; cbn [map snd]; intros Hnd H H'; [contradiction|]. inversion Hnd as [|? ? Hni Hnd']; subst.
  destruct H as [E|H], H' as [E'|H'].
  - congruence.
  - injection E as -> ->. exfalso. apply Hni, in_map_iff. exists (w', c). auto.
  - injection E' as -> ->. exfalso. apply Hni, in_map_iff. exists (w, c). auto.
  - now apply IH.
Qed.
(** Two first tasks read the same number. *)
Lemma first_draw sched P K pos w c i : NoDup (map snd sched) -> serves_first w c sched -> first_free K P c i -> draw_pos (Forked sched) P K pos i c = pos.
Proof.
  intros Hnd Hs (_ & _ & Hf). unfold draw_pos. cbn [sched_of]. rewrite (@starts_first _ sched _ w c Hs Hnd). cbv beta.
  rewrite nfree_0; [lia|]. intros r Hr. specialize (Hf r Hr). destruct (freeb _ r) eqn:E; [|reflexivity]. exfalso. apply Hf. now apply freeb_true.
Qed.
Lemma shared_draw K P (L : bmat -> R) (A : bmat) (new : vec -> bmat) pos w1 w2 c1 c2 i1 i2 sched :
  (forall i j, (i < K)%nat -> (j < K)%nat -> 0 <= P i j <= 1) -> Permutation (map snd sched) (seq 0 K) -> w1 <> w2 ->
  serves_first w1 c1 sched -> serves_first w2 c2 sched -> first_free K P c1 i1 -> first_free K P c2 i2 ->
  (forall g, unit_stream g -> sequential K (fun i j M => edge_posterior (P i j) (L (upd2 M i j false)) (L (upd2 M i j true)))
      (fun i j => g (draw_pos (Forked sched) P K pos i j)) A (new g)) ->
  (exists q1 q2, 0 < q1 < 1 /\ 0 < q2 < 1 /\ forall g, unit_stream g -> (new g i1 c1 = true <-> g pos < q1) /\ (new g i2 c2 = true <-> g pos < q2)) /\
  exists e f, (e = (i1, c1) /\ f = (i2, c2) \/ e = (i2, c2) /\ f = (i1, c1)) /\
    (forall g, unit_stream g -> ~ (new g (fst e) (snd e) = true /\ new g (fst f) (snd f) = false)) /\
    0 < over_networks K (fun B => exp (L B) * edge_prior K P B * (if (B (fst e) (snd e) && negb (B (fst f) (snd f)))%bool then 1 else 0)).
Proof.
  intros HP Ho Hw S1 S2 F1 F2 Hs.
  assert (Hnd : NoDup (map snd sched)) by (eapply Permutation_NoDup; [apply Permutation_sym; exact Ho|apply seq_NoDup]).
  assert (Hcol : forall w c, In (w, c) sched -> (c < K)%nat).
  { intros w c H. assert (Hc : In c (seq 0 K)) by (eapply Permutation_in; [exact Ho|]; apply in_map_iff; exists (w, c); auto). apply in_seq in Hc. lia. }
  pose proof (serves_first_in S1) as I1. pose proof (serves_first_in S2) as I2. pose proof (Hcol _ _ I1) as C1. pose proof (Hcol _ _ I2) as C2.
  assert (Hc : c1 <> c2) by (intros E; subst c2; apply Hw; eapply sched_worker; eauto).
  destruct (@first_edge K P L A c1 i1 HP C1 F1) as (q1 & B1 & Q1). destruct (@first_edge K P L A c2 i2 HP C2 F2) as (q2 & B2 & Q2).
  assert (Q : forall g, unit_stream g -> (new g i1 c1 = true <-> g pos < q1) /\ (new g i2 c2 = true <-> g pos < q2)).
  { intros g Hg. specialize (Hs g Hg). specialize (Q1 _ _ (fun i j => Hg _) Hs). specialize (Q2 _ _ (fun i j => Hg _) Hs). cbv beta in Q1, Q2.
    rewrite (first_draw pos Hnd S1 F1) in Q1. rewrite (first_draw pos Hnd S2 F2) in Q2. auto. }
  split; [exists q1, q2; auto|].
  assert (P1 : In (i1, c1) (pairs K)) by (apply in_pairs; destruct F1; auto). assert (P2 : In (i2, c2) (pairs K)) by (apply in_pairs; destruct F2; auto).
  destruct (Rle_dec q1 q2) as [Hq|Hq].
  - exists (i1, c1), (i2, c2). split; [auto|]. split; [|apply posterior_mass; auto; [congruence|apply F1|apply F2]].
    intros g Hg (E1 & E2). cbn [fst snd] in E1, E2. destruct (Q g Hg) as (X1 & X2). assert (new g i2 c2 = true) by (apply X2; apply X1 in E1; lra). congruence.
  - exists (i2, c2), (i1, c1). split; [auto|]. split; [|apply posterior_mass; auto; [congruence|apply F2|apply F1]].
    intros g Hg (E1 & E2). cbn [fst snd] in E1, E2. destruct (Q g Hg) as (X1 & X2). assert (new g i1 c1 = true) by (apply X1; apply X2 in E1; lra). congruence.
Qed.

(** The default (parallel) update of the spike-and-slab model, whatever the model, the data and the schedule, as soon as two
    forked workers each meet a free edge in their first column: both edges are decided by one number - which is also the next
    number the caller will draw - so one combination of the two edges never occurs, although the posterior gives it positive
    probability.  The update does not leave the posterior invariant. *)
Theorem C101_forked_workers_share_draws_refuted :
  forall m n sched pos w1 w2 c1 c2 i1 i2, dm_mix m = false -> nonneg_params m -> good_data m (dm_data m) -> dm_data m <> [] ->
  (forall i j, (i < dm_K m)%nat -> (j < dm_K m)%nat -> 0 <= n_P n i j <= 1) ->
  Permutation (map snd sched) (seq 0 (dm_K m)) -> w1 <> w2 -> serves_first w1 c1 sched -> serves_first w2 c2 sched ->
  first_free (dm_K m) (n_P n) c1 i1 -> first_free (dm_K m) (n_P n) c2 i2 ->
  exists L : bmat -> R, (forall A, log_likelihood (with_A m A) All = Ok (Fin (L A))) /\
  let update g := joblib_A (Forked sched) m n (dm_data m) g pos in
  let posterior A := exp (L A) * edge_prior (dm_K m) (n_P n) A in
  (forall g, snd (update g) = pos) /\
  (exists q1 q2, 0 < q1 < 1 /\ 0 < q2 < 1 /\
     forall g, unit_stream g -> (fst (update g) i1 c1 = true <-> g pos < q1) /\ (fst (update g) i2 c2 = true <-> g pos < q2)) /\
  exists e f, (e = (i1, c1) /\ f = (i2, c2) \/ e = (i2, c2) /\ f = (i1, c1)) /\
    (forall g, unit_stream g -> ~ (fst (update g) (fst e) (snd e) = true /\ fst (update g) (fst f) (snd f) = false)) /\
    0 < over_networks (dm_K m) (fun A => posterior A * (if (A (fst e) (snd e) && negb (A (fst f) (snd f)))%bool then 1 else 0)).
Proof.
  intros m n sched pos w1 w2 c1 c2 i1 i2 Hm Hn Hd Hne HP Ho Hw S1 S2 F1 F2. destruct (ll_exists Hn Hd) as (L & EL). exists L. split; [exact EL|].
  intros update posterior.
  assert (Eu : forall g, update g = parallel_rng (Forked sched) (par_ll m (dm_data m)) (n_P n) g (dm_K m) (dm_A m) pos) by (intros; unfold update, joblib_A; destruct (dm_data m); [congruence|reflexivity]).
  split; [intros g; rewrite Eu; apply (@parallel_rng_pos (Forked sched))|].
  assert (Hnd : NoDup (map snd sched)) by (eapply Permutation_NoDup; [apply Permutation_sym; exact Ho|apply seq_NoDup]).
  apply (@shared_draw (dm_K m) (n_P n) L (dm_A m) (fun g => fst (update g)) pos w1 w2 c1 c2 i1 i2 sched HP Ho Hw S1 S2 F1 F2).
  intros g Hg. pose proof (@dt_sequential m n L Hm Hn Hd HP EL true (map snd sched) (dm_A m) (fun i j => g (draw_pos (Forked sched) (n_P n) (dm_K m) pos i j)) Ho (fun i j _ _ => Hg _)) as H.
  rewrite Eu, (@parallel_rng_spec (Forked sched)) by exact Hnd. cbn [sched_of]. unfold resample_A_parallel in H. unfold ct_A_parallel.
  destruct (dm_data m); [congruence|]. exact H.
Qed.
Print Assumptions C101_forked_workers_share_draws_refuted.

(** ** Continuous time *)
Lemma ct_sequential m data norder : cm_par m = true -> net_ok (cm_K m) (cm_net m) -> params_ok m ->
  (forall d, In d data -> data_ok (cm_K m) d /\ Permutation (norder d) (seq 0 (cd_N d))) ->
  let P := n_P (net_view (cm_net m)) in
  let L A := lsum (map (hawkes_loglik (ct_with_A m A)) data) in
  forall order A u, data <> [] -> Permutation order (seq 0 (cm_K m)) -> (forall i j, (i < cm_K m)%nat -> (j < cm_K m)%nat -> 0 < u i j < 1) ->
  sequential (cm_K m) (fun i j M => edge_posterior (P i j) (L (upd2 M i j false)) (L (upd2 M i j true))) u A
    (ct_A_parallel order (ct_ll_single m (fun d => ct_irs (norder d) m d) data) P u (cm_K m) A).
Proof.
  intros Hpar Hnet (Hlam & HW & Htau) Hd P L order A u Hne Ho Hu k1 k2 M H1 H2 HM.
  assert (HWr : forall nt B, ct_W_resample (fun i j _ _ => cm_W m i j) nt B data = cm_W m).
  { intros nt B. apply functional_extensionality; intros i; apply functional_extensionality; intros j. unfold ct_W_resample. now destruct (ct_W_request nt B data i j). }
  destruct (@C76_edges_from_posterior order norder (fun i j _ _ => cm_W m i j) u (ct_with_A m A) data Hnet Hlam Htau Hd) as (_ & Hp); [|exact Ho| |].
  { intros i j Hi Hj. pose proof (Hu i j Hi Hj). split; lra. }
  { intros i j Hi Hj. change (0 <= ct_W_resample (fun i j _ _ => cm_W m i j) (net_view (cm_net m)) A data i j). rewrite HWr. now apply HW. }
  assert (EA : cm_A (ct_weights_resample order norder (fun i j _ _ => cm_W m i j) u (ct_with_A m A) data) =
     ct_A_parallel order (ct_ll_single m (fun d => ct_irs (norder d) m d) data) P u (cm_K m) A).
  { unfold ct_weights_resample. cbn [ct_with_A cm_set cm_net cm_A cm_par cm_K cm_W cm_lam cm_mu cm_tau cm_data]. rewrite Hpar.
    destruct data as [|d0 rest]; [congruence|]. rewrite HWr. reflexivity. }
  rewrite EA in Hp. destruct (Hp k1 k2 M H1 H2 HM) as (_ & E).
  assert (EW : forall b, ct_with_A (ct_weights_resample order norder (fun i j _ _ => cm_W m i j) u (ct_with_A m A) data) (upd2 M k1 k2 b) = ct_with_A m (upd2 M k1 k2 b)).
  { intros b. unfold ct_weights_resample. cbn [ct_with_A cm_set cm_net cm_A cm_par cm_K cm_W cm_lam cm_mu cm_tau cm_data cm_dtmax]. rewrite HWr. destruct m; reflexivity. }
  rewrite !EW in E. exact E.
Qed.
(** One core: consecutive numbers, posterior invariant (data present; the weights in m are the ones just drawn). *)
Theorem C101_continuous_in_process_invariant_partial :
  forall m data norder pos, cm_par m = true -> net_ok (cm_K m) (cm_net m) -> params_ok m -> data <> [] ->
  (forall d, In d data -> data_ok (cm_K m) d /\ Permutation (norder d) (seq 0 (cd_N d))) ->
  let P := n_P (net_view (cm_net m)) in
  let L A := lsum (map (hawkes_loglik (ct_with_A m A)) data) in
  (forall A, ct_log_likelihood norder (ct_with_A m A) (Some data) = Fin (L A)) /\
  forall F, on_nodes (cm_K m) F ->
  let update A g := ct_joblib_A InProcess norder (ct_with_A m A) data g pos in
  let posterior A := exp (L A) * edge_prior (cm_K m) P A in
  exists pos', (forall A g, snd (update A g) = pos') /\
  exists e : bmat -> R, (forall A g, stream_mean (seq pos (pos' - pos)) (fun g => F (fst (update A g))) g (e A)) /\
    over_networks (cm_K m) (fun A => posterior A * e A) = over_networks (cm_K m) (fun A => posterior A * F A).
Proof.
  intros m data norder pos Hpar Hnet Hp Hne Hd P L. split.
  { intros A. destruct Hp as (Hlam & HW & Htau). apply (@C62_log_likelihood norder (ct_with_A m A) data); [|intros d Hin; destruct (Hd d Hin); auto]. split; [exact Hlam|split; [exact HW|exact Htau]]. }
  intros F HF update posterior. set (K := cm_K m) in *.
  assert (HP : forall i j, (i < K)%nat -> (j < K)%nat -> 0 <= P i j <= 1) by (intros i j Hi Hj; pose proof (@net_view_ok _ _ Hnet) as (_ & Hv); now apply Hv).
  pose proof (@ct_sequential m data norder Hpar Hnet Hp Hd) as Hseq. cbv zeta in Hseq. fold K P in Hseq.
  set (ll := ct_ll_single m (fun d => ct_irs (norder d) m d) data) in *.
  assert (Eu : forall A g, update A g = parallel_rng InProcess ll P g K A pos) by (intros; unfold update, ct_joblib_A; destruct data; [congruence|reflexivity]).
  exists (pool_end InProcess P K pos). split; [intros A g; rewrite Eu; apply parallel_rng_pos|].
  assert (Hnd : NoDup (map snd (sched_of InProcess K))) by (cbn [sched_of]; rewrite snd_sched; apply seq_NoDup).
  set (upd := fun A u => ct_A_parallel (seq 0 K) ll P u K A).
  destruct (@stream_invariant K P L F upd (draw_pos InProcess P K pos) (col_pairs K) (free_cell P) HP HF) as (e & He & Hinv).
  - intros A u Hu. exact (Hseq (seq 0 K) A u Hne (Permutation_refl _) Hu).
  - intros u A A' H. now apply sequential_scan_cols.
  - apply col_pairs_NoDup.
  - intros i j. apply in_col_pairs.
  - intros A u u' H. apply HF. intros i j Hi Hj. apply ct_A_parallel_free; auto.
  - intros i j i' j' H H' E. apply filter_In in H as (H & Hf), H' as (H' & Hf'). apply in_col_pairs in H as (Hi & Hj), H' as (Hi' & Hj').
    apply freeb_true in Hf, Hf'. cbn [fst snd] in Hf, Hf'.
    destruct (@draw_pos_inj InProcess P K pos 0%nat i j i' j' Hnd) as (-> & ->); auto; cbn [sched_of]; apply in_map_iff; eexists; (split; [reflexivity|]); apply in_seq; lia.
  - exists e. split; [|exact Hinv]. intros A g. specialize (He A g). rewrite in_process_map in He.
    replace (fun g0 => F (fst (update A g0))) with (fun g0 => F (upd A (fun i j => g0 (draw_pos InProcess P K pos i j)))); [exact He|].
    apply functional_extensionality; intros g0. rewrite Eu, parallel_rng_spec by exact Hnd. cbn [sched_of]. rewrite snd_sched. reflexivity.
Qed.
Print Assumptions C101_continuous_in_process_invariant_partial.

(** Forked workers of the continuous-time model: the same defect. *)
Theorem C101_continuous_forked_workers_refuted :
  forall m data norder sched pos w1 w2 c1 c2 i1 i2, cm_par m = true -> net_ok (cm_K m) (cm_net m) -> params_ok m -> data <> [] ->
  (forall d, In d data -> data_ok (cm_K m) d /\ Permutation (norder d) (seq 0 (cd_N d))) ->
  let P := n_P (net_view (cm_net m)) in
  Permutation (map snd sched) (seq 0 (cm_K m)) -> w1 <> w2 -> serves_first w1 c1 sched -> serves_first w2 c2 sched ->
  first_free (cm_K m) P c1 i1 -> first_free (cm_K m) P c2 i2 ->
  let L A := lsum (map (hawkes_loglik (ct_with_A m A)) data) in
  let update g := ct_joblib_A (Forked sched) norder m data g pos in
  let posterior A := exp (L A) * edge_prior (cm_K m) P A in
  (forall g, snd (update g) = pos) /\
  (exists q1 q2, 0 < q1 < 1 /\ 0 < q2 < 1 /\
     forall g, unit_stream g -> (fst (update g) i1 c1 = true <-> g pos < q1) /\ (fst (update g) i2 c2 = true <-> g pos < q2)) /\
  exists e f, (e = (i1, c1) /\ f = (i2, c2) \/ e = (i2, c2) /\ f = (i1, c1)) /\
    (forall g, unit_stream g -> ~ (fst (update g) (fst e) (snd e) = true /\ fst (update g) (fst f) (snd f) = false)) /\
    0 < over_networks (cm_K m) (fun A => posterior A * (if (A (fst e) (snd e) && negb (A (fst f) (snd f)))%bool then 1 else 0)).
Proof.
  intros m data norder sched pos w1 w2 c1 c2 i1 i2 Hpar Hnet Hp Hne Hd P Ho Hw S1 S2 F1 F2 L update posterior.
  set (ll := ct_ll_single m (fun d => ct_irs (norder d) m d) data).
  assert (Eu : forall g, update g = parallel_rng (Forked sched) ll P g (cm_K m) (cm_A m) pos) by (intros; unfold update, ct_joblib_A; destruct data; [congruence|reflexivity]).
  split; [intros g; rewrite Eu; apply (@parallel_rng_pos (Forked sched))|].
  assert (Hnd : NoDup (map snd sched)) by (eapply Permutation_NoDup; [apply Permutation_sym; exact Ho|apply seq_NoDup]).
  assert (HP : forall i j, (i < cm_K m)%nat -> (j < cm_K m)%nat -> 0 <= P i j <= 1) by (intros i j Hi Hj; pose proof (@net_view_ok _ _ Hnet) as (_ & Hv); now apply Hv).
  apply (@shared_draw (cm_K m) P L (cm_A m) (fun g => fst (update g)) pos w1 w2 c1 c2 i1 i2 sched HP Ho Hw S1 S2 F1 F2).
  intros g Hg. rewrite Eu, (@parallel_rng_spec (Forked sched)) by exact Hnd. cbn [sched_of].
  exact (@ct_sequential m data norder Hpar Hnet Hp Hd (map snd sched) (cm_A m) (fun i j => g (draw_pos (Forked sched) P (cm_K m) pos i j)) Hne Ho (fun i j _ _ => Hg _)).
Qed.
Print Assumptions C101_continuous_forked_workers_refuted.

(** What remains true of forked workers: the edges of the columns one worker serves are decided by different numbers. *)
Theorem C101_same_worker_partial :
  forall m n sched pos, dm_data m <> [] -> Permutation (map snd sched) (seq 0 (dm_K m)) ->
  exists idx : nat -> nat -> nat,
    (forall g, fst (joblib_A (Forked sched) m n (dm_data m) g pos) = resample_A_parallel (map snd sched) m n (fun k1 k2 => g (idx k1 k2)) (dm_data m)) /\
    forall w c c' i i', In (w, c) sched -> In (w, c') sched -> (i < dm_K m)%nat -> (i' < dm_K m)%nat -> free (n_P n) i c -> free (n_P n) i' c' ->
      idx i c = idx i' c' -> i = i' /\ c = c'.
Proof.
  intros m n sched pos Hne Ho. assert (Hnd : NoDup (map snd sched)) by (eapply Permutation_NoDup; [apply Permutation_sym; exact Ho|apply seq_NoDup]).
  exists (draw_pos (Forked sched) (n_P n) (dm_K m) pos). split.
  - intros g. unfold joblib_A, resample_A_parallel. destruct (dm_data m); [congruence|]. now rewrite (@parallel_rng_spec (Forked sched)) by exact Hnd.
  - intros w c c' i i' H H' Hi Hi' Hf Hf' E. now apply (@draw_pos_inj (Forked sched) (n_P n) (dm_K m) pos w i c i' c').
Qed.
Print Assumptions C101_same_worker_partial.

(** The hypotheses can be met: two processes, two workers, one column each; both the discrete- and the continuous-time model. *)
Definition ex_ct2 : ctmodel :=
  cm_set {| cm_K := 2; cm_dtmax := 2; cm_lam := fun _ => 1; cm_A := fun _ _ => true; cm_W := fun _ _ => 1; cm_mu := fun _ _ => 0;
     cm_tau := fun _ _ => 1; cm_net := ex_net_ct; cm_data := []; cm_alpha := 1; cm_beta := 1; cm_mu0 := 0; cm_lmbda0 := 1;
     cm_alpha0 := 1; cm_beta0 := 1; cm_par := true |} (fun _ => 1) (fun _ _ => true) (fun _ _ => 1) (fun _ _ => 0) (fun _ _ => 1)
    (NetEr {| e_K := 2; e_p := 1 / 2; e_v := 1; e_kappa := 1; e_alpha := None; e_beta := None; e_allow := true; e_mf := None |}) [].
Example C101_nonvacuous :
  let sched := [(7, 1); (3, 0)]%nat in
  Permutation (map snd sched) (seq 0 2) /\ serves_first 7 1 sched /\ serves_first 3 0 sched /\
  first_free 2 (n_P ex_net) 0 0 /\ first_free 2 (n_P ex_net) 1 0 /\
  (dm_mix ex_m_data = false /\ nonneg_params ex_m_data /\ good_data ex_m_data (dm_data ex_m_data) /\ dm_data ex_m_data <> [] /\ dm_K ex_m_data = 2%nat) /\
  (cm_par ex_ct2 = true /\ net_ok (cm_K ex_ct2) (cm_net ex_ct2) /\ params_ok ex_ct2 /\ data_ok (cm_K ex_ct2) (ex_rec 1) /\
   first_free 2 (n_P (net_view (cm_net ex_ct2))) 0 0 /\ first_free 2 (n_P (net_view (cm_net ex_ct2))) 1 0).
Proof.
  cbv zeta. split; [apply perm_swap|]. split; [exists [], [(3, 0)]%nat; split; [reflexivity|auto]|].
  split; [exists [(7, 1)]%nat, []; split; [reflexivity|intros x [E|[]]; discriminate]|].
  assert (Hh : 1/2 <> 0 /\ 1/2 <> 1) by lra.
  split; [split; [lia|split; [exact Hh|lia]]|]. split; [split; [lia|split; [exact Hh|lia]]|]. split.
  - destruct ex_m_data_ok as (H1 & H2 & H3). split; [auto|]. split; [auto|]. split; [auto|]. split; [discriminate|reflexivity].
  - split; [reflexivity|]. split; [repeat split; cbn; try lra; discriminate|]. split; [repeat split; intros; cbn; lra|]. split.
    { destruct (@ex_rec_ok 1 ltac:(lra)) as (H1 & H2 & H3). split; [exact H1|]. split; [exact H2|]. intros k Hk. cbn. lia. }
    assert (Hp : forall a b, free (n_P (net_view (cm_net ex_ct2))) a b) by (intros a b; unfold free; cbn; destruct (Nat.eqb a b); cbn; lra).
    split; (split; [lia|split; [apply Hp|lia]]).
Qed.
