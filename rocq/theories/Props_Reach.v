(** * Props_Reach: no allowed state is out of the samplers' reach (C135). *)
From Coquelicot Require Import Coquelicot.
From Coq Require Import FunctionalExtensionality Permutation.
From Verif Require Import Prelude ExtReal Arrays M_Basis M_Parents M_Discrete M_Gibbs M_Dist M_Network M_Sweep M_Continuous M_ParentsLaw M_LabelLaw.
From Verif Require Import Spec_Gibbs Spec_Gamma Spec_Continuous Spec_Network Spec_Invariance Spec_LabelLaw Spec_CtJoint Spec_Marginal.
From Verif Require Import L_Invariance L_LabelLaw L_Gibbs L_Sweep L_Continuous L_Network L_Joint L_Discrete L_Parents.
From Verif Require Import Props_Discrete Props_Gibbs Props_Network Props_Continuous Props_Continuous2 Props_Continuous3 Props_Continuous4 Props_Invariance
  Props_LabelLaw Props_CtJoint Props_Marginal.
Set Implicit Arguments.
Open Scope R_scope.

(** Agreement of two networks on K nodes, and of two labellings. *)
Definition agree (K : nat) (A A' : bmat) : bool := forall_lt K (fun i => forall_lt K (fun j => Bool.eqb (A i j) (A' i j))).
Definition agree1 (K : nat) (c c' : nat -> nat) : bool := forall_lt K (fun k => Nat.eqb (c k) (c' k)).
Lemma agree_spec K A A' : agree K A A' = true <-> forall i j, (i < K)%nat -> (j < K)%nat -> A i j = A' i j.
Proof.
  unfold agree. rewrite forall_lt_true. split.
  - intros H i j Hi Hj. specialize (H i Hi). rewrite forall_lt_true in H. now apply Bool.eqb_prop, H.
  - intros H i Hi. apply forall_lt_true. intros j Hj. rewrite H by auto. apply Bool.eqb_reflx.
Qed.
Lemma agree1_spec K c c' : agree1 K c c' = true <-> forall k, (k < K)%nat -> c k = c' k.
Proof. unfold agree1. rewrite forall_lt_true. split; intros H k Hk; apply Nat.eqb_eq; auto. Qed.

(** A network the prior allows: no edge of probability 0, every edge of probability 1. *)
Definition allowed (K : nat) (P : mat) (A : bmat) : Prop :=
  forall i j, (i < K)%nat -> (j < K)%nat -> (P i j = 0 -> A i j = false) /\ (P i j = 1 -> A i j = true).
Definition hit (K : nat) (A' : bmat) (A : bmat) : R := b2R (agree K A A').
Lemma hit_nodes K A' : on_nodes K (hit K A').
Proof.
  intros A B H. unfold hit. f_equal. destruct (agree K A A') eqn:E1, (agree K B A') eqn:E2; try reflexivity; exfalso.
  - rewrite agree_spec in E1. assert (E : agree K B A' = true) by (apply agree_spec; intros; rewrite <- H by auto; auto). congruence.
  - rewrite agree_spec in E2. assert (E : agree K A A' = true) by (apply agree_spec; intros; rewrite H by auto; auto). congruence.
Qed.

(** ** The scan over the pairs *)
Lemma kern_nonneg q cs F : (forall i j B, In (i, j) cs -> 0 <= q i j B <= 1) -> (forall B, 0 <= F B) -> forall A, 0 <= kern q cs F A.
Proof.
  induction cs as [|(i, j) cs IH]; intros Hq HF A; cbn [kern]; [auto|].
  assert (H := Hq i j A (or_introl eq_refl)). assert (H' : forall B, 0 <= kern q cs F B) by (apply IH; auto; intros; apply Hq; now right).
  apply Rplus_le_le_0_compat; apply Rmult_le_pos; auto; lra.
Qed.
Lemma kern_hit q K A' cs : (forall c, In c cs -> In c (pairs K)) -> (forall i j B, In (i, j) cs -> 0 <= q i j B <= 1) ->
  (forall i j B, In (i, j) cs -> (A' i j = true -> 0 < q i j B) /\ (A' i j = false -> q i j B < 1)) ->
  forall A, (forall i j, (i < K)%nat -> (j < K)%nat -> ~ In (i, j) cs -> A i j = A' i j) -> 0 < kern q cs (hit K A') A.
Proof.
  induction cs as [|(i, j) cs IH]; intros Hin Hq Hp A HA; cbn [kern].
  - unfold hit. rewrite (proj2 (agree_spec K A A')); [cbn; lra|]. intros; apply HA; auto.
  - assert (H := Hq i j A (or_introl eq_refl)). assert (H' := Hp i j A (or_introl eq_refl)).
    assert (HN : forall b, 0 <= kern q cs (hit K A') (upd2 A i j b)).
    { intros b. apply kern_nonneg; [intros; apply Hq; now right|]. intros B. unfold hit. destruct (agree K B A'); cbn; lra. }
    assert (HS : 0 < kern q cs (hit K A') (upd2 A i j (A' i j))).
    { apply IH; [intros; apply Hin; now right|intros; apply Hq; now right|intros; apply Hp; now right|].
      intros a b Ha Hb Hn. unfold upd2. destruct (Nat.eqb_spec a i) as [->|Na]; [destruct (Nat.eqb_spec b j) as [->|Nb]|]; cbn [andb].
      - reflexivity.
      - apply HA; auto. intros [E|E]; [congruence|auto].
      - apply HA; auto. intros [E|E]; [congruence|auto]. }
    destruct (A' i j).
    + assert (0 < q i j A * kern q cs (hit K A') (upd2 A i j true)) by (apply Rmult_lt_0_compat; [now apply H'|exact HS]).
      assert (0 <= (1 - q i j A) * kern q cs (hit K A') (upd2 A i j false)) by (apply Rmult_le_pos; [lra|apply HN]). lra.
    + assert (0 <= q i j A * kern q cs (hit K A') (upd2 A i j true)) by (apply Rmult_le_pos; [lra|apply HN]).
      assert (0 < (1 - q i j A) * kern q cs (hit K A') (upd2 A i j false)) by (apply Rmult_lt_0_compat; [|exact HS]; assert (q i j A < 1) by (now apply H'); lra). lra.
Qed.
Lemma kern_miss q K A' i j : (i < K)%nat -> (j < K)%nat -> forall cs, ~ In (i, j) cs -> forall A, A i j <> A' i j -> kern q cs (hit K A') A = 0.
Proof.
  intros Hi Hj. induction cs as [|(a, b) cs IH]; intros Hn A HA; cbn [kern].
  - unfold hit. destruct (agree K A A') eqn:E; [|reflexivity]. rewrite agree_spec in E. exfalso. apply HA. auto.
  - assert (Hne : (a, b) <> (i, j)) by (intros E; apply Hn; now left). assert (Hn' : ~ In (i, j) cs) by (intros E; apply Hn; now right).
    assert (Hu : forall x, upd2 A a b x i j = A i j).
    { intros x. unfold upd2. destruct (Nat.eqb_spec i a), (Nat.eqb_spec j b); cbn; try reflexivity. subst. congruence. }
    rewrite !IH by (auto; now rewrite Hu). ring.
Qed.
Lemma kern_barred (q : nat -> nat -> bmat -> R) (K : nat) (A' : bmat) i j : (i < K)%nat -> (j < K)%nat -> (forall B, q i j B = if A' i j then 0 else 1) ->
  forall cs, NoDup cs -> In (i, j) cs -> forall A, kern q cs (hit K A') A = 0.
Proof.
  intros Hi Hj Hq. induction cs as [|(a, b) cs IH]; intros Hnd Hin A; [contradiction|]. inversion Hnd as [|? ? Hni Hnd']; subst. cbn [kern].
  destruct (cell_dec (a, b) (i, j)) as [E|E].
  - injection E as -> ->. rewrite Hq. destruct (A' i j) eqn:EA.
    + rewrite (@kern_miss q K A' i j Hi Hj cs Hni (upd2 A i j false)); [ring|]. rewrite upd2_eq, EA. discriminate.
    + rewrite (@kern_miss q K A' i j Hi Hj cs Hni (upd2 A i j true)); [ring|]. rewrite upd2_eq, EA. discriminate.
  - destruct Hin as [Hin|Hin]; [contradiction|]. rewrite !IH by auto. ring.
Qed.
Lemma edge_posterior_open p l0 l1 : 0 <= p <= 1 -> (p <> 0 -> 0 < edge_posterior p l0 l1) /\ (p <> 1 -> edge_posterior p l0 l1 < 1) /\
  (p = 0 -> edge_posterior p l0 l1 = 0) /\ (p = 1 -> edge_posterior p l0 l1 = 1).
Proof.
  intros Hp. unfold edge_posterior. pose proof (exp_pos l0) as H0. pose proof (exp_pos l1) as H1.
  assert (H : 0 < p * exp l1 + (1 - p) * exp l0).
  { destruct (Req_dec p 0) as [->|]; [lra|]. assert (0 < p * exp l1) by (apply Rmult_lt_0_compat; lra).
    assert (0 <= (1 - p) * exp l0) by (apply Rmult_le_pos; lra). lra. }
  split; [|split; [|split]].
  - intros Hn. apply Rdiv_lt_0_compat; [|exact H]. apply Rmult_lt_0_compat; lra.
  - intros Hn. apply Rmult_lt_reg_r with (p * exp l1 + (1 - p) * exp l0); [exact H|]. unfold Rdiv. rewrite Rmult_assoc, Rinv_l by lra.
    assert (0 < (1 - p) * exp l0) by (apply Rmult_lt_0_compat; lra). lra.
  - intros ->. unfold Rdiv. ring.
  - intros ->. field. lra.
Qed.

Lemma allowed_dec K P A' : allowed K P A' \/
  exists i j, (i < K)%nat /\ (j < K)%nat /\ ((P i j = 0 /\ A' i j = true) \/ (P i j = 1 /\ A' i j = false)).
Proof.
  destruct (forall_lt K (fun i => forall_lt K (fun j =>
         negb ((Reqb (P i j) 0 && A' i j) || (Reqb (P i j) 1 && negb (A' i j)))%bool))) eqn:E.
  - left. rewrite forall_lt_true in E. intros i j Hi Hj. specialize (E i Hi). rewrite forall_lt_true in E. specialize (E j Hj).
    apply Bool.negb_true_iff, Bool.orb_false_iff in E as [Ea Eb].
    split; intros EP; rewrite EP in *.
    + rewrite (proj2 (Reqb_true 0 0) eq_refl) in Ea. exact Ea.
    + rewrite (proj2 (Reqb_true 1 1) eq_refl) in Eb. cbn in Eb. now apply Bool.negb_false_iff in Eb.
  - right. apply forall_lt_false in E as (i & Hi & E). apply forall_lt_false in E as (j & Hj & E). exists i, j. split; [exact Hi|]. split; [exact Hj|].
    apply Bool.negb_false_iff, Bool.orb_true_iff in E as [E|E]; apply andb_true_iff in E as [E1 E2]; apply Reqb_true in E1.
    + left. auto.
    + right. apply Bool.negb_true_iff in E2. auto.
Qed.

(** The probability of A' under the update: positive for an allowed network, zero for any other. *)
Definition reaches_exactly_allowed (K : nat) (P : mat) (new : mat -> bmat) : Prop :=
  forall A' : bmat, exists pr, uniform_mean K (fun u => b2R (agree K (new u) A')) pr /\
    (allowed K P A' -> 0 < pr) /\ (~ allowed K P A' -> pr = 0).
(** Any update that draws the entries one after the other from their posteriors given the others reaches exactly the allowed networks. *)
Lemma sequential_reaches K P (l0 l1 : nat -> nat -> bmat -> R) (A : bmat) (new : mat -> bmat) :
  (forall i j, (i < K)%nat -> (j < K)%nat -> 0 <= P i j <= 1) ->
  (forall u, (forall i j, (i < K)%nat -> (j < K)%nat -> 0 < u i j < 1) ->
     sequential K (fun i j M => edge_posterior (P i j) (l0 i j M) (l1 i j M)) u A (new u)) ->
  reaches_exactly_allowed K P new.
Proof.
  intros HP Hs A'. set (q := fun i j M => edge_posterior (P i j) (l0 i j M) (l1 i j M)).
  assert (Hq : forall i j B, In (i, j) (pairs K) -> 0 <= q i j B <= 1).
  { intros i j B Hin. apply in_pairs in Hin as (Hi & Hj). apply edge_posterior_unit. auto. }
  exists (kern q (pairs K) (hit K A') A). split; [|split].
  - intros u0. eapply is_mean_ext; [apply pairs_NoDup| |apply (@scan_mean q (pairs K) (hit K A') (pairs_NoDup K)); exact Hq].
    intros u' Hu'. cbv beta. change (b2R (agree K (new u') A')) with (hit K A' (new u')). apply hit_nodes. intros i j Hi Hj.
    symmetry. apply sequential_scan; auto. apply Hs. intros a b Ha Hb. apply (proj1 (Hu' a b)). apply in_pairs. auto.
  - intros Ha. apply kern_hit; auto.
    + intros i j B Hin. apply in_pairs in Hin as (Hi & Hj). destruct (Ha i j Hi Hj) as (Ha0 & Ha1).
      destruct (@edge_posterior_open (P i j) (l0 i j B) (l1 i j B) (HP i j Hi Hj)) as (E1 & E2 & _). split; intros E.
      * apply E1. intros Z. specialize (Ha0 Z). congruence.
      * apply E2. intros Z. specialize (Ha1 Z). congruence.
    + intros i j Hi Hj Hn. exfalso. apply Hn. now apply in_pairs.
  - intros Hn. destruct (allowed_dec K P A') as [Ha|(i & j & Hi & Hj & HB)]; [contradiction|].
    apply (@kern_barred q K A' i j Hi Hj); [|apply pairs_NoDup|now apply in_pairs].
    intros B. unfold q. destruct (@edge_posterior_open (P i j) (l0 i j B) (l1 i j B) (HP i j Hi Hj)) as (_ & _ & E3 & E4).
    destruct HB as [[EP ->]|[EP ->]]; auto.
Qed.

(* ------------------------------------------------------------------ *)
(** Spike-and-slab model, serial and parallel: whatever network the sampler is in and whatever the data, one update has positive
    probability of producing every network the prior allows, and probability zero of producing any other. *)
Theorem C135_networks : forall m n, dm_mix m = false -> nonneg_params m -> good_data m (dm_data m) ->
  (forall i j, (i < dm_K m)%nat -> (j < dm_K m)%nat -> 0 <= n_P n i j <= 1) ->
  forall (parallel : bool) order, Permutation order (seq 0 (dm_K m)) ->
  reaches_exactly_allowed (dm_K m) (n_P n)
    (fun u => if parallel then resample_A_parallel order m n u (dm_data m) else resample_A_serial m n u (dm_data m)).
Proof.
  intros m n Hm Hn Hd HP parallel order Ho.
  set (L := fun A => match log_likelihood (with_A m A) All with Ok (Fin l) => l | _ => 0 end).
  apply (@sequential_reaches (dm_K m) (n_P n) (fun i j M => L (upd2 M i j false)) (fun i j M => L (upd2 M i j true)) (dm_A m)); auto.
  intros u Hu k1 k2 M H1 H2 HM.
  destruct (@C25_edges_from_posterior parallel order m n u Hm Hn Hd) with (k1 := k1) (k2 := k2) (M := M) as (L0 & L1 & E0 & E1 & EA); auto.
  { intros i j Hi Hj. split; [specialize (Hu i j Hi Hj); split; lra|auto]. }
  unfold L. rewrite E0, E1. exact EA.
Qed.
(** Gamma-mixture model. *)
Theorem C135_mixture_networks : forall lgam K kappa0 nu0 n data,
  (forall i j, (i < K)%nat -> (j < K)%nat -> mix_ok kappa0 nu0 n data i j /\ 0 <= n_P n i j <= 1) ->
  reaches_exactly_allowed K (n_P n) (fun u => mix_resample_A lgam kappa0 nu0 n u data).
Proof.
  intros lgam K kappa0 nu0 n data Hok.
  apply (@sequential_reaches K (n_P n)
    (fun i j _ => mix_lp0 lgam kappa0 nu0 (fst (mix_ss data i j)) (snd (mix_ss data i j)))
    (fun i j _ => mix_lp1 lgam (n_kappa n) (n_V n i j) (fst (mix_ss data i j)) (snd (mix_ss data i j))) (fun _ _ => false)).
  - intros i j Hi Hj. apply (Hok i j Hi Hj).
  - intros u Hu k1 k2 M H1 H2 _. unfold mix_resample_A. destruct (mix_ss data k1 k2) as [s0 s1]. cbn [fst snd].
    rewrite accept_edge; [apply Rltb_true| |apply (Hok k1 k2 H1 H2)]. specialize (Hu k1 k2 H1 H2). split; lra.
Qed.
(** Continuous-time model, given the new weights W. *)
Theorem C135_continuous_networks : forall m data W, net_ok (cm_K m) (cm_net m) ->
  (forall k, (k < cm_K m)%nat -> 0 < cm_lam m k) -> (forall a b, (a < cm_K m)%nat -> (b < cm_K m)%nat -> 0 < cm_tau m a b) ->
  (forall i j, (i < cm_K m)%nat -> (j < cm_K m)%nat -> 0 <= W i j) -> (forall d, In d data -> data_ok (cm_K m) d) ->
  forall order norder, Permutation order (seq 0 (cm_K m)) -> (forall d, In d data -> Permutation (norder d) (seq 0 (cd_N d))) ->
  reaches_exactly_allowed (cm_K m) (n_P (net_view (cm_net m)))
    (fun u => cm_A (ct_weights_resample order norder (fun i j _ _ => W i j) u m data)).
Proof.
  intros m data W Hnet Hlam Htau HW Hd order norder Ho Hno. set (P := n_P (net_view (cm_net m))).
  set (L := fun A => lsum (map (hawkes_loglik (ct_with_AW m A W)) data)).
  assert (HP : forall i j, (i < cm_K m)%nat -> (j < cm_K m)%nat -> 0 <= P i j <= 1).
  { intros i j Hi Hj. pose proof (@net_view_ok _ _ Hnet) as (_ & Hv). now apply Hv. }
  assert (HWr : forall nt A, ct_W_resample (fun i j _ _ => W i j) nt A data = W).
  { intros nt A. apply functional_extensionality; intros i; apply functional_extensionality; intros j. unfold ct_W_resample. now destruct (ct_W_request nt A data i j). }
  apply (@sequential_reaches (cm_K m) P (fun i j M => L (upd2 M i j false)) (fun i j M => L (upd2 M i j true)) (cm_A m)); auto.
  intros u Hu k1 k2 M H1 H2 HM.
  destruct (@C76_edges_from_posterior order norder (fun i j _ _ => W i j) u m data Hnet Hlam Htau) as (_ & Hp); [intros d Hin; split; auto| |exact Ho| |].
  { intros i j Hi Hj. pose proof (Hu i j Hi Hj). split; lra. }
  { intros i j Hi Hj. change (0 <= ct_W_resample (fun a b _ _ => W a b) (net_view (cm_net m)) (cm_A m) data i j). rewrite HWr. now apply HW. }
  destruct (Hp k1 k2 M H1 H2 HM) as (_ & EA).
  assert (EW : forall b, ct_with_A (ct_weights_resample order norder (fun i j _ _ => W i j) u m data) (upd2 M k1 k2 b) = ct_with_AW m (upd2 M k1 k2 b) W).
  { intros b. change (ct_with_AW m (upd2 M k1 k2 b) (ct_W_resample (fun i j _ _ => W i j) (net_view (cm_net m)) (cm_A m) data) = ct_with_AW m (upd2 M k1 k2 b) W). now rewrite HWr. }
  rewrite !EW in EA. exact EA.
Qed.

(* ------------------------------------------------------------------ *)
(** ** Block labels *)
Lemma lkern_nonneg C req ks F : (0 < C)%nat -> (forall b, 0 <= F b) -> forall c, 0 <= lkern C req ks F c.
Proof.
  intros HC HF. induction ks as [|k ks IH]; intros c; cbn [lkern]; [auto|]. apply Rsum_nonneg. intros x Hx.
  apply Rmult_le_pos; [left; now apply soft_pos|auto].
Qed.
Lemma lkern_hit K C req c' : (0 < C)%nat -> (forall k, (k < K)%nat -> (c' k < C)%nat) -> forall ks, (forall k, In k ks -> (k < K)%nat) ->
  forall c, (forall k, (k < K)%nat -> ~ In k ks -> c k = c' k) -> 0 < lkern C req ks (fun b => b2R (agree1 K b c')) c.
Proof.
  intros HC Hc'. induction ks as [|k ks IH]; intros Hin c Hc; cbn [lkern].
  - rewrite (proj2 (agree1_spec K c c')); [cbn; lra|]. intros; apply Hc; auto.
  - apply Rlt_le_trans with (soft C (req c k) (c' k) * lkern C req ks (fun b => b2R (agree1 K b c')) (upd c k (c' k))).
    + apply Rmult_lt_0_compat; [now apply soft_pos|]. apply IH; [intros; apply Hin; now right|]. intros a Ha Hn. unfold upd.
      destruct (Nat.eqb_spec a k) as [->|Na]; [reflexivity|]. apply Hc; auto. intros [E|E]; [congruence|auto].
    + assert (Hk : (c' k < C)%nat) by (apply Hc', Hin; now left).
      apply (@Rsum_term_le C (fun x => soft C (req c k) x * lkern C req ks (fun b => b2R (agree1 K b c')) (upd c k x)) (c' k)); [|exact Hk].
      intros x Hx. apply Rmult_le_pos; [left; now apply soft_pos|]. apply lkern_nonneg; auto. intros b. destruct (agree1 K b c'); cbn; lra.
Qed.
(** One sweep over the block labels has positive probability of producing any labelling from any other.  (The blocks have
    positive weight, the tables are inside their ranges and edges carry positive weights, so that every score is finite;
    outside, the model's scores are not the code's infinities.) *)
Theorem C135_labels : forall lgam s A W, (0 < sb_C s)%nat -> sbm_pos s -> pos_edges (sb_K s) A W ->
  forall c c', (forall k, (k < sb_K s)%nat -> (c k < sb_C s)%nat /\ (c' k < sb_C s)%nat) ->
  exists pr, 0 < pr /\ uniform_mean1 (sb_K s) (fun u => b2R (agree1 (sb_K s) (label_sweep lgam (with_labels s c) A W u) c')) pr.
Proof.
  intros lgam s A W HC _ _ c c' Hc. destruct (Nat.eqb (sb_C s) 1) eqn:E1.
  - exists 1. split; [lra|]. intros u0. unfold label_sweep, resample_c. cbn [with_labels sb_set sb_C sb_c]. rewrite E1.
    assert (E : agree1 (sb_K s) c c' = true). { apply agree1_spec. intros k Hk. apply Nat.eqb_eq in E1. destruct (Hc k Hk). lia. }
    rewrite E. apply is_mean1_const.
  - set (req := fun c k => c_request lgam s A W c k).
    exists (lkern (sb_C s) req (seq 0 (sb_K s)) (fun b => b2R (agree1 (sb_K s) b c')) c). split.
    + apply lkern_hit; auto.
      * intros k Hk. apply (Hc k Hk).
      * intros k Hk. apply in_seq in Hk. lia.
      * intros k Hk Hn. exfalso. apply Hn, in_seq. lia.
    + intros u0. eapply is_mean1_ext; [apply seq_NoDup| |apply (@lscan_mean (sb_C s) req (seq 0 (sb_K s)) _ HC); apply seq_NoDup].
      intros u' _. cbv beta. unfold label_sweep, resample_c. cbn [with_labels sb_set sb_C sb_c sb_K]. rewrite E1. reflexivity.
Qed.

(* ------------------------------------------------------------------ *)
(** ** Event attributions *)
Lemma Rprod_zero n (f : nat -> R) i : (i < n)%nat -> f i = 0 -> Rprod n f = 0.
Proof.
  induction n as [|n IH]; intros Hi E; [lia|]. cbn [Rprod]. destruct (Nat.eq_dec i n) as [->|]; [rewrite E; ring|]. rewrite IH by (auto; lia). ring.
Qed.
Lemma Rprod_nonneg n (f : nat -> R) : (forall i, (i < n)%nat -> 0 <= f i) -> 0 <= Rprod n f.
Proof. induction n as [|n IH]; intros H; cbn [Rprod]; [lra|]. apply Rmult_le_pos; [apply IH; auto|apply H; lia]. Qed.
Lemma Rprod_pos_term n (f : nat -> R) : Rprod n f <> 0 -> forall i, (i < n)%nat -> f i <> 0.
Proof. intros H i Hi E. apply H. now apply Rprod_zero with i. Qed.
Lemma cause_rate_nonneg d q t k c : fits d -> pa_nonneg d (q_lam q) (q_W q) (q_g q) -> (t < pa_T d)%nat -> (k < pa_K d)%nat ->
  (c < 1 + pa_K d * pa_B d)%nat -> 0 <= cause_rate d q t k c.
Proof.
  intros Hf (Hl & HW & Hg & HF) Ht Hk Hc. destruct c as [|i]; cbn [cause_rate]; [left; now apply Hl|].
  assert (HB : (pa_B d <> 0)%nat) by (intros E; rewrite E in Hc; lia).
  assert (H1 : (i / pa_B d < pa_K d)%nat) by (apply Nat.div_lt_upper_bound; lia).
  assert (H2 : (i mod pa_B d < pa_B d)%nat) by now apply Nat.mod_upper_bound.
  repeat apply Rmult_le_pos; auto.
Qed.
(** An attribution has positive probability exactly when it gives no event to a cause that has no rate in that bin: every
    possible explanation of the events is drawn with positive probability, whichever sampler is used. *)
Theorem C135_attributions : forall use_gsl d q, fits d -> 0 < pa_dt d -> pa_nonneg d (q_lam q) (q_W q) (q_g q) ->
  forall Y, attributes (pa_T d) (pa_K d) (1 + pa_K d * pa_B d) (tally d) Y ->
  (0 < resample_prob use_gsl d q Y <->
   forall t k c, (t < pa_T d)%nat -> (k < pa_K d)%nat -> (c < 1 + pa_K d * pa_B d)%nat -> cause_rate d q t k c = 0 -> Y t k c = 0%nat) /\
  (0 <= resample_prob use_gsl d q Y).
Proof.
  intros use_gsl d q Hf Hdt Hn Y HY. destruct (@C117_resample_is_conditional use_gsl d q Hf Hdt Hn) as (Hm & HP & _).
  destruct (HP Y HY) as (_ & E). rewrite E, joint_of_bins.
  assert (Hs : 0 < survival d q) by apply exp_pos.
  assert (HR : forall t k c, (t < pa_T d)%nat -> (k < pa_K d)%nat -> (c < 1 + pa_K d * pa_B d)%nat -> 0 <= cause_rate d q t k c * pa_dt d).
  { intros t k c Ht Hk Hc. apply Rmult_le_pos; [now apply cause_rate_nonneg|lra]. }
  assert (Hfa : forall n, 0 < / INR (fact n)) by (intros n; apply Rinv_0_lt_compat, INR_fact_lt_0).
  set (Q := Rprod (pa_T d) (fun t => Rprod (pa_K d) (fun k => bin_term d q t k (Y t k)))).
  assert (HQ : 0 <= Q).
  { apply Rprod_nonneg; intros t Ht. apply Rprod_nonneg; intros k Hk. apply Rprod_nonneg; intros c Hc.
    apply Rmult_le_pos; [apply pow_le; auto|left; apply Hfa]. }
  assert (Hd : 0 < / marginal_of d q) by now apply Rinv_0_lt_compat.
  assert (HZ : 0 < Q <-> forall t k c, (t < pa_T d)%nat -> (k < pa_K d)%nat -> (c < 1 + pa_K d * pa_B d)%nat -> cause_rate d q t k c = 0 -> Y t k c = 0%nat).
  { split.
    - intros Hpos t k c Ht Hk Hc E0. assert (H1 : Q <> 0) by lra.
      pose proof (@Rprod_pos_term _ _ H1 t Ht) as H2. pose proof (@Rprod_pos_term _ _ H2 k Hk) as H3. pose proof (@Rprod_pos_term _ _ H3 c Hc) as H4.
      cbv beta in H4. rewrite E0, Rmult_0_l in H4. destruct (Y t k c) as [|y]; [reflexivity|]. exfalso. apply H4. cbn [pow]. unfold Rdiv. ring.
    - intros H. apply Rprod_pos; intros t Ht. apply Rprod_pos; intros k Hk. apply Rprod_pos; intros c Hc.
      apply Rmult_lt_0_compat; [|apply Hfa]. destruct (Req_dec (cause_rate d q t k c) 0) as [E0|E0].
      + rewrite (H t k c Ht Hk Hc E0). cbn; lra.
      + apply pow_lt. pose proof (@cause_rate_nonneg d q t k c Hf Hn Ht Hk Hc). apply Rmult_lt_0_compat; lra. }
  split.
  - rewrite <- HZ. split; intros H.
    + destruct HQ as [HQ|HQ]; [exact HQ|]. rewrite <- HQ in H. unfold Rdiv in H. rewrite Rmult_0_r, Rmult_0_l in H. lra.
    + apply Rmult_lt_0_compat; [apply Rmult_lt_0_compat|]; assumption.
  - apply Rmult_le_pos; [apply Rmult_le_pos|]; lra.
Qed.

(** A prior that bars the edge (0, 1) and leaves the others open; two states of the continuous-time model; the two possible
    explanations of the event of process 1 in [ex_d], and an impossible one. *)
Definition ex_bar : mat := fun i j => if (Nat.eqb i 0 && Nat.eqb j 1)%bool then 0 else 1/2.
Example C135_nonvacuous :
  (allowed 2 ex_bar (fun i j => Nat.eqb i j) /\ allowed 2 ex_bar (fun _ _ => false) /\ ~ allowed 2 ex_bar (fun _ _ => true)) /\
  (dm_mix ex_m_data = false /\ nonneg_params ex_m_data /\ good_data ex_m_data (dm_data ex_m_data) /\ dm_K ex_m_data = 2%nat /\
   (forall i j, (i < 2)%nat -> (j < 2)%nat -> 0 <= ex_bar i j <= 1)) /\
  (forall i j, (i < 2)%nat -> (j < 2)%nat -> mix_ok (1/10) 10 ex_net [ex_child] i j) /\
  (net_ok (cm_K (ex_ct 1)) (cm_net (ex_ct 1)) /\ params_ok (ex_ct 1) /\ data_ok (cm_K (ex_ct 1)) (ex_rec 1)) /\
  (forall use_gsl c1, (c1 < 2)%nat -> 0 < resample_prob use_gsl ex_d (model_params ex_m) (ex_Y c1)) /\
  (sbm_pos (ex_sbm true) /\ pos_edges (sb_K (ex_sbm true)) ex_adj (fun _ _ => 1) /\ sb_C (ex_sbm true) = 2%nat).
Proof.
  destruct C97_nonvacuous as ((H1 & H2 & H3 & _) & H4 & H5).
  assert (HB : forall i j, (ex_bar i j = 0 /\ i = 0%nat /\ j = 1%nat) \/ (ex_bar i j = 1/2 /\ (i = 0%nat -> j <> 1%nat))).
  { intros i j. unfold ex_bar. destruct (Nat.eqb_spec i 0), (Nat.eqb_spec j 1); cbn [andb]; auto; right; split; auto; intros; lia. }
  split; [split; [|split]|split; [|split; [exact H4|split; [exact H5|split]]]].
  - intros i j _ _. destruct (HB i j) as [(-> & -> & ->)|(-> & _)]; split; intros; try reflexivity; lra.
  - intros i j _ _. destruct (HB i j) as [(-> & -> & ->)|(-> & _)]; split; intros; try reflexivity; lra.
  - intros H. destruct (H 0%nat 1%nat ltac:(lia) ltac:(lia)) as (H0 & _). specialize (H0 eq_refl). discriminate.
  - split; [auto|]. split; [auto|]. split; [auto|]. split; [reflexivity|]. intros i j _ _. destruct (HB i j) as [(-> & _)|(-> & _)]; lra.
  - intros use_gsl c1 Hc. destruct (@C117_nonvacuous use_gsl c1 Hc) as (_ & _ & ->). lra.
  - destruct C31_nonvacuous as (A1 & _ & _ & A2 & _). auto.
Qed.

Print Assumptions C135_networks.
Print Assumptions C135_mixture_networks.
Print Assumptions C135_continuous_networks.
Print Assumptions C135_labels.
Print Assumptions C135_attributions.
