(** * Props_Network: stochastic block models and Erdos-Renyi networks (C29-C35, C73). *)
From Coq Require Import FunctionalExtensionality.
From Verif Require Import Prelude ExtReal Arrays Spec_Gibbs M_Gibbs M_Dist Props_Dist Spec_Network M_Network L_Network.
Set Implicit Arguments.
Open Scope R_scope.

(* ------------------------------------------------------------------ *)
(** ** C29 *)

Theorem C29_P_V_tables : forall s i j,
  sbm_P s i j = (if possible (sb_allow s) i j then sb_p s (sb_c s i) (sb_c s j) else 0) /\
  sbm_V s i j = sb_v s (sb_c s i) (sb_c s j) /\ sbm_Kappa s i j = sb_kappa s.
Proof.
  intros s i j. unfold sbm_P, sbm_V, sbm_Kappa, possible, fill_diagonal, ix.
  destruct (sb_allow s); cbn [negb orb]; repeat split; try ring. destruct (i =? j)%nat; reflexivity.
Qed.
Print Assumptions C29_P_V_tables.
Theorem C29_erdos_renyi_tables : forall n i j,
  er_P n i j = (if possible (e_allow n) i j then e_p n else 0) /\ er_V n i j = e_v n.
Proof.
  intros n i j. unfold er_P, er_V, possible, fill_diagonal.
  destruct (e_allow n); cbn [negb orb]; split; try ring. destruct (i =? j)%nat; cbn [negb]; ring.
Qed.

(* ------------------------------------------------------------------ *)
(** ** C30 *)

Definition no_self_edges (K : nat) (A : bmat) : Prop := forall k, (k < K)%nat -> A k k = false.

Lemma sel_true c c1 c2 i j : (possible true i j && in_block c c1 c2 i j)%bool = in_block c c1 c2 i j.
Proof. reflexivity. Qed.

Theorem C30_probabilities_partial : forall lgam s A c1 c2, sb_allow s = true ->
  same_law (fun x => 0 < x < 1)
    (p_joint lgam (sb_K s) (sb_allow s) (sb_c s) (sb_tau1 s) (sb_tau0 s) A c1 c2)
    (fun x => beta_lpdf lgam (fst (p_request s A c1 c2)) (snd (p_request s A c1 c2)) x).
Proof.
  intros lgam s A c1 c2 Ha. rewrite Ha. eexists. intros x _. rewrite p_joint_eq. cbn zeta. reflexivity.
Qed.
Print Assumptions C30_probabilities_partial.

(** Number of nodes that are in both blocks: the self pairs counted by mistake. *)
Definition n_self (K : nat) (c : nat -> nat) (c1 c2 : nat) : R :=
  Rsum K (fun i => if in_block c c1 c2 i i then 1 else 0).
Lemma no_self_sums K c c1 c2 A : no_self_edges K A ->
  Rsum K (fun i => Rsum K (fun j => if (possible false i j && in_block c c1 c2 i j)%bool then b2R (A i j) else 0))
    = block_sum K c c1 c2 (fun i j => b2R (A i j)) /\
  Rsum K (fun i => Rsum K (fun j => if (possible false i j && in_block c c1 c2 i j)%bool then 1 - b2R (A i j) else 0))
    = block_sum K c c1 c2 (fun i j => 1 - b2R (A i j)) - n_self K c c1 c2.
Proof.
  intros HA. unfold block_sum. split.
  - apply Rsum2_ext. intros i j Hi Hj. unfold possible, in_block. cbn [orb].
    destruct (Nat.eqb_spec i j) as [->|]; cbn [negb andb]; [|reflexivity].
    rewrite HA by auto. now destruct (_ && _)%bool.
  - unfold n_self. rewrite <- Rsum_minus. apply Rsum_ext. intros i Hi.
    rewrite (@Rsum_ext K _ (fun j => (if ((c i =? c1) && (c j =? c2))%nat then 1 - b2R (A i j) else 0)
        - (if (j =? i)%nat then (if in_block c c1 c2 i i then 1 else 0) else 0))).
    + rewrite Rsum_minus, (Rsum_ind K i (fun _ => if in_block c c1 c2 i i then 1 else 0)).
      destruct (Nat.ltb_spec i K); [reflexivity|lia].
    + intros j Hj. unfold possible, in_block. cbn [orb]. rewrite (Nat.eqb_sym j i).
      destruct (Nat.eqb_spec i j) as [->|]; cbn [negb andb]; [|ring].
      rewrite HA by auto. cbn [b2R]. destruct (_ && _)%bool; ring.
Qed.
(** With self-connections disallowed the second beta parameter is too large by exactly the number of
    nodes in the block. *)
Theorem C30_probabilities_no_self_partial : forall lgam s A c1 c2,
  sb_allow s = false -> no_self_edges (sb_K s) A ->
  same_law (fun x => 0 < x < 1)
    (p_joint lgam (sb_K s) (sb_allow s) (sb_c s) (sb_tau1 s) (sb_tau0 s) A c1 c2)
    (fun x => beta_lpdf lgam (fst (p_request s A c1 c2))
                (snd (p_request s A c1 c2) - n_self (sb_K s) (sb_c s) c1 c2) x).
Proof.
  intros lgam s A c1 c2 Ha HA. rewrite Ha. eexists. intros x _. rewrite p_joint_eq. cbn zeta.
  destruct (no_self_sums (sb_c s) c1 c2 HA) as [-> ->]. cbn [p_request fst snd].
  unfold Rminus at 1. rewrite <- Rplus_assoc.
  change (sb_tau0 s + ?a + ?b) with (sb_tau0 s + a - n_self (sb_K s) (sb_c s) c1 c2). reflexivity.
Qed.
Print Assumptions C30_probabilities_no_self_partial.

(** So the update is not the posterior whenever a block with a node is paired with itself. *)
Theorem C30_counts_forbidden_pairs_refuted : forall lgam s A k, (k < sb_K s)%nat ->
  sb_allow s = false -> no_self_edges (sb_K s) A ->
  let c1 := sb_c s k in
  ~ same_law (fun x => 0 < x < 1)
      (p_joint lgam (sb_K s) (sb_allow s) (sb_c s) (sb_tau1 s) (sb_tau0 s) A c1 c1)
      (fun x => beta_lpdf lgam (fst (p_request s A c1 c1)) (snd (p_request s A c1 c1)) x).
Proof.
  intros lgam s A k Hk Ha HA c1 [d H].
  destruct (@C30_probabilities_no_self_partial lgam s A c1 c1 Ha HA) as [d' H'].
  assert (Hn : 1 <= n_self (sb_K s) (sb_c s) c1 c1).
  { unfold n_self. assert (Ek : in_block (sb_c s) c1 c1 k k = true).
    { unfold in_block, c1. now rewrite Nat.eqb_refl. }
    pose proof (@Rsum_term_le (sb_K s) (fun i => if in_block (sb_c s) c1 c1 i i then 1 else 0) k) as T.
    cbn beta in T. rewrite Ek in T. apply T; auto.
    intros i _. destruct (in_block (sb_c s) c1 c1 i i); lra. }
  set (n := n_self (sb_K s) (sb_c s) c1 c1) in *.
  assert (E : forall x, 0 < x < 1 -> n * ln (1 - x) = n * ln (1 - 1/2) ).
  { intros x Hx. pose proof (H x Hx) as P1. pose proof (H' x Hx) as P2.
    assert (H2 : 0 < 1/2 < 1) by lra.
    pose proof (H _ H2) as Q1. pose proof (H' _ H2) as Q2.
    unfold beta_lpdf in *. nra. }
  specialize (E (1/4) ltac:(lra)).
  assert (L : ln (1 - 1/2) < ln (1 - 1/4)) by (apply ln_increasing; lra).
  assert (Hz : n * (ln (1 - 1/4) - ln (1 - 1/2)) = 0) by lra.
  apply Rmult_integral in Hz. lra.
Qed.
Print Assumptions C30_counts_forbidden_pairs_refuted.

(** The scales are drawn from the posterior in either case. *)
Theorem C30_scales : forall lgam s A W c1 c2,
  (sb_allow s = false -> no_self_edges (sb_K s) A) ->
  exists a b, v_request s A W c1 c2 = (a, 1 / b) /\
  same_law (fun x => 0 < x)
    (v_joint lgam (sb_K s) (sb_allow s) (sb_c s) (sb_kappa s) (sb_alpha s) (sb_beta s) A W c1 c2)
    (fun x => gamma_lpdf lgam a b x).
Proof.
  intros lgam s A W c1 c2 HA. unfold v_request. eexists. eexists. split; [reflexivity|].
  assert (E : forall (h : nat -> nat -> R), (forall k, (k < sb_K s)%nat -> A k k = false -> h k k = 0) ->
    Rsum (sb_K s) (fun i => Rsum (sb_K s) (fun j =>
      if (possible (sb_allow s) i j && in_block (sb_c s) c1 c2 i j)%bool then h i j else 0))
    = block_sum (sb_K s) (sb_c s) c1 c2 h).
  { intros h Hh. unfold block_sum. destruct (sb_allow s); [reflexivity|]. apply Rsum2_ext. intros i j Hi Hj.
    unfold possible, in_block. cbn [orb]. destruct (Nat.eqb_spec i j) as [->|]; cbn [negb andb]; [|reflexivity].
    rewrite Hh by (auto; now apply HA). now destruct (_ && _)%bool. }
  eexists. intros x Hx. rewrite v_joint_eq by auto. cbv zeta beta.
  rewrite (E (fun i j => b2R (A i j))) by (intros k _ ->; reflexivity).
  rewrite (E (fun i j => if A i j then W i j else 0)) by (intros k _ ->; reflexivity).
  reflexivity.
Qed.
Print Assumptions C30_scales.

(** A three-node, two-block example. *)
Definition ex_sbm (allow : bool) : sbm :=
  {| sb_K := 3; sb_C := 2; sb_pi := fun _ => 1; sb_tau0 := 1; sb_tau1 := 2; sb_kappa := 1; sb_alpha := 1; sb_beta := 3;
     sb_allow := allow; sb_m := fun _ => 1/2; sb_c := fun k => match k with O => 0%nat | _ => 1%nat end;
     sb_p := fun a b => if (a =? b)%nat then (if (a =? 0)%nat then 1/4 else 1/2) else 1/3; sb_v := fun _ _ => 5; sb_fixed := false |}.
Definition ex_adj : bmat := fun i j => ((i =? 0) && (j =? 1))%nat.
Example C30_nonvacuous : sb_allow (ex_sbm false) = false /\ no_self_edges (sb_K (ex_sbm false)) ex_adj /\
  p_request (ex_sbm false) ex_adj 0 1 = (2 + 1, 1 + 1).
Proof.
  split; [reflexivity|]. split.
  - intros [|[|k]] _; reflexivity.
  - unfold p_request, block_sum. cbn. f_equal; ring.
Qed.

(* ------------------------------------------------------------------ *)
(** ** C31 *)

Definition sbm_pos (s : sbm) : Prop :=
  (forall a, (a < sb_C s)%nat -> 0 < sb_m s a) /\
  (forall a b, (a < sb_C s)%nat -> (b < sb_C s)%nat -> 0 < sb_p s a b < 1 /\ 0 < sb_v s a b).
Definition labels_ok (s : sbm) : Prop := forall k, (k < sb_K s)%nat -> (sb_c s k < sb_C s)%nat.
Definition pos_edges (K : nat) (A : bmat) (W : mat) : Prop :=
  forall i j, (i < K)%nat -> (j < K)%nat -> A i j = true -> 0 < W i j.

(** The log probability vector handed to the sampler for node k is the log joint of the label plus
    the log likelihood of the pair (k,k) once more than it should be counted (once more when self-connections
    are allowed, twice when they are not and the pair should not be counted at all).  Labels of nodes before k are the
    new ones. *)
Theorem C31_label_request_partial : forall lgam pick s A W k x,
  sb_C s <> 1%nat -> sbm_pos s -> labels_ok s -> pos_edges (sb_K s) A W ->
  (forall k lp, (pick k lp < sb_C s)%nat) -> (k < sb_K s)%nat -> (x < sb_C s)%nat ->
  let c' := resample_c lgam pick s A W in
  let mid := fun i => if (i <? k)%nat then c' i else sb_c s i in
  exists lp, c' k = pick k lp /\
    lp x = Fin (c_joint lgam (sb_K s) (sb_allow s) mid (sb_m s) (sb_p s) (sb_v s) (sb_kappa s) A W k x
                + (if sb_allow s then 1 else 2) * self_ll lgam (sb_p s) (sb_v s) (sb_kappa s) A W k x).
Proof.
  intros lgam pick s A W k x HC (Hm & Hpv) Hl HW Hpick Hk Hx c' mid.
  assert (HC' : (sb_C s =? 1)%nat = false) by (now apply Nat.eqb_neq).
  destruct (@resample_c_scan lgam pick s A W HC') as [H1 H2]. fold c' in H1, H2.
  exists (c_request lgam s A W mid k). split; [now apply H2|].
  apply c_request_eq; auto. intros j Hj. unfold mid. destruct (j <? k)%nat; [|auto]. rewrite H2 by auto. auto.
Qed.
Print Assumptions C31_label_request_partial.

(** If the self pair carries no information on the label the draw is from the posterior. *)
Theorem C31_label_posterior_partial : forall lgam s A W c k,
  sbm_pos s -> (forall j, (j < sb_K s)%nat -> (c j < sb_C s)%nat) -> pos_edges (sb_K s) A W -> (k < sb_K s)%nat ->
  (forall a b, (a < sb_C s)%nat -> (b < sb_C s)%nat -> sb_p s a a = sb_p s b b /\ sb_v s a a = sb_v s b b) ->
  same_law (fun x => (x < sb_C s)%nat)
    (fun x => fval (c_request lgam s A W c k x))
    (c_joint lgam (sb_K s) (sb_allow s) c (sb_m s) (sb_p s) (sb_v s) (sb_kappa s) A W k).
Proof.
  intros lgam s A W c k (Hm & Hpv) Hc HW Hk Hd.
  exists ((if sb_allow s then 1 else 2) * self_ll lgam (sb_p s) (sb_v s) (sb_kappa s) A W k 0).
  intros x Hx. rewrite c_request_eq by auto. cbn [fval]. f_equal. f_equal.
  assert (H0 : (0 < sb_C s)%nat) by lia.
  unfold self_ll. destruct (Hd x 0%nat Hx H0) as [-> ->]. reflexivity.
Qed.
Print Assumptions C31_label_posterior_partial.

Theorem C31_self_pair_counted_twice_refuted :
  exists s A W c k, sbm_pos s /\ (forall j, (j < sb_K s)%nat -> (c j < sb_C s)%nat) /\ pos_edges (sb_K s) A W /\
  (k < sb_K s)%nat /\ sb_allow s = true /\
  forall lgam, ~ same_law (fun x => (x < sb_C s)%nat)
    (fun x => fval (c_request lgam s A W c k x))
    (c_joint lgam (sb_K s) (sb_allow s) c (sb_m s) (sb_p s) (sb_v s) (sb_kappa s) A W k).
Proof.
  exists (ex_sbm true), ex_adj, (fun _ _ => 1), (fun _ => 0%nat), 2%nat.
  assert (Hp : sbm_pos (ex_sbm true)).
  { split; cbn; intros; [lra|]. split; [|lra]. destruct (a =? b)%nat; [destruct (a =? 0)%nat|]; lra. }
  assert (Hc : forall j, (j < sb_K (ex_sbm true))%nat -> (0 < sb_C (ex_sbm true))%nat) by (cbn; lia).
  assert (HW : pos_edges (sb_K (ex_sbm true)) ex_adj (fun _ _ => 1)) by (intros ? ? _ _ _; lra).
  split; [exact Hp|]. split; [exact Hc|]. split; [exact HW|]. split; [cbn; lia|]. split; [reflexivity|].
  intros lgam [d H].
  assert (T : forall x, (x < 2)%nat -> self_ll lgam (sb_p (ex_sbm true)) (sb_v (ex_sbm true)) 1 ex_adj (fun _ _ => 1) 2 x = d).
  { intros x Hx. specialize (H x Hx). cbn beta in H. destruct Hp as (Hm & Hpv).
    rewrite c_request_eq in H by (auto; cbn; try lia; lra). cbn [fval sb_allow ex_sbm sb_kappa] in H.
    cbn [sb_kappa ex_sbm]. lra. }
  pose proof (T 0%nat ltac:(lia)) as T0. pose proof (T 1%nat ltac:(lia)) as T1.
  unfold self_ll in T0, T1. cbn in T0, T1.
  assert (ln (1 - 1/2) < ln (1 - 1/4)) by (apply ln_increasing; lra). lra.
Qed.
Print Assumptions C31_self_pair_counted_twice_refuted.

(** Contracts of the samplers used by one network update. *)
Definition draws_ok (C : nat) (d : gibbs_draws) : Prop :=
  (forall a b x y, 0 <= gd_beta d a b x y <= 1) /\ (forall a b x y, 0 < gd_gamma d a b x y) /\
  (forall k lp, (gd_pick d k lp < C)%nat) /\ (forall al, simplex C (gd_dir d al)).
Definition sbm_valid (s : sbm) : Prop :=
  labels_ok s /\ simplex (sb_C s) (sb_m s) /\
  (forall a b, (a < sb_C s)%nat -> (b < sb_C s)%nat -> 0 <= sb_p s a b <= 1 /\ 0 < sb_v s a b).
(** A history of Gibbs updates with arbitrary adjacency and weights. *)
Fixpoint sbm_history (lgam : R -> R) (fixed_p : bool) (h : list (gibbs_draws * bmat * mat)) (s : sbm) : sbm :=
  match h with
  | [] => s
  | (d, A, W) :: h' => sbm_history lgam fixed_p h' (sbm_resample lgam fixed_p d A W s)
  end.
Lemma resample_c_range lgam pick s A W :
  labels_ok s -> (forall k lp, (pick k lp < sb_C s)%nat) ->
  forall k, (k < sb_K s)%nat -> (resample_c lgam pick s A W k < sb_C s)%nat.
Proof.
  intros Hl Hp k Hk. destruct (sb_C s =? 1)%nat eqn:E.
  - unfold resample_c. rewrite E. auto.
  - destruct (@resample_c_scan lgam pick s A W E) as [_ H]. rewrite H by auto. auto.
Qed.
Lemma sbm_resample_dims lgam fp d A W s :
  sb_K (sbm_resample lgam fp d A W s) = sb_K s /\ sb_C (sbm_resample lgam fp d A W s) = sb_C s /\
  sb_allow (sbm_resample lgam fp d A W s) = sb_allow s /\ sb_fixed (sbm_resample lgam fp d A W s) = sb_fixed s.
Proof. unfold sbm_resample. destruct (sb_fixed s) eqn:E; [auto|]. destruct fp; cbn; auto. Qed.
Lemma sbm_resample_valid lgam fp d A W s : draws_ok (sb_C s) d -> sbm_valid s -> sbm_valid (sbm_resample lgam fp d A W s).
Proof.
  intros (Hb & Hg & Hp & Hd) (Hl & Hm & Hpv). unfold sbm_resample. destruct (sb_fixed s) eqn:E; [exact (conj Hl (conj Hm Hpv))|].
  destruct fp; (split; [|split]).
  - intros k Hk. cbn [sb_c sb_C sb_K sb_set] in *.
    match goal with |- (resample_c _ _ ?s1 _ _ _ < _)%nat => exact (@resample_c_range lgam (gd_pick d) s1 A W Hl Hp k Hk) end.
  - cbn. apply Hd.
  - cbn. intros a b Ha Hb'. split; [apply Hpv; auto|apply Hg].
  - intros k Hk. cbn [sb_c sb_C sb_K sb_set] in *.
    match goal with |- (resample_c _ _ ?s1 _ _ _ < _)%nat => exact (@resample_c_range lgam (gd_pick d) s1 A W Hl Hp k Hk) end.
  - cbn. apply Hd.
  - cbn. intros a b Ha Hb'. split; [apply Hb|apply Hg].
Qed.
Theorem C31_labels_in_range : forall lgam fixed_p h s, sbm_valid s ->
  (forall d A W, In (d, A, W) h -> draws_ok (sb_C s) d) ->
  sbm_valid (sbm_history lgam fixed_p h s) /\ sb_C (sbm_history lgam fixed_p h s) = sb_C s /\
  sb_K (sbm_history lgam fixed_p h s) = sb_K s.
Proof.
  intros lgam fp h. induction h as [|[[d A] W] h IH]; intros s Hv Hd; cbn [sbm_history]; [auto|].
  destruct (sbm_resample_dims lgam fp d A W s) as (E1 & E2 & _).
  destruct (IH (sbm_resample lgam fp d A W s)) as (H1 & H2 & H3).
  - apply sbm_resample_valid; auto. apply (Hd d A W). now left.
  - intros d' A' W' Hin. rewrite E2. apply (Hd d' A' W'). now right.
  - rewrite H2, H3, E1, E2. auto.
Qed.
Print Assumptions C31_labels_in_range.
Example C31_nonvacuous : sbm_pos (ex_sbm true) /\ labels_ok (ex_sbm true) /\ sbm_valid (ex_sbm true) /\
  pos_edges (sb_K (ex_sbm true)) ex_adj (fun _ _ => 1) /\ sb_C (ex_sbm true) <> 1%nat.
Proof.
  assert (Hl : labels_ok (ex_sbm true)) by (intros [|k] _; cbn; lia).
  split; [split; cbn; intros; [lra|]; split; [|lra]; destruct (a =? b)%nat; [destruct (a =? 0)%nat|]; lra|].
  split; [exact Hl|]. split; [split; [exact Hl|split]|].
  - split; [cbn; intros; lra|cbn; lra].
  - cbn; intros. split; [|lra]. destruct (a =? b)%nat; [destruct (a =? 0)%nat|]; lra.
  - split; [intros ? ? _ _ _; lra|cbn; lia].
Qed.

(* ------------------------------------------------------------------ *)
(** ** C32 *)

Lemma bindr_ok {A B} (m : result A) (k : A -> result B) y : bindr m k = Ok y -> exists x, m = Ok x /\ k x = Ok y.
Proof. destruct m as [x|e]; cbn [bindr]; [eauto|discriminate]. Qed.

(** What the caller passed, as tables. *)
Definition given_table (a : parg) (M : mat) (C : nat) : Prop :=
  match a with
  | PScalar x => forall i j, (i < C)%nat -> (j < C)%nat -> M i j = x
  | PArray _ _ X => forall i j, (i < C)%nat -> (j < C)%nat -> M i j = X i j
  end.
Lemma table_of_given C hi a M : table_of C hi a = Ok M -> given_table a M C.
Proof.
  destruct a as [x|r c X]; cbn [table_of given_table].
  - destruct (Rleb 0 x && _)%bool; cbn; [|discriminate]. intros [= <-]. intros. ring.
  - destruct (_ && _)%bool; cbn; [|discriminate]. intros [= <-]. auto.
Qed.

(** Construction either fails, or keeps all of labels, probabilities and scales (and then the network is
    fixed and no Gibbs history changes it), or keeps none of them: they are replaced by fresh draws. *)
Theorem C32_all_or_nothing : forall a d s, sbm_init a d = Ok s ->
  (exists n c p v, ar_c a = Some (n, c) /\ ar_p a = Some p /\ ar_v a = Some v /\
     (forall k, (k < ar_K a)%nat -> Z.of_nat (sb_c s k) = c k /\ (sb_c s k < ar_C a)%nat) /\
     given_table p (sb_p s) (ar_C a) /\ given_table v (sb_v s) (ar_C a) /\
     sb_fixed s = true /\ forall lgam h, sbm_history lgam false h s = s)
  \/
  (sb_fixed s = false /\ sb_c s = dr_c2 d /\ sb_p s = dr_p2 d (ar_tau1 a) (ar_tau0 a) /\
   sb_v s = dr_v2 d (ar_alpha a) (1 / ar_beta a) /\ forall b, sb_m s b = 1 / INR (ar_C a)).
Proof.
  intros a d s H. unfold sbm_init in H. apply bindr_ok in H as (s0 & Hb & H).
  unfold sbm_base_init in Hb. cbv zeta in Hb.
  apply bindr_ok in Hb as ([] & _ & Hb). apply bindr_ok in Hb as (pi & _ & Hb). apply bindr_ok in Hb as (m & _ & Hb).
  apply bindr_ok in Hb as (c' & Hc & Hb). apply bindr_ok in Hb as (p' & Hp & Hb). apply bindr_ok in Hb as (v' & Hv & Hb).
  apply bindr_ok in Hb as (f & Hf & Hb). injection Hb as <-. cbn [sb_fixed] in H.
  destruct f; cbn [negb] in H; injection H as <-.
  - right. cbn [sb_fixed sb_c sb_p sb_v sb_m sb_set sb_tau1 sb_tau0 sb_alpha sb_beta negb].
    split; [auto|split; [auto|split; [auto|split; [auto|intros; ring]]]].
  - left. destruct (ar_c a) as [[n c]|] eqn:Ec; [|discriminate Hf].
    cbn [none_in] in Hf. destruct (n <=? 1)%nat; [|discriminate].
    destruct (ar_p a) as [p|] eqn:Ep; [|discriminate Hf].
    destruct (ar_v a) as [v|] eqn:Ev.
    2:{ destruct p as [x|r cc X]; cbn [member_of none_in] in Hf; [discriminate|].
        destruct (r * cc <=? 1)%nat; discriminate. }
    exists n, c, p, v. cbn [sb_c sb_p sb_v sb_fixed]. split; [auto|]. split; [auto|]. split; [auto|]. split.
    { apply bindr_ok in Hc as ([] & H1 & Hc). apply bindr_ok in Hc as ([] & _ & Hc). apply bindr_ok in Hc as ([] & Er & Hc).
      unfold guard in H1, Er. destruct (n =? ar_K a)%nat eqn:En; [|discriminate]. apply Nat.eqb_eq in En.
      destruct (forall_lt n _) eqn:Ef; [|discriminate]. injection Hc as <-.
      intros k Hk. rewrite forall_lt_true in Ef. assert (Hkn : (k < n)%nat) by lia. specialize (Ef k Hkn).
      apply andb_true_iff in Ef as [E1 E2]. apply Z.leb_le in E1, E2. lia. }
    split; [eapply table_of_given; eauto|]. split; [eapply table_of_given; eauto|]. split; [reflexivity|].
    intros lgam h. induction h as [|[[d' A] W] h IH]; [reflexivity|]. exact IH.
Qed.
Print Assumptions C32_all_or_nothing.

(** Explicit labels can never be given to a network of two or more nodes ... *)
Theorem C32_labels_rejected_refuted : forall a d n c, ar_c a = Some (n, c) -> (2 <= ar_K a)%nat ->
  is_ok (sbm_init a d) = false.
Proof.
  intros a d n c Hc HK. destruct (sbm_init a d) as [s|] eqn:E; [|reflexivity]. exfalso.
  unfold sbm_init in E. apply bindr_ok in E as (s0 & Hb & _). unfold sbm_base_init in Hb. cbv zeta in Hb. rewrite Hc in Hb.
  apply bindr_ok in Hb as ([] & _ & Hb). apply bindr_ok in Hb as (pi & _ & Hb). apply bindr_ok in Hb as (m & _ & Hb).
  apply bindr_ok in Hb as (c' & Hc' & Hb). apply bindr_ok in Hb as (p' & _ & Hb). apply bindr_ok in Hb as (v' & _ & Hb).
  apply bindr_ok in Hb as (f & Hf & _). apply bindr_ok in Hc' as ([] & H1 & _).
  unfold guard in H1. destruct (Nat.eqb_spec n (ar_K a)); [|discriminate].
  cbn [none_in] in Hf. destruct (Nat.leb_spec n 1); [lia|discriminate].
Qed.
Print Assumptions C32_labels_rejected_refuted.
(** ... and a given connection probability (with or without scales) is silently discarded. *)
Theorem C32_probability_discarded_refuted : forall K C x y d, (1 <= C)%nat -> 0 <= x <= 1 -> 0 <= y ->
  exists s, sbm_init {| ar_K := K; ar_C := C; ar_c := None; ar_m := None; ar_pi := PiScalar 1;
                        ar_p := Some (PScalar x); ar_tau0 := 1/10; ar_tau1 := 1/10; ar_v := Some (PScalar y);
                        ar_alpha := 1; ar_beta := 1; ar_kappa := 1; ar_allow := true |} d = Ok s /\
  sb_p s = dr_p2 d (1/10) (1/10) /\ sb_v s = dr_v2 d 1 (1 / 1).
Proof.
  intros K C x y d HC [Hx1 Hx2] Hy. unfold sbm_init, sbm_base_init.
  cbn [ar_C ar_K ar_c ar_m ar_pi ar_p ar_tau0 ar_tau1 ar_v ar_alpha ar_beta ar_kappa ar_allow].
  destruct (Nat.leb_spec 1 C); [|lia]. cbn [guard bindr table_of].
  apply Rleb_true in Hx1, Hx2, Hy. rewrite Hx1, Hx2, Hy. cbn [guard bindr andb none_in negb].
  eexists. split; [reflexivity|]. split; reflexivity.
Qed.
Print Assumptions C32_probability_discarded_refuted.
(** A one-node network can be fixed. *)
Example C32_nonvacuous : forall d, exists s, sbm_init
   {| ar_K := 1; ar_C := 2; ar_c := Some (1%nat, fun _ => 1%Z); ar_m := None; ar_pi := PiScalar 1;
      ar_p := Some (PScalar (1/4)); ar_tau0 := 1/10; ar_tau1 := 1/10; ar_v := Some (PScalar 5);
      ar_alpha := 1; ar_beta := 1; ar_kappa := 1; ar_allow := true |} d = Ok s /\ sb_fixed s = true.
Proof.
  intros d. unfold sbm_init, sbm_base_init. cbn -[Rleb].
  replace (Rleb 0 (1/4)) with true by (symmetry; apply Rleb_true; lra).
  replace (Rleb (1/4) 1) with true by (symmetry; apply Rleb_true; lra).
  replace (Rleb 0 5) with true by (symmetry; apply Rleb_true; lra).
  cbn. eexists. split; reflexivity.
Qed.

(* ------------------------------------------------------------------ *)
(** ** C33 *)

Inductive fs_op :=
| FGibbs (d : gibbs_draws) (A : bmat) (W : mat)
| FBatch (fl : flags) (w : wstats)
| FSgd (fl : flags) (step : R) (w : wstats)
| FSample (d : mf_draws).
(** One operation on a fixed-sparsity network; an operation that raises leaves it as it was. *)
Definition fs_step (lgam psi : R -> R) (o : fs_op) (x : sbm * mfsbm) : result (sbm * mfsbm) :=
  let '(s, f) := x in
  match o with
  | FGibbs d A W => Ok (sbm_resample lgam true d A W s, f)
  | FBatch fl w => do f' <- fsbm_mf_batch lgam psi s fl w f ;; Ok (s, f')
  | FSgd fl step w => do f' <- fsbm_mf_sgd lgam psi s fl step w f ;; Ok (s, f')
  | FSample d => Ok (sbm_from_mf true d f s, f)
  end.
Fixpoint fs_run lgam psi (h : list fs_op) (x : sbm * mfsbm) : sbm * mfsbm :=
  match h with
  | [] => x
  | o :: h' => fs_run lgam psi h' (match fs_step lgam psi o x with Ok y => y | Raise _ => x end)
  end.
Theorem C33_sparsity_kept : forall lgam psi a d mf0 s h, fsbm_init a d = Ok s ->
  exists p, ar_p a = Some p /\ given_table p (sb_p s) (ar_C a) /\
  sb_p (fst (fs_run lgam psi h (s, mf0))) = sb_p s.
Proof.
  intros lgam psi a d mf0 s h H. unfold fsbm_init in H. destruct (ar_p a) as [p|] eqn:Ep; [|discriminate].
  destruct (sbm_init a d) as [s0|]; cbn [bindr] in H; [|discriminate].
  destruct (table_of (ar_C a) (Some 1) p) as [p'|] eqn:Tp; cbn [bindr] in H; [|discriminate].
  injection H as <-. exists p. split; [reflexivity|]. split; [cbn; eapply table_of_given; eauto|].
  set (s1 := sb_set s0 _ _ _ _). clearbody s1. clear.
  assert (G : forall h x, sb_p (fst (fs_run lgam psi h x)) = sb_p (fst x)).
  { induction h0 as [|o h0 IH]; intros [s f]; cbn [fs_run]; [reflexivity|]. rewrite IH.
    destruct o as [d' A W|fl w|fl st w|d']; cbn [fs_step].
    - unfold sbm_resample. destruct (sb_fixed s); reflexivity.
    - unfold fsbm_mf_batch. destruct (guard _ _) as [[]|]; reflexivity.
    - unfold fsbm_mf_sgd. destruct (guard _ _) as [[]|]; reflexivity.
    - reflexivity. }
  exact (G h (s1, mf0)).
Qed.
Print Assumptions C33_sparsity_kept.
Theorem C33_refuses_update : forall lgam psi s fl w step f, up_p fl = true ->
  fsbm_mf_batch lgam psi s fl w f = Raise AssertionError /\
  fsbm_mf_sgd lgam psi s fl step w f = Raise AssertionError.
Proof. intros lgam psi s fl w step f H. unfold fsbm_mf_batch, fsbm_mf_sgd. rewrite H. split; reflexivity. Qed.
(** The variational bound is None, and the log probability raises. *)
Theorem C33_bound_refuted : forall lgam psi s f c v m,
  fsbm_vlb lgam psi s f c false v m = Ok PyNone /\ is_ok (fsbm_log_probability lgam s) = false.
Proof. intros. split; reflexivity. Qed.
Print Assumptions C33_bound_refuted.
Example C33_nonvacuous : forall d, exists s, fsbm_init
   {| ar_K := 5; ar_C := 2; ar_c := None; ar_m := None; ar_pi := PiScalar 1;
      ar_p := Some (PScalar (1/4)); ar_tau0 := 1/10; ar_tau1 := 1/10; ar_v := None;
      ar_alpha := 1; ar_beta := 1; ar_kappa := 1; ar_allow := true |} d = Ok s /\ sb_p s 0%nat 1%nat = 1/4.
Proof.
  intros d. unfold fsbm_init, sbm_init, sbm_base_init. cbn -[Rleb].
  replace (Rleb 0 (1/4)) with true by (symmetry; apply Rleb_true; lra).
  replace (Rleb (1/4) 1) with true by (symmetry; apply Rleb_true; lra).
  cbn. eexists. split; [reflexivity|]. cbn. lra.
Qed.

(* ------------------------------------------------------------------ *)
(** ** C34 *)

Definition mf_valid (s : sbm) (f : mfsbm) : Prop :=
  (forall k, (k < sb_K s)%nat -> simplex (sb_C s) (mf_m f k)) /\
  (forall a, (a < sb_C s)%nat -> 0 < mf_pi f a) /\
  (forall a b, (a < sb_C s)%nat -> (b < sb_C s)%nat ->
     0 < mf_tau0 f a b /\ 0 < mf_tau1 f a b /\ 0 < mf_alpha f a b /\ 0 < mf_beta f a b).
Definition prior_pos (s : sbm) : Prop :=
  (1 <= sb_C s)%nat /\ (forall a, (a < sb_C s)%nat -> 0 < sb_pi s a) /\
  0 < sb_tau0 s /\ 0 < sb_tau1 s /\ 0 < sb_alpha s /\ 0 < sb_beta s /\ 0 < sb_kappa s.
(** Expectations a weight model can report. *)
Definition stats_ok (K : nat) (w : wstats) : Prop :=
  forall i j, (i < K)%nat -> (j < K)%nat -> 0 <= ws_A w i j <= 1 /\ 0 <= ws_W w i j.
Inductive mf_op := MBatch (fl : flags) (w : wstats) | MSgd (fl : flags) (step : R) (w : wstats).
Definition mf_step (lgam psi : R -> R) (s : sbm) (f : mfsbm) (o : mf_op) : mfsbm :=
  match o with
  | MBatch fl w => sbm_mf_batch lgam psi s fl w f
  | MSgd fl step w => sbm_mf_sgd lgam psi s fl step w f
  end.
Definition op_ok (K : nat) (o : mf_op) : Prop :=
  match o with
  | MBatch _ w => stats_ok K w
  | MSgd _ step w => stats_ok K w /\ 0 <= step <= 1
  end.

Lemma update_p_valid s f w step : prior_pos s -> stats_ok (sb_K s) w -> 0 <= step <= 1 ->
  mf_valid s f -> mf_valid s (mf_update_p s f w step).
Proof.
  intros (HC & Hpi & H0 & H1 & Ha & Hb & Hk) Hw Hs (Hm & Hp & Ht). split; [exact Hm|]. split; [exact Hp|].
  intros a b Hla Hlb. destruct (Ht a b Hla Hlb) as (T0 & T1 & T2 & T3). cbn.
  assert (Q : forall h : nat -> nat -> R, (forall i j, (i < sb_K s)%nat -> (j < sb_K s)%nat -> 0 <= h i j) ->
    0 <= Rsum (sb_K s) (fun i => Rsum (sb_K s) (fun j => mf_m f i a * mf_m f j b * h i j))).
  { intros h Hh. apply Rsum2_nonneg. intros i j Hi Hj. apply Rmult_le_pos; [apply Rmult_le_pos|auto]; apply Hm; auto. }
  split; [|split; [|split; auto]].
  - apply mix_step_pos; auto. unfold tau0_hat.
    pose proof (Q (fun i j => 1 - ws_A w i j)) as Q'. specialize (Q' ltac:(intros i j Hi Hj; destruct (Hw i j Hi Hj); lra)). lra.
  - apply mix_step_pos; auto. unfold tau1_hat.
    pose proof (Q (fun i j => ws_A w i j)) as Q'. specialize (Q' ltac:(intros i j Hi Hj; destruct (Hw i j Hi Hj); lra)). lra.
Qed.
Lemma update_v_valid s f w step : prior_pos s -> stats_ok (sb_K s) w -> 0 <= step <= 1 ->
  mf_valid s f -> mf_valid s (mf_update_v s f w step).
Proof.
  intros (HC & Hpi & H0 & H1 & Ha & Hb & Hk) Hw Hs (Hm & Hp & Ht). split; [exact Hm|]. split; [exact Hp|].
  intros a b Hla Hlb. destruct (Ht a b Hla Hlb) as (T0 & T1 & T2 & T3). cbn.
  assert (P : forall i j, (i < sb_K s)%nat -> (j < sb_K s)%nat -> 0 <= mf_m f i a * mf_m f j b * ws_A w i j).
  { intros i j Hi Hj. apply Rmult_le_pos; [apply Rmult_le_pos; apply Hm; auto|]. apply Hw; auto. }
  split; [auto|split; [auto|split]].
  - apply mix_step_pos; auto. unfold alpha_hat.
    assert (0 <= Rsum (sb_K s) (fun i => Rsum (sb_K s) (fun j => mf_m f i a * mf_m f j b * ws_A w i j * sb_kappa s))); [|lra].
    apply Rsum2_nonneg. intros i j Hi Hj. apply Rmult_le_pos; [auto|lra].
  - apply mix_step_pos; auto. unfold beta_hat.
    assert (0 <= Rsum (sb_K s) (fun i => Rsum (sb_K s) (fun j => mf_m f i a * mf_m f j b * ws_A w i j * ws_W w i j))); [|lra].
    apply Rsum2_nonneg. intros i j Hi Hj. apply Rmult_le_pos; [auto|]. apply Hw; auto.
Qed.
Lemma update_m_valid s f step : prior_pos s -> 0 <= step <= 1 ->
  mf_valid s f -> mf_valid s (mf_update_m s f step).
Proof.
  intros (HC & Hpi & _) Hs (Hm & Hp & Ht). split; [exact Hm|]. split; [|exact Ht].
  intros a Ha. cbn. apply mix_step_pos; auto. specialize (Hpi a Ha).
  assert (0 <= Rsum (sb_K s) (fun k => mf_m f k a)); [|lra]. apply Rsum_nonneg. intros k Hk. apply Hm; auto.
Qed.
Lemma update_c_valid lgam psi s f w step : prior_pos s -> 0 <= step <= 1 ->
  mf_valid s f -> mf_valid s (mf_update_c lgam psi s f w step).
Proof.
  intros (HC & _) Hs. unfold mf_update_c.
  assert (G : forall l f, mf_valid s f -> mf_valid s (fold_left (fun f' k => mf_c_row lgam psi s w step f' k) l f)).
  { induction l as [|k l IH]; intros g Hg; [exact Hg|]. cbn [fold_left]. apply IH. destruct Hg as (Hm & Hp & Ht).
    split; [|split; [exact Hp|exact Ht]]. intros i Hi. unfold mf_c_row, with_m, set_row. cbn [mf_m].
    set (lp := mf_c_lp lgam psi s g w k).
    destruct (Nat.eqb_spec i k) as [->|]; [|auto]. destruct (Hm k Hi) as [H1 H2]. split.
    - intros b Hb. apply mix_step_nonneg; auto. left. apply exp_pos.
    - unfold mix_step. rewrite Rsum_plus, !Rsum_scal, softmax_sum by lia.
      change (fun i => mf_m g k i) with (mf_m g k). rewrite H2. ring. }
  apply G.
Qed.
Theorem C34_variational_parameters_valid : forall lgam psi s f h, prior_pos s -> mf_valid s f ->
  (forall o, In o h -> op_ok (sb_K s) o) ->
  mf_valid s (fold_left (mf_step lgam psi s) h f).
Proof.
  intros lgam psi s f h Hs. revert f. induction h as [|o h IH]; intros f Hf Ho; [exact Hf|]. cbn [fold_left].
  apply IH; [|intros o' Hin; apply Ho; now right]. specialize (Ho o (or_introl eq_refl)).
  assert (H1 : 0 <= 1 <= 1) by lra.
  destruct o as [fl w|fl step w]; cbn [mf_step op_ok] in *.
  - unfold sbm_mf_batch, when. destruct (up_c fl), (up_v fl), (up_m fl);
      auto 10 using update_p_valid, update_v_valid, update_m_valid, update_c_valid.
  - destruct Ho as [Hw Hst]. unfold sbm_mf_sgd, when. destruct (up_p fl), (up_c fl), (up_v fl), (up_m fl);
      auto 10 using update_p_valid, update_v_valid, update_m_valid, update_c_valid.
Qed.
Print Assumptions C34_variational_parameters_valid.
(** Starting point, and what the parameters are used for. *)
Theorem C34_initial_valid : forall s d, prior_pos s ->
  (forall k, (k < sb_K s)%nat -> simplex (sb_C s) (d k)) -> mf_valid s (mf_init s d).
Proof.
  intros s d (HC & Hpi & H0 & H1 & Ha & Hb & Hk) Hd. split; [exact Hd|]. split; cbn; intros; [lra|].
  repeat split; lra.
Qed.
Lemma block_mean_bounds C m T lo hi i j : simplex C (m i) -> simplex C (m j) ->
  (forall a b, (a < C)%nat -> (b < C)%nat -> lo <= T a b <= hi) -> lo <= block_mean C m T i j <= hi.
Proof.
  intros [Hi Si] [Hj Sj] HT. unfold block_mean.
  assert (E : forall c, Rsum C (fun c1 => Rsum C (fun c2 => m i c1 * m j c2 * c)) = c).
  { intros c. rewrite (@Rsum_ext C _ (fun c1 => m i c1 * c)).
    - rewrite Rsum_scal_r. change (fun i0 => m i i0) with (m i). rewrite Si. ring.
    - intros a _. rewrite (@Rsum_ext C _ (fun c2 => m j c2 * (m i a * c))) by (intros; ring).
      rewrite Rsum_scal_r. change (fun i0 => m j i0) with (m j). rewrite Sj. ring. }
  split.
  - rewrite <- (E lo) at 1. apply Rsum_le. intros a Ha. apply Rsum_le. intros b Hb.
    apply Rmult_le_compat_l; [apply Rmult_le_pos; auto|]. apply HT; auto.
  - rewrite <- (E hi). apply Rsum_le. intros a Ha. apply Rsum_le. intros b Hb.
    apply Rmult_le_compat_l; [apply Rmult_le_pos; auto|]. apply HT; auto.
Qed.
Theorem C34_expected_probability_valid : forall s f i j, mf_valid s f -> sb_fixed s = false ->
  (i < sb_K s)%nat -> (j < sb_K s)%nat ->
  0 <= sbm_expected_p s f i j <= 1 /\ (possible (sb_allow s) i j = false -> sbm_expected_p s f i j = 0).
Proof.
  intros s f i j (Hm & Hp & Ht) Hf Hi Hj. unfold sbm_expected_p. rewrite Hf.
  assert (B : 0 <= block_mean (sb_C s) (mf_m f) (fun c1 c2 => mf_tau1 f c1 c2 / (mf_tau0 f c1 c2 + mf_tau1 f c1 c2)) i j <= 1).
  { apply block_mean_bounds; auto. intros a b Ha Hb. destruct (Ht a b Ha Hb) as (T0 & T1 & _). split.
    - left; apply Rdiv_lt_0_compat; lra.
    - apply Rmult_le_reg_r with (mf_tau0 f a b + mf_tau1 f a b); [lra|]. unfold Rdiv. rewrite Rmult_assoc, Rinv_l by lra. lra. }
  unfold possible. destruct (sb_allow s); cbn [negb orb]; [split; [exact B|discriminate]|].
  unfold fill_diagonal. destruct (Nat.eqb_spec i j) as [E|]; cbn [negb]; split; auto; try lra; discriminate.
Qed.
Print Assumptions C34_expected_probability_valid.
(** A full label update sets row k to the normalised exponentials. *)
Theorem C34_label_row_softmax : forall lgam psi s w f k c, (1 <= sb_C s)%nat ->
  mf_m (mf_c_row lgam psi s w 1 f k) k c
  = exp (mf_c_lp lgam psi s f w k c) / Rsum (sb_C s) (fun c' => exp (mf_c_lp lgam psi s f w k c')).
Proof.
  intros lgam psi s w f k c HC. unfold mf_c_row, with_m, set_row. cbn [mf_m]. rewrite Nat.eqb_refl, mix_step_1.
  apply softmax_ratio. lia.
Qed.
Example C34_nonvacuous : prior_pos (ex_sbm true) /\ mf_valid (ex_sbm true) (mf_init (ex_sbm true) (fun _ _ => 1/2)) /\
  op_ok 3 (MSgd {| up_p := true; up_v := true; up_m := true; up_c := true |} (1/2)
             {| ws_A := fun _ _ => 1/2; ws_W := fun _ _ => 1; ws_lnW := fun _ _ => -1 |}).
Proof.
  assert (P : prior_pos (ex_sbm true)) by (repeat split; cbn; intros; lra || lia).
  split; [exact P|]. split.
  - apply C34_initial_valid; [exact P|]. intros k _. split; cbn; intros; lra.
  - cbn. split; [intros i j _ _; cbn|]; lra.
Qed.

(* ------------------------------------------------------------------ *)
(** ** C73: update flags *)

(** The stochastic update honours update_p ... *)
Theorem C73_sgd_honours_update_p : forall lgam psi s fl step w f, up_p fl = false ->
  mf_tau0 (sbm_mf_sgd lgam psi s fl step w f) = mf_tau0 f /\ mf_tau1 (sbm_mf_sgd lgam psi s fl step w f) = mf_tau1 f.
Proof.
  intros lgam psi s fl step w f H.
  assert (G : forall f, mf_tau0 (mf_update_c lgam psi s f w step) = mf_tau0 f /\ mf_tau1 (mf_update_c lgam psi s f w step) = mf_tau1 f).
  { intros g. unfold mf_update_c. generalize (seq 0 (sb_K s)). intros l. revert g.
    induction l as [|k l IH]; intros g; [auto|]. cbn [fold_left]. destruct (IH (mf_c_row lgam psi s w step g k)) as [-> ->]. auto. }
  assert (G0 : forall f, mf_tau0 (mf_update_c lgam psi s f w step) = mf_tau0 f) by (intros; apply G).
  assert (G1 : forall f, mf_tau1 (mf_update_c lgam psi s f w step) = mf_tau1 f) by (intros; apply G).
  unfold sbm_mf_sgd, when. rewrite H. destruct (up_c fl), (up_v fl), (up_m fl); split; rewrite ?G0, ?G1; reflexivity.
Qed.
Print Assumptions C73_sgd_honours_update_p.
(** ... the batch update does not look at it: it follows update_c instead. *)
Theorem C73_batch_ignores_update_p_refuted : forall lgam psi s fl fl' w f,
  up_v fl = up_v fl' -> up_m fl = up_m fl' -> up_c fl = up_c fl' ->
  sbm_mf_batch lgam psi s fl w f = sbm_mf_batch lgam psi s fl' w f.
Proof. intros lgam psi s fl fl' w f H1 H2 H3. unfold sbm_mf_batch. rewrite H1, H2, H3. reflexivity. Qed.
Theorem C73_batch_changes_p_refuted : forall lgam psi,
  exists s w f, mf_valid s f /\ stats_ok (sb_K s) w /\
  mf_tau1 (sbm_mf_batch lgam psi s {| up_p := false; up_v := false; up_m := false; up_c := true |} w f) 0%nat 0%nat
  <> mf_tau1 f 0%nat 0%nat.
Proof.
  intros lgam psi. exists (ex_sbm true), {| ws_A := fun _ _ => 1; ws_W := fun _ _ => 1; ws_lnW := fun _ _ => 0 |},
    (mf_init (ex_sbm true) (fun _ _ => 1/2)).
  split; [apply C34_nonvacuous|]. split; [intros i j _ _; cbn; lra|].
  unfold sbm_mf_batch, when. cbn [up_p up_v up_m up_c].
  assert (G : forall f w, mf_tau1 (mf_update_c lgam psi (ex_sbm true) f w 1) = mf_tau1 f).
  { intros g w. unfold mf_update_c. generalize (seq 0 (sb_K (ex_sbm true))). intros l. revert g.
    induction l as [|k l IH]; intros g; [auto|]. cbn [fold_left]. rewrite IH. reflexivity. }
  rewrite G. cbn [mf_update_p mf_tau1]. rewrite mix_step_1. unfold tau1_hat. cbn. lra.
Qed.
Print Assumptions C73_batch_changes_p_refuted.

(* ------------------------------------------------------------------ *)
(** ** C35 *)

Theorem C35_scale_settings : forall K p kappa alpha beta v allow n,
  er_init K p kappa alpha beta v allow = Ok n ->
  e_K n = K /\ e_p n = p /\ e_kappa n = kappa /\ e_allow n = allow /\
  (forall v0, v = Some v0 -> e_v n = v0 /\ e_alpha n = None /\ e_beta n = None) /\
  (forall a b, v = None -> alpha = Some a -> beta = Some b -> e_v n = a / b /\ e_alpha n = Some a /\ e_beta n = Some b) /\
  (forall a, v = None -> alpha = Some a -> beta = None -> e_v n = / INR K /\ e_alpha n = Some a /\ e_beta n = Some (a * INR K)) /\
  (v = None -> alpha = None -> beta = None -> e_v n = INR K * kappa * p * 2 /\ e_alpha n = None /\ e_beta n = None).
Proof.
  intros K p kappa alpha beta v allow n H. unfold er_init in H.
  destruct alpha as [a|], beta as [b|], v as [v0|]; cbn [bindr] in H; try discriminate.
  - injection H as <-. cbn. repeat split; congruence.
  - destruct (Reqb b 0) eqn:E; cbn in H; [discriminate|]. injection H as <-. cbn. repeat split; try congruence.
  - injection H as <-. cbn. repeat split; congruence.
  - destruct (Reqb (a * INR K) 0) eqn:E; cbn in H; [discriminate|]. injection H as <-. apply Reqb_false in E. cbn.
    split; [auto|]. split; [auto|]. split; [auto|]. split; [auto|]. split; [intros; discriminate|]. split; [intros; discriminate|].
    split; [|intros; discriminate]. intros a' _ [= <-] _. split; [|auto]. field. split; intros Hz; apply E; rewrite Hz; ring.
  - injection H as <-. cbn. repeat split; congruence.
  - injection H as <-. cbn. repeat split; congruence.
  - injection H as <-. cbn. split; [auto|]. split; [auto|]. split; [auto|]. split; [auto|].
    split; [intros; discriminate|]. split; [intros; discriminate|]. split; [intros; discriminate|].
    intros _ _ _. split; [field|auto].
Qed.
Print Assumptions C35_scale_settings.

(** The scale update draws from the conjugate posterior (one block) when alpha and beta are given, and does nothing
    otherwise. *)
Theorem C35_scale_update : forall lgam K p kappa alpha beta v allow n A W g,
  er_init K p kappa alpha beta v allow = Ok n -> (allow = false -> no_self_edges K A) ->
  (v = None /\ exists a b, e_alpha n = Some a /\ e_beta n = Some b /\ a <> 0 /\
     exists a' b', er_resample g A W n = er_with_v n (g a' (1 / b')) /\
       same_law (fun x => 0 < x) (v_joint lgam K allow (fun _ => 0%nat) kappa a b A W 0 0)
                (fun x => gamma_lpdf lgam a' b' x))
  \/ er_resample g A W n = n.
Proof.
  intros lgam K p kappa alpha beta v allow n A W g H HA.
  destruct (C35_scale_settings _ _ _ _ _ _ _ H) as (EK & Ep & Ek & Eal & _).
  unfold er_resample. destruct (e_alpha n) as [a|] eqn:Ea; [|now right]. destruct (e_beta n) as [b|] eqn:Eb; [|now right].
  destruct (truthy (Some a) && truthy (Some b))%bool eqn:Et; [|now right]. left.
  assert (Hv : v = None).
  { unfold er_init in H. destruct alpha, beta, v; cbn in H; try discriminate; auto;
      injection H as <-; cbn in Ea; discriminate. }
  split; [exact Hv|]. exists a, b. split; [auto|]. split; [auto|]. split.
  { apply andb_true_iff in Et as [Et _]. cbn in Et. destruct (Reqb a 0) eqn:E; [discriminate|]. now apply Reqb_false in E. }
  unfold er_v_request. eexists. eexists. split; [reflexivity|].
  assert (E : forall (h : nat -> nat -> R), (forall k, (k < K)%nat -> A k k = false -> h k k = 0) ->
    Rsum K (fun i => Rsum K (fun j => if (possible allow i j && in_block (fun _ => 0%nat) 0 0 i j)%bool then h i j else 0))
    = Rsum K (fun i => Rsum K (h i))).
  { intros h Hh. apply Rsum2_ext. intros i j Hi Hj. unfold in_block. cbn [Nat.eqb andb]. rewrite andb_true_r.
    destruct allow; cbn [possible orb]; [reflexivity|]. unfold possible. cbn [orb].
    destruct (Nat.eqb_spec i j) as [->|]; cbn [negb]; [|reflexivity]. rewrite Hh; [reflexivity|auto|apply HA; auto]. }
  eexists. intros x Hx. rewrite v_joint_eq by auto. cbv zeta beta.
  rewrite (E (fun i j => b2R (A i j))) by (intros k _ ->; reflexivity).
  rewrite (E (fun i j => if A i j then W i j else 0)) by (intros k _ ->; reflexivity).
  rewrite EK, Ek. reflexivity.
Qed.
Print Assumptions C35_scale_update.
(** A given scale (or the default one) is never changed by Gibbs sampling. *)
Theorem C35_fixed_scale_kept : forall K p kappa alpha beta v allow n (h : list ((R -> R -> R) * bmat * mat)),
  er_init K p kappa alpha beta v allow = Ok n -> (v <> None \/ (alpha = None /\ beta = None)) ->
  fold_left (fun n x => er_resample (fst (fst x)) (snd (fst x)) (snd x) n) h n = n.
Proof.
  intros K p kappa alpha beta v allow n h H Hc.
  assert (Ha : e_alpha n = None).
  { unfold er_init in H. destruct alpha, beta, v; cbn in H; try discriminate;
      try (injection H as <-; reflexivity); destruct Hc as [Hc|[Hc Hc']]; congruence. }
  induction h as [|x h IH]; [reflexivity|]. cbn [fold_left].
  replace (er_resample (fst (fst x)) (snd (fst x)) (snd x) n) with n; [exact IH|].
  unfold er_resample. now rewrite Ha.
Qed.
Print Assumptions C35_fixed_scale_kept.
(** Mean-field updates work exactly when alpha and beta were given; log_probability never works. *)
Theorem C35_mean_field_partial : forall K p kappa a b allow n w step, 0 < a -> 0 < b ->
  er_init K p kappa (Some a) (Some b) None allow = Ok n ->
  e_mf n = Some (a, b) /\ er_expected_v n = Ok (a / b) /\
  er_meanfieldupdate n w step = Ok (er_with_mf n
    (mix_step step a (a + Rsum K (fun i => Rsum K (fun j => ws_A w i j * kappa))),
     mix_step step b (b + Rsum K (fun i => Rsum K (fun j => ws_A w i j * ws_W w i j))))).
Proof.
  intros K p kappa a b allow n w step Ha Hb H. unfold er_init in H.
  destruct (Reqb b 0) eqn:E; [apply Reqb_true in E; lra|]. cbn [bindr truthy] in H.
  destruct (Reqb a 0) eqn:E'; [apply Reqb_true in E'; lra|]. rewrite E in H. cbn in H. injection H as <-.
  unfold er_expected_v, er_meanfieldupdate. cbn. auto.
Qed.
Print Assumptions C35_mean_field_partial.
Theorem C35_mean_field_default_refuted : forall lgam psi K p kappa allow w step,
  exists n, er_init K p kappa None None None allow = Ok n /\
  is_ok (er_expected_v n) = false /\ is_ok (er_expected_log_v psi n) = false /\
  is_ok (er_meanfieldupdate n w step) = false /\ is_ok (er_get_vlb lgam psi n) = false.
Proof. intros. eexists. split; [reflexivity|]. cbn. auto. Qed.
Theorem C35_log_probability_refuted : forall n, is_ok (er_log_probability n) = false.
Proof. reflexivity. Qed.
(** The non-fixed Erdos-Renyi model cannot be constructed with two or more nodes. *)
Theorem C35_erdos_renyi_model_refuted : forall K p tau0 tau1 v alpha beta kappa d, (2 <= K)%nat ->
  is_ok (erdos_renyi_init K p tau0 tau1 v alpha beta kappa d) = false.
Proof. intros. eapply C32_labels_rejected_refuted; [reflexivity|]. exact H. Qed.
Print Assumptions C35_erdos_renyi_model_refuted.
Example C35_nonvacuous : exists n, er_init 3 (1/4) 1 (Some 2) (Some 4) None false = Ok n /\ e_v n = 1/2.
Proof.
  unfold er_init. destruct (Reqb 4 0) eqn:E; [apply Reqb_true in E; lra|]. cbn. eexists. split; [reflexivity|]. cbn. lra.
Qed.
