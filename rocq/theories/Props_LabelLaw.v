(** * Props_LabelLaw: C128, what a complete sweep over the block labels leaves invariant. *)
From Coquelicot Require Import Coquelicot.
From Coq Require Import FunctionalExtensionality.
From Verif Require Import Prelude ExtReal Arrays Spec_Gibbs Spec_Network Spec_LabelLaw M_Network M_LabelLaw L_Network L_LabelLaw Props_Network.
Set Implicit Arguments.
Open Scope R_scope.

(** Splitting the pairs into those that touch node k and the others. *)
Lemma split_sum K (sel : nat -> nat -> bool) k (h : nat -> nat -> R) :
  Rsum K (fun i => Rsum K (fun j => if sel i j then h i j else 0)) =
  Rsum K (fun i => Rsum K (fun j => if (sel i j && touches k i j)%bool then h i j else 0))
  + Rsum K (fun i => Rsum K (fun j => if (sel i j && negb (touches k i j))%bool then h i j else 0)).
Proof.
  rewrite <- Rsum_plus. apply Rsum_ext. intros i _. rewrite <- Rsum_plus. apply Rsum_ext. intros j _.
  destruct (sel i j), (touches k i j); cbn; ring.
Qed.
Lemma pick_term K k (f : nat -> R) : (k < K)%nat -> Rsum K f = f k + Rsum K (fun j => if Nat.eqb j k then 0 else f j).
Proof.
  induction K as [|K IH]; intros Hk; [lia|]. cbn [Rsum]. destruct (Nat.eq_dec k K) as [->|N].
  - rewrite Nat.eqb_refl. rewrite (@Rsum_ext K (fun j => if Nat.eqb j K then 0 else f j) f); [ring|]. intros j Hj.
    destruct (Nat.eqb_spec j K); [lia|reflexivity].
  - rewrite IH by lia. destruct (Nat.eqb_spec K k); [lia|ring].
Qed.

(** The log joint of the labels as a function of the label x of node k. *)
Lemma labels_lp_split lgam K allow c m p v kappa A W k : (k < K)%nat -> exists r, forall x,
  labels_lp lgam K allow (upd c k x) m p v kappa A W = c_joint lgam K allow c m p v kappa A W k x + r.
Proof.
  intros Hk. exists (Rsum K (fun j => if Nat.eqb j k then 0 else ln (m (c j)))
    + Rsum K (fun i => Rsum K (fun j => if (possible allow i j && negb (touches k i j))%bool then bern_ll (p (c i) (c j)) (A i j) else 0))
    + Rsum K (fun i => Rsum K (fun j => if (possible allow i j && negb (touches k i j))%bool then (if A i j then gamma_lpdf lgam kappa (v (c i) (c j)) (W i j) else 0) else 0))).
  intros x. unfold labels_lp, c_joint. cbv zeta. set (c' := upd c k x).
  assert (O : forall i j, touches k i j = false -> c' i = c i /\ c' j = c j).
  { intros i j H. unfold touches in H. apply Bool.orb_false_iff in H as [H1 H2]. apply Nat.eqb_neq in H1, H2. unfold c'. rewrite !upd_neq by auto. auto. }
  assert (E1 : Rsum K (fun k0 => ln (m (c' k0))) = ln (m x) + Rsum K (fun j => if Nat.eqb j k then 0 else ln (m (c j)))).
  { rewrite (@pick_term K k) by exact Hk. unfold c' at 1. rewrite upd_eq. f_equal. apply Rsum_ext. intros j _. destruct (Nat.eqb_spec j k); [reflexivity|].
    unfold c'. now rewrite upd_neq. }
  assert (E2 : edges_ll K (possible allow) (fun i j => p (c' i) (c' j)) A =
    edges_ll K (fun i j => possible allow i j && touches k i j)%bool (fun i j => p (c' i) (c' j)) A
    + Rsum K (fun i => Rsum K (fun j => if (possible allow i j && negb (touches k i j))%bool then bern_ll (p (c i) (c j)) (A i j) else 0))).
  { unfold edges_ll. rewrite (split_sum K (possible allow) k). f_equal. apply Rsum_ext. intros i _. apply Rsum_ext. intros j _.
    destruct (possible allow i j); [|reflexivity]. destruct (touches k i j) eqn:T; [reflexivity|]. destruct (O i j T) as [-> ->]. reflexivity. }
  assert (E3 : weights_ll lgam K (possible allow) kappa (fun i j => v (c' i) (c' j)) A W =
    weights_ll lgam K (fun i j => possible allow i j && touches k i j)%bool kappa (fun i j => v (c' i) (c' j)) A W
    + Rsum K (fun i => Rsum K (fun j => if (possible allow i j && negb (touches k i j))%bool then (if A i j then gamma_lpdf lgam kappa (v (c i) (c j)) (W i j) else 0) else 0))).
  { unfold weights_ll. 
    rewrite (@Rsum_ext K _ (fun i => Rsum K (fun j => if possible allow i j then (if A i j then gamma_lpdf lgam kappa (v (c' i) (c' j)) (W i j) else 0) else 0))).
    2:{ intros i _. apply Rsum_ext. intros j _. destruct (possible allow i j), (A i j); reflexivity. }
    rewrite (split_sum K (possible allow) k). f_equal.
    - apply Rsum_ext. intros i _. apply Rsum_ext. intros j _. destruct (possible allow i j), (touches k i j), (A i j); reflexivity.
    - apply Rsum_ext. intros i _. apply Rsum_ext. intros j _. destruct (possible allow i j); [|reflexivity]. destruct (touches k i j) eqn:T; [reflexivity|].
      destruct (O i j T) as [-> ->]. reflexivity. }
  rewrite E1, E2, E3. ring.
Qed.

(** The density over labellings a sweep leaves invariant: the posterior, times the likelihood of every self pair once more
    (twice more, if self-connections are disallowed and the self pairs are not part of the model at all). *)
Definition posterior (lgam : R -> R) (s : sbm) (A : bmat) (W : mat) (c : nat -> nat) : R :=
  exp (labels_lp lgam (sb_K s) (sb_allow s) c (sb_m s) (sb_p s) (sb_v s) (sb_kappa s) A W).
Definition extra_self (lgam : R -> R) (s : sbm) (A : bmat) (W : mat) (c : nat -> nat) : R :=
  exp ((if sb_allow s then 1 else 2) * Rsum (sb_K s) (fun k => self_ll lgam (sb_p s) (sb_v s) (sb_kappa s) A W k (c k))).
(** Averaged over the uniforms, the sweep takes F to e; the density d is invariant when F and e have the same sum under d. *)
Definition sweep_mean (lgam : R -> R) (s : sbm) (A : bmat) (W : mat) (F e : (nat -> nat) -> R) : Prop :=
  forall c, (forall k, (k < sb_K s)%nat -> (c k < sb_C s)%nat) ->
    uniform_mean1 (sb_K s) (fun u => F (label_sweep lgam (with_labels s c) A W u)) (e c).
Definition leaves_invariant (s : sbm) (d F e : (nat -> nat) -> R) : Prop :=
  over_labellings (sb_K s) (sb_C s) (fun c => d c * e c) = over_labellings (sb_K s) (sb_C s) (fun c => d c * F c).

Theorem C128_sweep_law : forall lgam s A W, (0 < sb_C s)%nat -> sbm_pos s -> pos_edges (sb_K s) A W ->
  forall F, exists e, sweep_mean lgam s A W F e /\
    leaves_invariant s (fun c => posterior lgam s A W c * extra_self lgam s A W c) F e.
Proof.
  intros lgam s A W HC (Hm & Hpv) HW F. destruct (Nat.eqb (sb_C s) 1) eqn:E1.
  - exists F. split; [|reflexivity]. intros c Hc u0. unfold label_sweep, resample_c. cbn [with_labels sb_set sb_C sb_c]. rewrite E1. apply is_mean1_const.
  - set (req := fun c k => c_request lgam s A W c k).
    exists (lkern (sb_C s) req (seq 0 (sb_K s)) F). split.
    + intros c Hc u0. eapply is_mean1_ext; [apply seq_NoDup| |apply (@lscan_mean (sb_C s) req (seq 0 (sb_K s)) F HC); apply seq_NoDup].
      intros u' _. cbv beta. unfold label_sweep, resample_c. cbn [with_labels sb_set sb_C sb_c sb_K]. rewrite E1. reflexivity.
    + unfold leaves_invariant, over_labellings.
      apply (@lscan_invariant (sb_K s) (sb_C s) req (seq 0 (sb_K s))); [exact HC|apply seq_NoDup|intros j _; exact HC| | |auto].
      * intros k b y _ _. unfold req. apply functional_extensionality. intros x. unfold c_request. rewrite upd_same. reflexivity.
      * intros k b Hk Hb. apply in_seq in Hk. assert (Hk' : (k < sb_K s)%nat) by lia.
        destruct (@labels_lp_split lgam (sb_K s) (sb_allow s) b (sb_m s) (sb_p s) (sb_v s) (sb_kappa s) A W k Hk') as (r & Hr).
        set (sl := fun j x => self_ll lgam (sb_p s) (sb_v s) (sb_kappa s) A W j x).
        set (n := if sb_allow s then 1 else 2).
        exists (exp (r + n * Rsum (sb_K s) (fun j => if Nat.eqb j k then 0 else sl j (b j)))). intros x Hx.
        unfold req. rewrite c_request_eq by auto. cbn [fval]. fold (sl k x). fold n. unfold posterior, extra_self. fold n. rewrite Hr, <- !exp_plus. f_equal.
        rewrite (@pick_term (sb_K s) k (fun j => self_ll lgam (sb_p s) (sb_v s) (sb_kappa s) A W j (upd b k x j)) Hk'). rewrite upd_eq.
        rewrite (@Rsum_ext (sb_K s) (fun j => if Nat.eqb j k then 0 else self_ll lgam (sb_p s) (sb_v s) (sb_kappa s) A W j (upd b k x j)) (fun j => if Nat.eqb j k then 0 else sl j (b j))).
        2:{ intros j _. destruct (Nat.eqb_spec j k); [reflexivity|]. now rewrite upd_neq. }
        unfold sl. ring.
Qed.
Print Assumptions C128_sweep_law.

Lemma overl_scal C r ks : forall c F, over_labels C ks c (fun b => r * F b) = r * over_labels C ks c F.
Proof. induction ks as [|k ks IH]; intros c F; cbn [over_labels]; [reflexivity|]. rewrite <- Rsum_scal. apply Rsum_ext. intros; apply IH. Qed.

(** The posterior itself is left invariant when the blocks agree on their own connections (p[a,a] and v[a,a] the same for all
    blocks a). *)
Theorem C128_posterior_partial : forall lgam s A W, (0 < sb_C s)%nat -> sbm_pos s -> pos_edges (sb_K s) A W ->
  (forall a b, (a < sb_C s)%nat -> (b < sb_C s)%nat -> sb_p s a a = sb_p s b b /\ sb_v s a a = sb_v s b b) ->
  forall F, exists e, sweep_mean lgam s A W F e /\ leaves_invariant s (posterior lgam s A W) F e.
Proof.
  intros lgam s A W HC Hp HW Hd F. destruct (@C128_sweep_law lgam s A W HC Hp HW F) as (e & He & Hi). exists e. split; [exact He|].
  unfold leaves_invariant, over_labellings in *.
  set (r := extra_self lgam s A W (fun _ => 0%nat)).
  assert (Er : forall c, in_range (sb_K s) (sb_C s) c -> extra_self lgam s A W c = r).
  { intros c Hc. unfold r, extra_self. f_equal. f_equal. apply Rsum_ext. intros k Hk. unfold self_ll. destruct (Hd (c k) 0%nat (Hc k Hk) HC) as [-> ->]. reflexivity. }
  assert (H0 : in_range (sb_K s) (sb_C s) (fun _ => 0%nat)) by (intros j _; exact HC).
  assert (G : forall H, over_labels (sb_C s) (seq 0 (sb_K s)) (fun _ => 0%nat) (fun c => posterior lgam s A W c * extra_self lgam s A W c * H c)
     = r * over_labels (sb_C s) (seq 0 (sb_K s)) (fun _ => 0%nat) (fun c => posterior lgam s A W c * H c)).
  { intros H. rewrite <- overl_scal. apply (@overl_ext (sb_K s)); [exact H0|]. intros b Hb. rewrite (Er b Hb). ring. }
  rewrite !G in Hi. apply (Rmult_eq_reg_l r); [exact Hi|]. unfold r, extra_self. pose proof (exp_pos ((if sb_allow s then 1 else 2) * Rsum (sb_K s) (fun k => self_ll lgam (sb_p s) (sb_v s) (sb_kappa s) A W k 0%nat))). lra.
Qed.
Print Assumptions C128_posterior_partial.

(** ... and not in general: one node, two equally likely blocks with self-connection probabilities 1/4 and 1/2, and no
    self-connection.  The posterior odds are 3:2; after a sweep they are 9:4. *)
Definition one_node : sbm :=
  {| sb_K := 1; sb_C := 2; sb_pi := fun _ => 1; sb_tau0 := 1; sb_tau1 := 1; sb_kappa := 1; sb_alpha := 1; sb_beta := 1;
     sb_allow := true; sb_m := fun _ => 1/2; sb_c := fun _ => 0%nat;
     sb_p := fun a _ => if (a =? 0)%nat then 1/4 else 1/2; sb_v := fun _ _ => 1; sb_fixed := false |}.
Theorem C128_posterior_refuted : forall lgam, exists s A W F e,
  (0 < sb_C s)%nat /\ sbm_pos s /\ pos_edges (sb_K s) A W /\ sb_allow s = true /\
  sweep_mean lgam s A W F e /\ ~ leaves_invariant s (posterior lgam s A W) F e.
Proof.
  intros lgam. set (A := fun _ _ : nat => false). set (W := fun _ _ : nat => 1). set (F := fun c : nat -> nat => if (c 0%nat =? 0)%nat then 1 else 0).
  assert (Hp : sbm_pos one_node) by (split; cbn; intros; [lra|]; split; [|lra]; destruct (a =? 0)%nat; lra).
  assert (HW : pos_edges (sb_K one_node) A W) by (intros ? ? _ _ H; discriminate).
  destruct (@C128_sweep_law lgam one_node A W ltac:(cbn; lia) Hp HW F) as (e & He & Hi).
  exists one_node, A, W, F, e. split; [cbn; lia|]. split; [exact Hp|]. split; [exact HW|]. split; [reflexivity|]. split; [exact He|].
  intros Hn.
  set (c0 := upd (fun _ => 0%nat) 0 0%nat) in *. set (c1 := upd (fun _ => 0%nat) 0 1%nat) in *.
  assert (Ec : e c0 = e c1).
  { assert (R0 : forall k, (k < sb_K one_node)%nat -> (c0 k < sb_C one_node)%nat) by (intros [|k] Hk; cbn in *; lia).
    assert (R1 : forall k, (k < sb_K one_node)%nat -> (c1 k < sb_C one_node)%nat) by (intros [|k] Hk; cbn in *; lia).
    pose proof (He c0 R0 (fun _ => 0)) as H0. pose proof (He c1 R1 (fun _ => 0)) as H1.
    eapply is_mean1_unique; [exact H0|]. eapply is_mean1_ext; [apply seq_NoDup| |exact H1]. intros u _. cbv beta.
    assert (LS : forall c, label_sweep lgam (with_labels one_node c) A W u 0%nat = sample_from_log 2 (u 0%nat) (c_request lgam one_node A W c 0%nat))
      by (intros c; exact (upd_eq c 0%nat (sample_from_log 2 (u 0%nat) (c_request lgam one_node A W c 0%nat)))).
    unfold F. rewrite !LS.
    assert (EE : c_request lgam one_node A W c1 0 = c_request lgam one_node A W c0 0).
    { apply functional_extensionality. intros x. unfold c_request. unfold c0, c1. rewrite !upd_same. reflexivity. }
    rewrite EE. reflexivity. }
  assert (P : forall x, (x < 2)%nat -> posterior lgam one_node A W (upd (fun _ => 0%nat) 0 x) = 1/2 * (1 - sb_p one_node x x)).
  { intros x Hx. unfold posterior, labels_lp, edges_ll, weights_ll, possible, bern_ll, A. cbn [Rsum one_node sb_K sb_allow orb andb negb sb_m sb_p]. rewrite upd_eq.
    rewrite !Rplus_0_l, Rplus_0_r. rewrite exp_plus. rewrite !exp_ln; [reflexivity|destruct (x =? 0)%nat; lra|lra]. }
  assert (Q : forall x, (x < 2)%nat -> extra_self lgam one_node A W (upd (fun _ => 0%nat) 0 x) = 1 - sb_p one_node x x).
  { intros x Hx. unfold extra_self, self_ll, bern_ll, A. cbn [Rsum one_node sb_K sb_allow sb_p]. rewrite upd_eq.
    rewrite Rplus_0_l, Rplus_0_r, Rmult_1_l. rewrite exp_ln; [reflexivity|]. destruct (x =? 0)%nat; lra. }
  unfold leaves_invariant, over_labellings in Hi, Hn. cbn [one_node sb_K sb_C seq over_labels Rsum] in Hi, Hn.
  fold one_node in Hi, Hn. rewrite (P 0%nat), (P 1%nat), ?(Q 0%nat), ?(Q 1%nat) in Hi by lia. rewrite (P 0%nat), (P 1%nat) in Hn by lia.
  fold c0 c1 in Hi, Hn. rewrite Ec in Hi, Hn. unfold F in Hi, Hn. cbn in Hi, Hn. lra.
Qed.
Print Assumptions C128_posterior_refuted.

Example C128_nonvacuous :
  (0 < sb_C (ex_sbm true))%nat /\ sbm_pos (ex_sbm true) /\ pos_edges (sb_K (ex_sbm true)) ex_adj (fun _ _ => 1) /\
  sample_from_log 2 (1/4) (fun _ => Fin 0) = 0%nat /\ sample_from_log 2 (3/4) (fun _ => Fin 0) = 1%nat.
Proof.
  split; [cbn; lia|]. split; [split; cbn; intros; [lra|]; split; [|lra]; destruct (a =? b)%nat; [destruct (a =? 0)%nat|]; lra|].
  split; [intros ? ? _ _ _; lra|].
  assert (S1 : forall x, soft 2 (fun _ => Fin 0) x = / 2) by (intros x; unfold soft; cbn; rewrite exp_0; field).
  split; apply sample_between; try lia; cbn [Rsum]; rewrite ?S1; lra.
Qed.
