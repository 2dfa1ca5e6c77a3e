(** * Props_CtInterrupt: property C110: continuous-time Gibbs sweeps stopped by an exception or KeyboardInterrupt. *)
From Coq Require Import FunctionalExtensionality Permutation.
From Verif Require Import Prelude ExtReal Arrays Spec_Parents Spec_Gibbs Spec_Continuous M_Basis M_Parents M_Discrete M_Gibbs M_Dist M_Network M_Sweep
  L_Gibbs L_Sweep Props_Gibbs Props_Network Props_Sweep M_Continuous L_Continuous Props_Continuous Props_Continuous2 Props_Continuous3 Props_Continuous4
  Props_Continuous5 M_Interrupt L_Interrupt Props_Interrupt M_Query M_CtInterrupt.
Set Implicit Arguments.
Open Scope R_scope.

(** A model that can be read and sampled: everything C45 promises of a model at rest except that the stored statistics
    belong to the stored parents. *)
Record ct_usable (m : ctmodel) : Prop := {
  cu_hyp : ct_hypers_ok m;
  cu_net : net_ok (cm_K m) (cm_net m);
  cu_lam : forall k, (k < cm_K m)%nat -> 0 < cm_lam m k;
  cu_W : forall a b, (a < cm_K m)%nat -> (b < cm_K m)%nat -> 0 < cm_W m a b;
  cu_tau : forall a b, (a < cm_K m)%nat -> (b < cm_K m)%nat -> 0 < cm_tau m a b;
  cu_self : net_allow (cm_net m) = false -> forall k, (k < cm_K m)%nat -> cm_A m k k = false;
  cu_data : forall d, In d (cm_data m) -> data_ok (cm_K m) d /\ 0 <= cd_T d /\ parents_valid (cm_dtmax m) d }.
(** What a sweep may not change. *)
Definition same_ct (m m' : ctmodel) : Prop :=
  map events (cm_data m') = map events (cm_data m) /\ cm_K m' = cm_K m /\ cm_dtmax m' = cm_dtmax m /\
  net_C (cm_net m') = net_C (cm_net m) /\ net_allow (cm_net m') = net_allow (cm_net m) /\ cm_par m' = cm_par m /\
  (cm_alpha m', cm_beta m', cm_mu0 m', cm_lmbda0 m', cm_alpha0 m', cm_beta0 m') = (cm_alpha m, cm_beta m, cm_mu0 m, cm_lmbda0 m, cm_alpha0 m, cm_beta0 m).
Definition consistent_stats (m : ctmodel) : Prop := forall d, In d (cm_data m) -> stats_ok m d.

Lemma ct_inv_usable m : ct_inv m -> ct_usable m.
Proof. intros [H1 H2 H3 H4 H5 H6 H7]. constructor; auto. intros d Hd. destruct (H7 d Hd) as (A & B & _ & D). auto. Qed.
Lemma usable_inv m : ct_usable m -> consistent_stats m -> ct_inv m.
Proof. intros [H1 H2 H3 H4 H5 H6 H7] H. constructor; auto. intros d Hd. destruct (H7 d Hd) as (A & B & D). auto. Qed.
Lemma usable_params m : ct_usable m -> params_ok m.
Proof. intros H. split; [apply (cu_lam H)|]. split; [intros a b Ha Hb; apply Rlt_le, (cu_W H); auto|apply (cu_tau H)]. Qed.
Lemma same_ct_refl m : same_ct m m.
Proof. unfold same_ct. auto 10. Qed.
Lemma same_ct_trans a b c : same_ct a b -> same_ct b c -> same_ct a c.
Proof.
  intros (A1 & A2 & A3 & A4 & A5 & A6 & A7) (B1 & B2 & B3 & B4 & B5 & B6 & B7). unfold same_ct.
  split; [congruence|]. split; [congruence|]. split; [congruence|]. split; [congruence|]. split; [congruence|]. split; [congruence|].
  etransitivity; eassumption.
Qed.

(* ---------------- runs: a list of assignments with every intermediate state ---------------- *)
Fixpoint runs {St} (I : St -> Prop) (l : list (St -> result St)) (st st' : St) : Prop :=
  match l with
  | [] => st = st' /\ I st
  | f :: l' => I st /\ exists s1, f st = Ok s1 /\ runs I l' s1 st'
  end.
Lemma runs_app {St} (I : St -> Prop) l1 l2 a b c : runs I l1 a b -> runs I l2 b c -> runs I (l1 ++ l2) a c.
Proof.
  revert a. induction l1 as [|f l1 IH]; intros a H1 H2; cbn [app runs] in *.
  - destruct H1 as [-> _]. exact H2.
  - destruct H1 as (H & s & E & H1). split; [exact H|]. exists s. split; [exact E|]. now apply IH.
Qed.
Lemma runs_qexec {St} (I : St -> Prop) l a b : runs I l a b -> qexec l a = (Ok tt, b).
Proof.
  revert a. induction l as [|f l IH]; intros a H; cbn [qexec runs] in *; [destruct H as [-> _]; reflexivity|].
  destruct H as (_ & s & -> & H). now apply IH.
Qed.
Lemma runs_prefix {St} (I : St -> Prop) l a b n : runs I l a b -> exists s, qexec (firstn n l) a = (Ok tt, s) /\ I s.
Proof.
  revert n a. induction l as [|f l IH]; intros n a H; cbn [runs] in H.
  - destruct H as [-> H]. rewrite firstn_nil. exists b. auto.
  - destruct H as (H & s & E & Hr). destruct n; cbn [firstn qexec]; [exists a; auto|]. rewrite E. now apply IH.
Qed.
Lemma runs_end {St} (I : St -> Prop) l a b : runs I l a b -> I b.
Proof.
  revert a. induction l as [|f l IH]; intros a H; cbn [runs] in H; [destruct H as [-> H]; exact H|]. destruct H as (_ & s & _ & H). eauto.
Qed.
Lemma runs_weaken {St} (I J : St -> Prop) l a b : (forall s, I s -> J s) -> runs I l a b -> runs J l a b.
Proof.
  intros HI. revert a. induction l as [|f l IH]; intros a H; cbn [runs] in *; [intuition|]. destruct H as (H & s & E & Hr).
  split; [auto|]. exists s. auto.
Qed.
Lemma firstn_app_ge {A} n (l1 l2 : list A) : (List.length l1 <= n)%nat -> firstn n (l1 ++ l2) = l1 ++ firstn (n - List.length l1) l2.
Proof. intros H. rewrite firstn_app. now rewrite (@firstn_all2 _ n l1 H). Qed.
Lemma qexec_app {St} (l1 l2 : list (St -> result St)) a b : qexec l1 a = (Ok tt, b) -> qexec (l1 ++ l2) a = qexec l2 b.
Proof.
  revert a. induction l1 as [|f l1 IH]; intros a H; cbn [qexec app] in *; [injection H as ->; reflexivity|].
  destruct (f a); [auto|discriminate].
Qed.

(* ---------------- a multinomial generator, to reuse the lemmas about the network's assignments ---------------- *)
Fixpoint last_pos (v : vec) (n : nat) : nat := match n with O => O | S n' => if Rltb 0 (v n') then n' else last_pos v n' end.
Lemma last_pos_ok v : forall n, 0 < Rsum n v -> (last_pos v n < n)%nat /\ 0 < v (last_pos v n).
Proof.
  induction n as [|n IH]; cbn [Rsum last_pos]; intros H; [lra|]. destruct (Rltb 0 (v n)) eqn:E.
  - apply Rltb_true in E. split; [lia|exact E].
  - apply Rltb_false in E. destruct IH as [A B]; [lra|]. split; [lia|exact B].
Qed.
Definition some_mult (M : nat) : mult_oracle := fun _ _ n v c => if Nat.eqb c (last_pos v M) then n else 0%Z.
Lemma some_mult_ok M : multinomial_contract M (some_mult M).
Proof.
  intros k r n v Hn [Hv Hs]. destruct (@last_pos_ok v M) as [A B]; [lra|]. unfold some_mult. split; [|split].
  - intros c _. destruct (Nat.eqb _ _); lia.
  - clear - A. revert A. generalize (last_pos v M) as j. induction M as [|M IH]; intros j A; [lia|]. cbn [Zsum].
    destruct (Nat.eqb_spec M j) as [->|Hne]; [|rewrite IH by lia; lia]. rewrite Zsum_0; [lia|].
    intros i Hi. destruct (Nat.eqb_spec i j); [lia|reflexivity].
  - intros c Hc H0. destruct (Nat.eqb_spec c (last_pos v M)) as [->|]; [lra|reflexivity].
Qed.

(* ---------------- states reached ---------------- *)
Section Sweep.
Variables (m0 : ctmodel) (dr : ct_draws) (lgam : R -> R).
Hypothesis Hu : ct_usable m0.
Hypothesis Hdr : ct_draws_ok (cm_K m0) (net_C (cm_net m0)) dr.
Definition good (m : ctmodel) : Prop := ct_usable m /\ same_ct m0 m.

(** Replacing the data of a good state. *)
Lemma good_data m data : good m -> map events data = map events (cm_data m) ->
  (forall d, In d data -> data_ok (cm_K m) d /\ 0 <= cd_T d /\ parents_valid (cm_dtmax m) d) -> good (cm_with_data m data).
Proof.
  intros ([H1 H2 H3 H4 H5 H6 H7] & Hs) He Hd. split; [constructor; assumption|].
  eapply same_ct_trans; [exact Hs|]. unfold same_ct. cbn. auto 10.
Qed.
Lemma with_data_same m : cm_with_data m (cm_data m) = m.
Proof. now destruct m. Qed.
Lemma with_data_twice m a b : cm_with_data (cm_with_data m a) b = cm_with_data m b.
Proof. reflexivity. Qed.
Lemma on_cd_mid m f pre d post d' : f (cm_with_data m (pre ++ d :: post)) d = Ok d' ->
  on_cd (List.length pre) f (cm_with_data m (pre ++ d :: post)) = Ok (cm_with_data m (pre ++ d' :: post)).
Proof.
  intros E. unfold on_cd. cbn [cm_with_data cm_set cm_data]. fold (cm_with_data m (pre ++ d :: post)).
  rewrite nth_error_app2, Nat.sub_diag by lia. cbn [nth_error]. rewrite E. cbn [bindr]. now rewrite set_nth_app.
Qed.

(** The i-th data set: all eight statements. *)
Lemma parents_runs m pre d post d' :
  let mk x := cm_with_data m (pre ++ x :: post) in
  good (mk d) -> ct_parents_resample (mk d) (td_norder dr d) (td_u dr (List.length pre)) d = Ok d' ->
  events d' = events d -> parents_valid (cm_dtmax m) d' ->
  runs good (ct_parents_steps (td_norder dr d) (td_u dr (List.length pre)) (List.length pre)) (mk d) (mk d').
Proof.
  intros mk Hg E Hev Hpv.
  assert (Hgood : forall Z_ b w i, (Z_ = cd_Z d \/ Z_ = cd_Z d') -> good (mk (cd_with d Z_ b w i))).
  { intros Z_ b w i HZ. unfold mk. rewrite <- (with_data_twice m (pre ++ d :: post)). apply good_data; [exact Hg| |].
    - cbn [cm_with_data cm_set cm_data]. now rewrite !map_app.
    - intros x Hx. pose proof (cu_data (proj1 Hg)) as Hd. cbn [mk cm_with_data cm_set cm_data cm_K cm_dtmax] in Hd |- *.
      apply in_app_or in Hx as [Hx|[<-|Hx]]; [apply Hd, in_or_app; auto| |apply Hd, in_or_app; right; now right].
      destruct (Hd d ltac:(apply in_or_app; right; now left)) as (A & B & C).
      split; [exact A|]. split; [exact B|]. destruct HZ as [->| ->]; [exact C|]. intros n Hn.
      unfold events in Hev. injection Hev as EN ES EC ET. specialize (Hpv n). rewrite EN, ES in Hpv. exact (Hpv Hn). }
  revert E. unfold ct_parents_resample.
  change (cm_K (mk d)) with (cm_K m). change (cm_dtmax (mk d)) with (cm_dtmax m). change (cm_lam (mk d)) with (cm_lam m).
  change (ct_W_effective (mk d)) with (ct_W_effective m). change (cm_mu (mk d)) with (cm_mu m). change (cm_tau (mk d)) with (cm_tau m).
  destruct (ct_resample_Z _ _ _ _ _ _ _ _ _ _) as [z|e] eqn:EZ; cbn [bindr]; [|discriminate].
  destruct (forall_lt (cd_N d) (fun n => Z.ltb (-2) (z n))) eqn:E1; cbn [guard bindr]; [|discriminate].
  destruct (forall_lt (cd_N d) (fun n => Z.ltb (z n) (Z.of_nat n))) eqn:E2; cbn [guard bindr]; [|discriminate].
  destruct (ct_suff_stats _ _ _ _ _) as [[[bk ws] im]|e] eqn:E3; cbn [bindr]; [|discriminate].
  destruct (forall_lt (cm_K m) _) eqn:E4; cbn [guard bindr]; [|discriminate].
  intros E. injection E as <-. cbn [cd_with cd_Z] in Hgood.
  unfold ct_parents_steps. cbn [runs].
  split; [exact Hg|]. exists (mk (cd_with d z (cd_bkgd d) (cd_weight d) (cd_imp d))). split.
  { apply on_cd_mid. cbn [cm_with_data cm_set cm_dtmax cm_lam cm_mu cm_tau]. 
    change (ct_W_effective (cm_with_data m (pre ++ d :: post))) with (ct_W_effective m). rewrite EZ. reflexivity. }
  split; [apply Hgood; now right|]. exists (mk (cd_with d z (cd_bkgd d) (cd_weight d) (cd_imp d))). split.
  { apply on_cd_mid. cbn [cd_with cd_N cd_Z]. rewrite E1. reflexivity. }
  split; [apply Hgood; now right|]. exists (mk (cd_with d z (cd_bkgd d) (cd_weight d) (cd_imp d))). split.
  { apply on_cd_mid. cbn [cd_with cd_N cd_Z]. rewrite E2. reflexivity. }
  split; [apply Hgood; now right|]. exists (mk (cd_with d z (fun _ => 0) (cd_weight d) (cd_imp d))). split; [apply on_cd_mid; reflexivity|].
  split; [apply Hgood; now right|]. exists (mk (cd_with d z (fun _ => 0) (fun _ _ => 0) (cd_imp d))). split; [apply on_cd_mid; reflexivity|].
  split; [apply Hgood; now right|]. exists (mk (cd_with d z (fun _ => 0) (fun _ _ => 0) (fun _ _ _ => 0))). split; [apply on_cd_mid; reflexivity|].
  split; [apply Hgood; now right|]. exists (mk (cd_with d z bk ws im)). split.
  { apply on_cd_mid. unfold ct_suff_stats in E3. unfold ct_fill. cbn [cd_with cd_N cd_Z cd_S cd_C cd_bkgd cd_weight cd_imp cm_with_data cm_set cm_dtmax].
    destruct (fold_left _ _ _) as [[[bk' ws'] i0] i1]. destruct (guard _ _); cbn [bindr] in *; [|discriminate]. injection E3 as <- <- <-. reflexivity. }
  split; [apply Hgood; now right|]. exists (mk (cd_with d z bk ws im)). split.
  { apply on_cd_mid. cbn [cd_with cd_bkgd cd_weight cm_with_data cm_set cm_K]. unfold cd_Ns. cbn [cd_with cd_N cd_C].
    unfold cd_Ns in E4. rewrite E4. reflexivity. }
  split; [reflexivity|]. apply Hgood. now right.
Qed.

Lemma resample_ext m m' order u d : cm_K m' = cm_K m -> cm_dtmax m' = cm_dtmax m -> cm_lam m' = cm_lam m -> cm_A m' = cm_A m ->
  cm_W m' = cm_W m -> cm_mu m' = cm_mu m -> cm_tau m' = cm_tau m -> ct_parents_resample m' order u d = ct_parents_resample m order u d.
Proof. intros E1 E2 E3 E4 E5 E6 E7. unfold ct_parents_resample, ct_W_effective. now rewrite E1, E2, E3, E4, E5, E6, E7. Qed.

Lemma all_parents_runs data : forall pre, good (cm_with_data m0 (pre ++ data)) ->
  exists data', ct_resample_all m0 dr (List.length pre) data = Ok data' /\
    runs good (ct_all_parents_steps dr (List.length pre) data) (cm_with_data m0 (pre ++ data)) (cm_with_data m0 (pre ++ data')) /\
    (forall d, In d data' -> stats_ok m0 d).
Proof.
  induction data as [|d data IH]; intros pre Hg; cbn [ct_resample_all ct_all_parents_steps].
  - exists []. split; [reflexivity|]. split; [cbn; auto|intros d []].
  - destruct (cu_data (proj1 Hg) d) as (A & B & C); [cbn; apply in_or_app; right; now left|].
    pose proof Hdr as (Hdu & Hdo & _).
    destruct (@C59_parent_update m0 (td_norder dr d) (td_u dr (List.length pre)) d (usable_params Hu) A (Hdo d)) as (d' & E & (EN & ES & EC & ET) & Hst & Hz); [intros; apply Hdu|].
    assert (Hpv : parents_valid (cm_dtmax m0) d').
    { intros n Hn. rewrite EN in Hn. destruct (Hz n Hn) as ((j & Hj & Ej & _) & _ & Hcand).
      destruct j as [|p]; [left; lia|]. right. exists p. split; [lia|]. destruct (Hcand p ltac:(lia)) as (X & Y & _). split; [lia|]. rewrite ES. exact Y. }
    assert (Hev : events d' = events d) by (unfold events; now rewrite EN, ES, EC, ET).
    assert (R1 : runs good (ct_parents_steps (td_norder dr d) (td_u dr (List.length pre)) (List.length pre))
              (cm_with_data m0 (pre ++ d :: data)) (cm_with_data m0 (pre ++ d' :: data))).
    { apply parents_runs; auto. }
    pose proof (@runs_end _ _ _ _ _ R1) as Hg'.
    destruct (IH (pre ++ [d'])) as (data' & Er & R2 & Hs); [now rewrite <- app_assoc|].
    rewrite app_length in Er, R2. cbn [List.length] in Er, R2. rewrite Nat.add_1_r in Er, R2. rewrite <- !app_assoc in R2. cbn [app] in R2.
    exists (d' :: data'). rewrite E. cbn [bindr]. rewrite Er. cbn [bindr]. split; [reflexivity|].
    split; [eapply runs_app; eassumption|]. intros x [<-|Hx]; auto.
Qed.

(** Steps that change parameters only; the statistics are consistent from here on. *)
Definition fine (m : ctmodel) : Prop := good m /\ consistent_stats m.
Lemma fine_set m lam A W mu tau no : fine m ->
  (forall k, (k < cm_K m)%nat -> 0 < lam k) -> (forall a b, (a < cm_K m)%nat -> (b < cm_K m)%nat -> 0 < W a b) ->
  (forall a b, (a < cm_K m)%nat -> (b < cm_K m)%nat -> 0 < tau a b) -> net_ok (cm_K m) no -> net_C no = net_C (cm_net m) ->
  net_allow no = net_allow (cm_net m) -> (net_allow no = false -> forall k, (k < cm_K m)%nat -> A k k = false) ->
  fine (cm_set m lam A W mu tau no (cm_data m)).
Proof.
  intros (([H1 H2 H3 H4 H5 H6 H7] & Hs) & Hst) L1 L2 L3 L4 L5 L6 L7. split; [split|].
  - constructor; assumption.
  - eapply same_ct_trans; [exact Hs|]. unfold same_ct. cbn. auto 10.
  - intros d Hd. apply (@stats_ok_ext m); auto.
Qed.
Lemma fine_dr m : fine m -> ct_draws_ok (cm_K m) (net_C (cm_net m)) dr.
Proof. intros ((_ & (_ & E1 & _ & E2 & _)) & _). rewrite E1, E2. exact Hdr. Qed.
Lemma fine_data m d : fine m -> In d (cm_data m) -> 0 <= cd_T d /\ stats_ok m d.
Proof. intros ((H & _) & Hst) Hd. split; [apply (cu_data H d Hd)|auto]. Qed.

Lemma bias_fine m : fine m -> exists m', ct_bias_step dr m = Ok m' /\ fine m'.
Proof.
  intros H. eexists. split; [reflexivity|]. destruct H as ((Hm & Hs) & Hst). pose proof (conj (conj Hm Hs) Hst : fine m) as H.
  apply fine_set; try exact H; try reflexivity; try apply Hm.
  intros k Hk. destruct (cu_hyp Hm) as (Ha & Hb & _). apply (@lam_pos dr (net_C (cm_net m)) m); auto; [now apply fine_dr|].
  intros d Hd. now apply fine_data.
Qed.
Lemma mu_fine m : fine m -> exists m', ct_mu_step dr m = Ok m' /\ fine m'.
Proof.
  intros H. eexists. split; [reflexivity|]. destruct H as ((Hm & Hs) & Hst). pose proof (conj (conj Hm Hs) Hst : fine m) as H.
  apply fine_set; try exact H; try reflexivity; apply Hm.
Qed.
Lemma tau_fine m : fine m -> exists m', ct_tau_step dr m = Ok m' /\ fine m'.
Proof.
  intros H. eexists. split; [reflexivity|]. destruct H as ((Hm & Hs) & Hst). pose proof (conj (conj Hm Hs) Hst : fine m) as H.
  apply fine_set; try exact H; try reflexivity; try apply Hm.
  intros a b Ha Hb. destruct (cu_hyp Hm) as (_ & _ & Hl & Ha0 & Hb0). apply (@tau_pos dr (net_C (cm_net m)) m); auto. now apply fine_dr.
Qed.
Lemma W_fine m : fine m -> exists m', ct_W_step dr m = Ok m' /\ fine m'.
Proof.
  intros H. eexists. split; [reflexivity|]. destruct H as ((Hm & Hs) & Hst). pose proof (conj (conj Hm Hs) Hst : fine m) as H.
  apply fine_set; try exact H; try reflexivity; try apply Hm.
  intros a b Ha Hb. apply (@W_pos dr (net_C (cm_net m)) m); auto; [now apply fine_dr|apply Hm].
Qed.

(** The network's assignments. *)
Definition shim_draws (K : nat) : sweep_draws :=
  {| sd_mult := fun _ => some_mult (1 + K * 1); sd_bias := td_bias dr; sd_ir := fun _ _ _ _ => 1;
     sd_net := td_net dr; sd_er := td_er dr; sd_W := td_W dr; sd_u := td_uA dr; sd_order := td_order dr |}.
Lemma shim_draws_ok K C : ct_draws_ok K C dr -> draws_contract K 1 C (shim_draws K).
Proof.
  intros (_ & _ & H3 & _ & H5 & H6 & H7 & H8 & H9). split; [intros i; apply some_mult_ok|]. split; [exact H3|].
  split; [intros a b al Hal; split; [intros; cbn; lra|cbn; lra]|]. split; [exact H5|]. split; [exact H6|]. split; [exact H7|]. split; [exact H8|exact H9].
Qed.
Lemma net_step_form no f : In f (net_steps lgam (td_net dr) (td_er dr) no) -> exists g, f = on_net g.
Proof.
  destruct no as [fp s|n]; cbn [net_steps]; [|intros [<-|[]]; eauto].
  destruct (sb_fixed s); [intros []|]. intros H.
  apply in_app_or in H as [H|H]; [destruct fp; [destruct H|]; destruct H as [<-|H]; [eauto|]; apply in_map_iff in H as (c & <- & _); eauto|].
  apply in_app_or in H as [H|H]; [destruct H as [<-|H]; [eauto|]; apply in_map_iff in H as (c & <- & _); eauto|].
  apply in_app_or in H as [H|H]; [destruct (sb_C s =? 1)%nat; [destruct H|]; apply in_map_iff in H as (c & <- & _); unfold c_step; eauto|].
  destruct H as [<-|[]]. unfold m_step. eauto.
Qed.
Lemma shim_inv m : fine m -> inv (net_shim m) (net_shim m).
Proof.
  intros ((H & _) & _). split; [|split; [apply same_shape_refl|apply same_data_refl]]. constructor.
  - split; [|split; [cbn; lra|intros; cbn; lra]]. unfold hypers_ok. cbn. repeat split; intros; lra.
  - intros; cbn; lra.
  - exact (cu_W H).
  - intros a b _ _. split; [intros; cbn; lra|cbn; lra].
  - exact (cu_net H).
  - intros d [].
Qed.
Lemma net_runs_gen m1 l : draws_contract (cm_K m1) 1 (net_C (cm_net m1)) (shim_draws (cm_K m1)) ->
  (forall f, In f l -> (exists g, f = on_net g) /\ keeps (net_shim m1) f) ->
  forall m, fine m -> inv (net_shim m1) (net_shim m) -> runs fine (map lift_net l) m (cm_set_net m (gi_net (snd (exec l (net_shim m))))).
Proof.
  intros Hc. induction l as [|f l IH]; intros Hl m Hf Hi; cbn [map runs exec].
  - cbn [snd net_shim gi_net]. split; [unfold cm_set_net; now destruct m|exact Hf].
  - split; [exact Hf|]. destruct (Hl f (or_introl eq_refl)) as [(g & ->) Hk]. destruct (Hk _ Hi) as (st' & E & Hi').
    set (m' := cm_set_net m (g (net_shim m))).
    assert (E' : on_net g (net_shim m) = Ok (net_shim m')) by reflexivity.
    assert (st' = net_shim m') as -> by (rewrite E' in E; congruence).
    exists m'. split; [unfold lift_net; rewrite E'; reflexivity|]. rewrite E'.
    replace (cm_set_net m (gi_net (snd (exec l (net_shim m'))))) with (cm_set_net m' (gi_net (snd (exec l (net_shim m'))))) by reflexivity.
    apply IH; [intros; apply Hl; now right| |exact Hi'].
    destruct Hi' as (U' & (_ & _ & _ & _ & _ & _ & _ & A' & C') & _). destruct Hi as (U & (_ & _ & _ & _ & _ & _ & _ & A & C) & _).
    pose proof Hf as ((Hm & _) & _).
    apply fine_set; try exact Hf; try apply Hm.
    + exact (us_net U').
    + cbn [net_shim gi_net m' cm_set_net cm_set cm_net] in C'. cbn [net_shim gi_net] in C. congruence.
    + cbn [net_shim gi_net m' cm_set_net cm_set cm_net] in A'. cbn [net_shim gi_net] in A. congruence.
    + cbn [net_shim gi_net m' cm_set_net cm_set cm_net] in A'. cbn [net_shim gi_net] in A. intros Hna. apply (cu_self Hm). congruence.
Qed.
Lemma net_runs m : fine m ->
  runs fine (map lift_net (net_steps lgam (td_net dr) (td_er dr) (cm_net m))) m
    (cm_set_net m (net_resample lgam (td_net dr) (td_er dr) (cm_A m) (cm_W m) (cm_net m))).
Proof.
  intros Hf. pose proof (@net_steps_ok lgam (td_net dr) (td_er dr) (net_shim m)) as E. cbn [net_shim gi_net] in E. fold (net_shim m) in E.
  replace (net_resample _ _ _ _ _ _) with (gi_net (snd (exec (net_steps lgam (td_net dr) (td_er dr) (cm_net m)) (net_shim m)))) by (rewrite E; reflexivity).
  pose proof (shim_draws_ok (fine_dr Hf)) as Hc.
  apply (@net_runs_gen m); auto; [|now apply shim_inv]. intros f Hin. split; [eapply net_step_form; exact Hin|].
  exact (@net_steps_keep (net_shim m) (shim_draws (cm_K m)) Hc lgam _ f Hin).
Qed.

(** The adjacency matrix. *)
Lemma fine_A m A : fine m -> (net_allow (cm_net m) = false -> forall k, (k < cm_K m)%nat -> A k k = false) -> fine (cm_set_A m A).
Proof. intros Hf H. pose proof Hf as ((Hm & _) & _). apply fine_set; try exact Hf; try reflexivity; try apply Hm. exact H. Qed.
Lemma self_P m k : fine m -> net_allow (cm_net m) = false -> (k < cm_K m)%nat -> n_P (net_view (cm_net m)) k k = 0.
Proof.
  intros ((Hm & _) & _) Ha Hk. destruct (@net_view_ok _ _ (cu_net Hm)) as (_ & Hv). destruct (Hv k k Hk Hk) as (_ & _ & Hz). auto.
Qed.
Lemma ct_edge_absorb ll P u A k1 k2 a b : ct_edge_step ll P u (upd2 (upd2 A k1 k2 a) k1 k2 b) k1 k2 = ct_edge_step ll P u A k1 k2.
Proof.
  assert (E : forall A a c, @upd2 bool (upd2 A k1 k2 a) k1 k2 c = upd2 A k1 k2 c).
  { intros. extensionality i. extensionality j. unfold upd2. now destruct (_ && _)%bool. }
  unfold ct_edge_step. rewrite !E. reflexivity.
Qed.
Lemma ct_edge_absorb1 ll P u A k1 k2 a : ct_edge_step ll P u (upd2 A k1 k2 a) k1 k2 = ct_edge_step ll P u A k1 k2.
Proof.
  rewrite <- (ct_edge_absorb ll P u A k1 k2 a a). f_equal. extensionality i. extensionality j. unfold upd2. now destruct (_ && _)%bool.
Qed.
Lemma edge_runs m k1 k2 : fine m -> (k1 < cm_K m)%nat -> (k2 < cm_K m)%nat ->
  runs fine (ct_edge_steps dr k1 k2) m
    (cm_set_A m (ct_edge_step (ct_ll_of dr m) (n_P (net_view (cm_net m))) (td_uA dr) (cm_A m) k1 k2)).
Proof.
  intros Hf H1 H2. pose proof Hf as ((Hm & _) & _). unfold ct_edge_steps. cbn [runs].
  set (P := n_P (net_view (cm_net m))) in *.
  assert (Hself : forall A b, (net_allow (cm_net m) = false -> forall k, (k < cm_K m)%nat -> A k k = false) ->
     (P k1 k2 = 0 -> b = false) -> net_allow (cm_net m) = false -> forall k, (k < cm_K m)%nat -> upd2 A k1 k2 b k k = false).
  { intros A b HA Hb Hal k Hk. unfold upd2. destruct (Nat.eqb_spec k k1) as [->|]; [|cbn; auto]. destruct (Nat.eqb_spec k1 k2) as [->|]; [|cbn; auto].
    cbn [andb]. apply Hb. apply (self_P Hf Hal Hk). }
  split; [exact Hf|]. exists (cm_set_A m (upd2 (cm_A m) k1 k2 (Reqb (P k1 k2) 1))). split; [reflexivity|].
  assert (Hf1 : fine (cm_set_A m (upd2 (cm_A m) k1 k2 (Reqb (P k1 k2) 1)))).
  { apply fine_A; [exact Hf|]. apply Hself; [exact (cu_self Hm)|]. intros ->. apply Reqb_false. lra. }
  split; [exact Hf1|].
  cbn [cm_set_A cm_set cm_net cm_A]. fold P.
  assert (Efin : forall A, ct_edge_step (ct_ll_of dr m) P (td_uA dr) A k1 k2 = upd2 A k1 k2 (ct_edge_step (ct_ll_of dr m) P (td_uA dr) A k1 k2 k1 k2)).
  { intros A. unfold ct_edge_step. destruct (Reqb (P k1 k2) 0); [|destruct (Reqb (P k1 k2) 1)];
      (extensionality i; extensionality j; unfold upd2; rewrite !Nat.eqb_refl; cbn [andb]; now destruct (_ && _)%bool). }
  assert (Hf3 : fine (cm_set_A m (ct_edge_step (ct_ll_of dr m) P (td_uA dr) (cm_A m) k1 k2))).
  { apply fine_A; [exact Hf|]. rewrite Efin. apply Hself; [exact (cu_self Hm)|]. intros E0.
    unfold ct_edge_step. rewrite E0. replace (Reqb 0 0) with true by (symmetry; now apply Reqb_true). unfold upd2. now rewrite !Nat.eqb_refl. }
  destruct (Reqb (P k1 k2) 0 || Reqb (P k1 k2) 1)%bool eqn:E.
  - eexists. split; [reflexivity|]. split; [exact Hf1|].
    exists (cm_set_A m (ct_edge_step (ct_ll_of dr m) P (td_uA dr) (upd2 (cm_A m) k1 k2 (Reqb (P k1 k2) 1)) k1 k2)). split; [reflexivity|].
    rewrite ct_edge_absorb1. split; [reflexivity|exact Hf3].
  - apply orb_false_elim in E as [E0 E1].
    exists (cm_set_A m (upd2 (upd2 (cm_A m) k1 k2 (Reqb (P k1 k2) 1)) k1 k2 true)). split; [reflexivity|]. split.
    { apply fine_A; [exact Hf|]. apply Hself; [exact (cu_self (proj1 (proj1 Hf1)))|]. intros Hz. apply Reqb_false in E0. contradiction. }
    exists (cm_set_A m (ct_edge_step (ct_ll_of dr m) P (td_uA dr) (upd2 (upd2 (cm_A m) k1 k2 (Reqb (P k1 k2) 1)) k1 k2 true) k1 k2)). split; [reflexivity|].
    rewrite ct_edge_absorb. split; [reflexivity|exact Hf3].
Qed.
Lemma serial_runs m : fine m ->
  runs fine (ct_A_steps false dr (cm_K m)) m
    (cm_set_A m (ct_A_serial (ct_ll_of dr m) (n_P (net_view (cm_net m))) (td_uA dr) (cm_K m) (cm_A m))).
Proof.
  intros Hf. unfold ct_A_steps, ct_A_serial.
  rewrite <- (@fold_cells _ (fun A k1 k2 => ct_edge_step (ct_ll_of dr m) (n_P (net_view (cm_net m))) (td_uA dr) A k1 k2) (cm_K m) (fun _ => cm_K m)).
  assert (G : forall l, (forall c, In c l -> (fst c < cm_K m)%nat /\ (snd c < cm_K m)%nat) -> forall A, fine (cm_set_A m A) ->
    runs fine (flat_map (fun c => ct_edge_steps dr (fst c) (snd c)) l) (cm_set_A m A)
      (cm_set_A m (fold_left (fun A (c : nat * nat) => ct_edge_step (ct_ll_of dr m) (n_P (net_view (cm_net m))) (td_uA dr) A (fst c) (snd c)) l A))).
  { induction l as [|c l IH]; intros Hl A HA; cbn [flat_map fold_left]; [cbn; auto|].
    destruct (Hl c (or_introl eq_refl)) as [C1 C2]. pose proof (@edge_runs (cm_set_A m A) (fst c) (snd c) HA C1 C2) as Hr.
    eapply runs_app; [exact Hr|]. apply IH; [intros; apply Hl; now right|]. exact (@runs_end _ _ _ _ _ Hr). }
  replace m with (cm_set_A m (cm_A m)) at 2 by (now destruct m). apply G.
  - intros [a b] Hin. apply cells_In in Hin. exact Hin.
  - replace (cm_set_A m (cm_A m)) with m by (now destruct m). exact Hf.
Qed.
End Sweep.

(* ------------------------------------------------------------------ *)
(** ** C110 *)

Lemma whole_sweep lgam dr m : ct_usable m -> ct_draws_ok (cm_K m) (net_C (cm_net m)) dr ->
  exists data m', ct_resample_all m dr 0 (cm_data m) = Ok data /\ ct_sweep lgam dr m = Ok m' /\ ct_inv m' /\
    runs (good m) (ct_all_parents_steps dr 0 (cm_data m)) m (cm_with_data m data) /\
    runs (fine m) (ct_parameter_steps lgam dr m) (cm_with_data m data) m'.
Proof.
  intros Hu Hdr.
  assert (Hg : good m (cm_with_data m ([] ++ cm_data m))).
  { cbn [app]. rewrite with_data_same. split; [exact Hu|apply same_ct_refl]. }
  destruct (all_parents_runs Hu Hdr (cm_data m) [] Hg) as (data & E & R1 & Hst). cbn [List.length app] in E, R1. rewrite with_data_same in R1.
  set (m1 := cm_with_data m data) in *. pose proof (@runs_end _ _ _ _ _ R1) as Hg1.
  assert (Hf1 : fine m m1) by (split; [exact Hg1|intros d Hd; apply (@stats_ok_ext m); auto]).
  destruct (bias_fine Hdr Hf1) as (m2 & E2 & Hf2). destruct (mu_fine dr Hf2) as (m3 & E3 & Hf3). destruct (tau_fine Hdr Hf3) as (m4 & E4 & Hf4).
  pose proof (net_runs lgam Hdr Hf4) as R5. set (m5 := cm_set_net m4 _) in R5. pose proof (@runs_end _ _ _ _ _ R5) as Hf5.
  destruct (W_fine Hdr Hf5) as (m6 & E6 & Hf6).
  exists data, (ct_weights_resample (td_order dr) (td_norder dr) (td_W dr) (td_uA dr) m5 data).
  assert (Em2 : m2 = cm_set m1 (ct_bias_resample (td_bias dr) m1 (cm_data m1)) (cm_A m1) (cm_W m1) (cm_mu m1) (cm_tau m1) (cm_net m1) (cm_data m1)) by (unfold ct_bias_step in E2; congruence).
  assert (Em3 : m3 = cm_set m2 (cm_lam m2) (cm_A m2) (cm_W m2) (fun a b => fst (ct_imp_resample (td_g dr) (td_nrm dr) m2 (cm_data m2) a b)) (cm_tau m2) (cm_net m2) (cm_data m2)) by (unfold ct_mu_step in E3; congruence).
  assert (Em4 : m4 = cm_set m3 (cm_lam m3) (cm_A m3) (cm_W m3) (cm_mu m3) (fun a b => snd (ct_imp_resample (td_g dr) (td_nrm dr) m3 (cm_data m3) a b)) (cm_net m3) (cm_data m3)) by (unfold ct_tau_step in E4; congruence).
  assert (Em6 : m6 = cm_set m5 (cm_lam m5) (cm_A m5) (ct_W_resample (td_W dr) (net_view (cm_net m5)) (cm_A m5) (cm_data m5)) (cm_mu m5) (cm_tau m5) (cm_net m5) (cm_data m5)) by (unfold ct_W_step in E6; congruence).
  assert (Ed : cm_data m5 = data) by (unfold m5; rewrite Em4, Em3, Em2; reflexivity).
  assert (HI : ct_inv (ct_weights_resample (td_order dr) (td_norder dr) (td_W dr) (td_uA dr) m5 data)).
  { pose proof Hf5 as ((Hm5 & _) & Hs5). apply weights_inv; try apply Hm5; auto.
    - exact (fine_dr Hdr Hf5).
    - intros d Hd. rewrite <- Ed in Hd. destruct (cu_data Hm5 d Hd) as (X & Y & Z_). split; [exact X|]. split; [exact Y|]. split; [auto|exact Z_]. }
  split; [exact E|]. split.
  { unfold ct_sweep. rewrite E. cbn [bindr]. unfold m5. rewrite Em4, Em3, Em2. reflexivity. }
  split; [exact HI|]. split; [exact R1|].
  unfold ct_parameter_steps. eapply runs_app with (b := m4).
  { cbn [runs]. split; [exact Hf1|]. exists m2. split; [exact E2|]. split; [exact Hf2|]. exists m3. split; [exact E3|]. split; [exact Hf3|].
    exists m4. split; [exact E4|]. split; [reflexivity|exact Hf4]. }
  assert (En : cm_net m4 = cm_net m) by (rewrite Em4, Em3, Em2; reflexivity). rewrite <- En. eapply runs_app; [exact R5|].
  eapply runs_app with (b := m6).
  { cbn [runs]. split; [exact Hf5|]. exists m6. split; [exact E6|]. split; [reflexivity|exact Hf6]. }
  assert (EK : cm_K m6 = cm_K m) by (rewrite Em6; unfold m5; rewrite Em4, Em3, Em2; reflexivity).
  assert (Ep : cm_par m6 = cm_par m) by (rewrite Em6; unfold m5; rewrite Em4, Em3, Em2; reflexivity).
  assert (Ed6 : cm_data m6 = data) by (rewrite Em6; exact Ed).
  assert (Hend : forall A, A = cm_A (ct_weights_resample (td_order dr) (td_norder dr) (td_W dr) (td_uA dr) m5 data) ->
    cm_set_A m6 A = ct_weights_resample (td_order dr) (td_norder dr) (td_W dr) (td_uA dr) m5 data).
  { intros A ->. rewrite Em6, Ed. unfold ct_weights_resample. rewrite Ed. reflexivity. }
  rewrite <- EK, <- Ep. destruct (cm_par m6) eqn:Epar.
  - cbn [ct_A_steps runs]. split; [exact Hf6|]. eexists. split; [reflexivity|].
    match goal with |- ?x = _ /\ _ => assert (X : x = ct_weights_resample (td_order dr) (td_norder dr) (td_W dr) (td_uA dr) m5 data) end.
    { apply Hend. unfold ct_weights_resample. cbn [cm_set cm_A cm_par].
      assert (cm_par m5 = true) as -> by (rewrite Em6 in Epar; exact Epar). unfold ct_ll_of. rewrite Ed6.
      rewrite Em6, Ed. destruct data; reflexivity. }
    split; [exact X|]. rewrite X. split; [split; [apply ct_inv_usable, HI|]|intros d Hd; apply (iv_data HI d Hd)].
    destruct Hf5 as ((_ & Hs5) & _). eapply same_ct_trans; [exact Hs5|]. unfold same_ct. cbn [ct_weights_resample cm_set cm_data cm_K cm_dtmax cm_net cm_par]. auto 10.
  - pose proof (serial_runs dr Hf6) as R7. erewrite Hend in R7; [exact R7|].
    unfold ct_weights_resample. cbn [cm_set cm_A cm_par].
    assert (cm_par m5 = false) as -> by (rewrite Em6 in Epar; exact Epar). unfold ct_ll_of. rewrite Ed6. rewrite Em6, Ed. reflexivity.
Qed.

(** The list of assignments is the sweep: executed to the end from any usable state it succeeds with the state that
    resample_model returns, and everything C45 promises holds of that state. *)
Theorem C110_assignments_are_the_sweep :
  forall lgam dr m, ct_usable m -> ct_draws_ok (cm_K m) (net_C (cm_net m)) dr ->
  exists m', ct_sweep lgam dr m = Ok m' /\ qexec (ct_sweep_steps lgam dr m) m = (Ok tt, m') /\ ct_inv m'.
Proof.
  intros lgam dr m Hu Hdr. destruct (@whole_sweep lgam dr m Hu Hdr) as (data & m' & _ & E & HI & R1 & R2).
  exists m'. split; [exact E|]. split; [|exact HI]. unfold ct_sweep_steps.
  rewrite (@qexec_app _ _ _ _ _ (@runs_qexec _ _ _ _ _ R1)). exact (@runs_qexec _ _ _ _ _ R2).
Qed.

Lemma interrupted_ok lgam dr n m : ct_usable m -> ct_draws_ok (cm_K m) (net_C (cm_net m)) dr ->
  fst (ct_interrupted lgam dr n m) = Ok tt /\ good m (snd (ct_interrupted lgam dr n m)) /\
  ((List.length (ct_all_parents_steps dr 0 (cm_data m)) <= n)%nat -> consistent_stats (snd (ct_interrupted lgam dr n m))).
Proof.
  intros Hu Hdr. destruct (@whole_sweep lgam dr m Hu Hdr) as (data & m' & _ & _ & _ & R1 & R2).
  unfold ct_interrupted, ct_sweep_steps, cstep in *.
  assert (R : runs (good m) (ct_all_parents_steps dr 0 (cm_data m) ++ ct_parameter_steps lgam dr m) m m').
  { eapply runs_app; [exact R1|]. eapply runs_weaken; [|exact R2]. intros s H. exact (proj1 H). }
  destruct (@runs_prefix _ _ _ _ _ n R) as (s & E & Hs). unfold cstep in *. rewrite E. cbn [fst snd]. split; [reflexivity|]. split; [exact Hs|].
  intros Hn. rewrite firstn_app_ge in E by exact Hn. rewrite (@qexec_app _ _ _ _ _ (@runs_qexec _ _ _ _ _ R1)) in E.
  destruct (@runs_prefix _ _ _ _ _ (n - List.length (ct_all_parents_steps dr 0 (cm_data m))) R2) as (s2 & E2 & Hs2).
  assert (X : (Ok tt, s2) = (Ok tt : result unit, s)) by (etransitivity; [symmetry; exact E2|exact E]). injection X as ->. exact (proj2 Hs2).
Qed.

Definition ctiop_ok (K C : nat) (o : ctiop) : Prop :=
  match o with CTDo o => ctop_ok K C o | CTStop dr _ => ct_draws_ok K C dr end.

(** One operation of a history. *)
Lemma istep_usable lgam o m : ct_usable m -> ctiop_ok (cm_K m) (net_C (cm_net m)) o ->
  let m' := snd (ct_istep lgam o m) in
  ct_usable m' /\ cm_K m' = cm_K m /\ cm_dtmax m' = cm_dtmax m /\ net_C (cm_net m') = net_C (cm_net m) /\ net_allow (cm_net m') = net_allow (cm_net m).
Proof.
  intros Hu Ho. destruct o as [[S_ C_ T f|ord S_ C_ T f|dr]|dr n]; cbn [ct_istep ct_step ctiop_ok ctop_ok] in *.
  - destruct (@C78_add_data_accepts m S_ C_ T f) as [Hacc Hrej]. destruct (ct_add_data m S_ C_ T f) as [m1|e] eqn:E; cbn [snd]; [|auto 10].
    destruct (Classical_Prop.classic (acceptable (cm_K m) S_ C_ T f)) as [A|A]; [|destruct (Hrej A) as (e & X); discriminate].
    destruct (Hacc A) as (d & X & Hdim & Hdo & HT & Hn & Hst). injection X as ->.
    split; [|auto]. destruct Hu as [I1 I2 I3 I4 I5 I6 I7]. constructor; try assumption.
    intros x Hin. cbn [cm_with_data cm_set cm_data] in Hin. apply in_app_or in Hin as [Hin|[<-|[]]]; [exact (I7 x Hin)|].
    split; [exact Hdo|]. split; [lra|]. intros n Hlt. left. now apply Hn.
  - pose proof (@C43_continuous_heldout ord m S_ C_ T f) as (E & _). destruct (ct_heldout ord m S_ C_ T f) as [r m1]. cbn [snd] in E. subst m1.
    destruct r; cbn [snd]; auto 10.
  - destruct (@whole_sweep lgam dr m Hu Ho) as (data & m' & _ & E & HI & _ & R2). rewrite E. cbn [snd].
    split; [now apply ct_inv_usable|]. destruct (@runs_end _ _ _ _ _ R2) as ((_ & (_ & A & B & C & D & _)) & _). auto.
  - destruct (@interrupted_ok lgam dr n m Hu Ho) as (_ & (H & (_ & A & B & C & D & _)) & _). auto.
Qed.
Lemma irun_usable lgam hist : forall m K C, ct_usable m -> cm_K m = K -> net_C (cm_net m) = C -> (forall o, In o hist -> ctiop_ok K C o) ->
  let m' := ct_irun lgam hist m in
  ct_usable m' /\ cm_K m' = K /\ cm_dtmax m' = cm_dtmax m /\ net_C (cm_net m') = C /\ net_allow (cm_net m') = net_allow (cm_net m).
Proof.
  induction hist as [|o hist IH]; intros m K C Hu EK EC Ho; [cbn; auto 10|]. cbn [ct_irun fold_left]. fold (ct_irun lgam hist (snd (ct_istep lgam o m))).
  destruct (@istep_usable lgam o m Hu) as (U & A & B & D & E); [rewrite EK, EC; apply Ho; now left|].
  destruct (IH (snd (ct_istep lgam o m)) K C U) as (U' & A' & B' & D' & E'); [congruence|congruence|intros; apply Ho; now right|].
  split; [exact U'|]. split; [exact A'|]. split; [congruence|]. split; [exact D'|congruence].
Qed.

(** After any history of data additions, held-out evaluations, complete sweeps and sweeps interrupted at any point:
    - all parameters are in their domains, every stored parent is the background or an earlier event within the window,
      no self edge is present when they are disallowed, and the log likelihood is the finite log likelihood of the events;
    - stopping another sweep at any point fails no assertion and changes neither the events nor the hyperparameters; once
      the parents have been updated the stored statistics belong to the stored parents;
    - a complete sweep succeeds and restores everything C45 promises of an uninterrupted history.
    Missing: that the stored statistics belong to the stored parents at every interruption point, which is false (below). *)
Theorem C110_interrupted_partial :
  forall lgam K dt_max alpha beta mu0 lmbda0 alpha0 beta0 par no dr0 hist,
    0 < alpha -> 0 < beta -> 0 < lmbda0 -> 0 < alpha0 -> 0 < beta0 -> net_ok K no -> ct_draws_ok K (net_C no) dr0 ->
    (forall o, In o hist -> ctiop_ok K (net_C no) o) ->
    let m := ct_irun lgam hist (ct_construct K dt_max alpha beta mu0 lmbda0 alpha0 beta0 par no dr0) in
    (cm_K m = K /\ cm_dtmax m = dt_max /\ net_ok K (cm_net m) /\
     (forall k, (k < K)%nat -> 0 < cm_lam m k) /\
     (forall a b, (a < K)%nat -> (b < K)%nat -> 0 < cm_W m a b /\ 0 < cm_tau m a b) /\
     (net_allow no = false -> forall k, (k < K)%nat -> cm_A m k k = false) /\
     (forall d, In d (cm_data m) -> valid_events K (cd_N d) (cd_S d) (cd_C d) (cd_T d) /\ parents_valid dt_max d) /\
     (forall order, (forall d, Permutation (order d) (seq 0 (cd_N d))) ->
        ct_log_likelihood order m None = Fin (lsum (map (hawkes_loglik m) (cm_data m))))) /\
    (forall dr n, ct_draws_ok K (net_C no) dr ->
       let m' := snd (ct_interrupted lgam dr n m) in
       fst (ct_interrupted lgam dr n m) = Ok tt /\ map events (cm_data m') = map events (cm_data m) /\
       (cm_alpha m', cm_beta m', cm_mu0 m', cm_lmbda0 m', cm_alpha0 m', cm_beta0 m') = (cm_alpha m, cm_beta m, cm_mu0 m, cm_lmbda0 m, cm_alpha0 m, cm_beta0 m) /\
       ((8 * List.length (cm_data m) <= n)%nat -> forall d, In d (cm_data m') -> stats_ok m' d)) /\
    (forall dr, ct_draws_ok K (net_C no) dr ->
       exists m', ct_sweep lgam dr m = Ok m' /\ ct_inv m' /\ map events (cm_data m') = map events (cm_data m)).
Proof.
  intros lgam K dt_max alpha beta mu0 lmbda0 alpha0 beta0 par no dr0 hist H1 H2 H3 H4 H5 Hn Hdr0 Ho m.
  pose proof (@C45_construct K dt_max alpha beta mu0 lmbda0 alpha0 beta0 par no dr0 H1 H2 H3 H4 H5 Hn Hdr0) as HI0.
  destruct (@irun_usable lgam hist _ K (net_C no) (ct_inv_usable HI0) eq_refl eq_refl Ho) as (U & EK & ED & EC & EA). fold m in U, EK, ED, EC, EA.
  change (cm_dtmax (ct_construct K dt_max alpha beta mu0 lmbda0 alpha0 beta0 par no dr0)) with dt_max in ED.
  change (net_allow (cm_net (ct_construct K dt_max alpha beta mu0 lmbda0 alpha0 beta0 par no dr0))) with (net_allow no) in EA.
  split; [|split].
  - split; [exact EK|]. split; [exact ED|]. rewrite <- EK. split; [exact (cu_net U)|]. split; [exact (cu_lam U)|].
    split; [intros a b Ha Hb; split; [apply (cu_W U)|apply (cu_tau U)]; auto|]. split; [rewrite <- EA; exact (cu_self U)|].
    split; [intros d Hd; destruct (cu_data U d Hd) as (A & _ & B); rewrite <- ED; auto|].
    intros order Hord. apply (@C62_log_likelihood order m (cm_data m) (usable_params U)); [|reflexivity].
    intros d Hd. split; [apply (cu_data U d Hd)|apply Hord].
  - intros dr n Hdr. rewrite <- EK, <- EC in Hdr. destruct (@interrupted_ok lgam dr n m U Hdr) as (A & (_ & (B & _ & _ & _ & _ & _ & C)) & D).
    split; [exact A|]. split; [exact B|]. split; [exact C|]. intros Hle. apply D.
    enough (forall data i, List.length (ct_all_parents_steps dr i data) = 8 * List.length data)%nat by (rewrite H; exact Hle).
    induction data as [|d data IH]; intros i; [reflexivity|]. cbn [ct_all_parents_steps]. rewrite app_length, IH. cbn [List.length ct_parents_steps]. lia.
  - intros dr Hdr. rewrite <- EK, <- EC in Hdr. destruct (@whole_sweep lgam dr m U Hdr) as (data & m' & _ & E & HI & _ & R2).
    exists m'. split; [exact E|]. split; [exact HI|]. exact (proj1 (proj2 (proj1 (@runs_end _ _ _ _ _ R2)))).
Qed.

(** What an interrupted sweep left in the parents and the statistics has no influence on later sweeps. (The entries of Z
    beyond the number of events do not exist in the array; the model lets them agree.) *)
Lemma run_tasks_r_ext {A} (task : nat -> result A) order : forall s1 s2, (forall n, ~ In n order -> s1 n = s2 n) ->
  run_tasks_r order task s1 = run_tasks_r order task s2.
Proof.
  induction order as [|k order IH]; intros s1 s2 H; cbn [run_tasks_r].
  - f_equal. extensionality n. apply H. intros [].
  - destruct (task k) as [x|e]; cbn [bindr]; [|reflexivity]. apply IH. intros n Hn. unfold upd. destruct (Nat.eqb_spec n k); [reflexivity|].
    apply H. intros [E|E]; [congruence|contradiction].
Qed.
Definition same_but_parents (dr : ct_draws) (d d' : ctdata) : Prop :=
  events d' = events d /\ (forall n, (cd_N d <= n)%nat -> cd_Z d' n = cd_Z d n) /\ td_norder dr d' = td_norder dr d.
Lemma ctd_eq N1 N2 S1 S2 C1 C2 T1 T2 z b w i z' b' w' i' Z_ B_ W_ I_ : (N1, S1, C1, T1) = (N2, S2, C2, T2) ->
  cd_with {| cd_N := N1; cd_S := S1; cd_C := C1; cd_T := T1; cd_Z := z; cd_bkgd := b; cd_weight := w; cd_imp := i |} Z_ B_ W_ I_ =
  cd_with {| cd_N := N2; cd_S := S2; cd_C := C2; cd_T := T2; cd_Z := z'; cd_bkgd := b'; cd_weight := w'; cd_imp := i' |} Z_ B_ W_ I_.
Proof. intros E. injection E as -> -> -> ->. reflexivity. Qed.
Theorem C110_resume_ignores_leftovers :
  forall lgam dr m data', ct_draws_ok (cm_K m) (net_C (cm_net m)) dr -> Forall2 (same_but_parents dr) (cm_data m) data' ->
    ct_sweep lgam dr (cm_with_data m data') = ct_sweep lgam dr m.
Proof.
  intros lgam dr m data' (_ & Ho & _) H. unfold ct_sweep.
  assert (E : forall data data' i, Forall2 (same_but_parents dr) data data' ->
     ct_resample_all (cm_with_data m data') dr i data' = ct_resample_all m dr i data).
  { clear H data'. intros data data' i H.
    assert (X : forall m', cm_K m' = cm_K m -> cm_dtmax m' = cm_dtmax m -> cm_lam m' = cm_lam m -> cm_A m' = cm_A m ->
       cm_W m' = cm_W m -> cm_mu m' = cm_mu m -> cm_tau m' = cm_tau m -> ct_resample_all m' dr i data' = ct_resample_all m dr i data); [|apply X; reflexivity].
    intros m' E1 E2 E3 E4 E5 E6 E7. revert i. induction H as [|d d' data data' (Hev & Hz & Hor) H IH]; intros i; cbn [ct_resample_all]; [reflexivity|].
    rewrite IH, Hor, (@resample_ext m m') by assumption.
    assert (Ed : ct_parents_resample m (td_norder dr d) (td_u dr i) d' = ct_parents_resample m (td_norder dr d) (td_u dr i) d); [|now rewrite Ed].
    unfold events in Hev. injection Hev as EN ES EC ET. unfold ct_parents_resample, cd_Ns. rewrite EN, ES, EC.
    replace (ct_resample_Z (td_norder dr d) (cd_S d) (cd_C d) (cm_dtmax m) (cm_lam m) (ct_W_effective m) (cm_mu m) (cm_tau m) (td_u dr i) (cd_Z d'))
      with (ct_resample_Z (td_norder dr d) (cd_S d) (cd_C d) (cm_dtmax m) (cm_lam m) (ct_W_effective m) (cm_mu m) (cm_tau m) (td_u dr i) (cd_Z d)).
    - destruct d as [N1 S1 C1 T1 z1 b1 w1 i1], d' as [N2 S2 C2 T2 z2 b2 w2 i2]. cbn in EN, ES, EC, ET. subst. reflexivity.
    - unfold ct_resample_Z. apply run_tasks_r_ext. intros n Hn. symmetry. apply Hz. destruct (Nat.lt_ge_cases n (cd_N d)) as [Hlt|]; [|assumption].
      exfalso. apply Hn. eapply Permutation_in; [apply Permutation_sym, Ho|]. apply in_seq. lia. }
  cbn [cm_with_data cm_set cm_data]. fold (cm_with_data m data'). rewrite (E (cm_data m) data' 0%nat H).
  destruct (ct_resample_all m dr 0 (cm_data m)); reflexivity.
Qed.

(** For every reachable model whose first recording has an event, some interruption of every sweep leaves statistics
    according to which no event happened, on the background or by induction: resample (parents.py 535-537) replaces the
    arrays by zeros before it fills them. *)
Theorem C110_stale_statistics_refuted :
  forall lgam dr m d rest, ct_usable m -> ct_draws_ok (cm_K m) (net_C (cm_net m)) dr -> cm_data m = d :: rest -> (0 < cd_N d)%nat ->
    let m' := snd (ct_interrupted lgam dr 6 m) in
    exists d' k, In d' (cm_data m') /\ events d' = events d /\ (k < cm_K m')%nat /\ (0 < cd_Ns d' k)%Z /\
      cd_bkgd d' k + Rsum (cm_K m') (fun a => cd_weight d' a k) = 0.
Proof.
  intros lgam dr m d rest Hu Hdr Ed HN m'.
  destruct (cu_data Hu d) as ((D1 & D2 & D3) & _); [rewrite Ed; now left|].
  destruct (@interrupted_ok lgam dr 6 m Hu Hdr) as (A & _). 
  subst m'. revert A. unfold ct_interrupted, ct_sweep_steps. rewrite Ed. cbn [ct_all_parents_steps ct_parents_steps app firstn qexec].
  match goal with |- context [on_cd 0 ?f m] => destruct (on_cd 0 f m) as [m1|e] eqn:E1 end; [|discriminate].
  assert (X : exists z, m1 = cm_with_data m (cd_with d z (cd_bkgd d) (cd_weight d) (cd_imp d) :: rest)).
  { unfold on_cd in E1. rewrite Ed in E1. cbn [nth_error] in E1. destruct (ct_resample_Z _ _ _ _ _ _ _ _ _ _) as [z|]; cbn [bindr] in E1; [|discriminate].
    exists z. cbn [set_nth] in E1. congruence. }
  destruct X as (z & ->). unfold on_cd. cbn [cm_with_data cm_set cm_data nth_error].
  match goal with |- context [guard ?b ?e] => destruct (guard b e) end; cbn [bindr]; [|discriminate]. cbn [cm_with_data cm_set cm_data set_nth nth_error].
  match goal with |- context [guard ?b ?e] => destruct (guard b e) end; cbn [bindr]; [|discriminate]. cbn [cm_with_data cm_set cm_data set_nth nth_error bindr snd].
  intros _. eexists _, (cd_C d 0%nat). split; [left; reflexivity|]. split; [reflexivity|]. split; [apply D3; exact HN|]. split.
  - unfold cd_Ns, ct_Ns. cbn [cd_with cd_N cd_C]. destruct (cd_N d) as [|N]; [lia|]. clear. induction N as [|N IH]; cbn [Zsum] in *; [rewrite Nat.eqb_refl; cbn; lia|].
    match goal with |- (0 < _ + b2Z ?b)%Z => assert (0 <= b2Z b)%Z by (destruct b; cbn; lia) end. lia.
  - cbn [cd_with cd_bkgd cd_weight cm_K]. rewrite Rsum_zero. lra.
Qed.

(** Non-vacuity: a history with an interruption in the middle of the parents and another in the middle of the edges. *)
Definition ex_hist110 : list ctiop :=
  [CTDo (CTAdd {| tv_isarray := true; tv_dims := [2%nat]; tv_isfloat := true; tv_at := fun n => INR n |}
               {| iv_isarray := true; iv_dims := [2%nat]; iv_isint := true; iv_at := fun _ => 0%Z |} 3 true);
   CTStop (ex_ct_draws 1) 5; CTStop (ex_ct_draws 1) 14; CTDo (CTSweep (ex_ct_draws 1))].
Example C110_nonvacuous :
  net_ok 1 ex_net_ct /\ ct_draws_ok 1 (net_C ex_net_ct) (ex_ct_draws 1) /\ (forall o, In o ex_hist110 -> ctiop_ok 1 (net_C ex_net_ct) o) /\
  (exists d, cm_data (ct_irun (fun _ => 0) (firstn 1 ex_hist110) (ct_construct 1 2 1 1 0 1 1 1 false ex_net_ct (ex_ct_draws 1))) = [d] /\ cd_N d = 2%nat).
Proof.
  split; [exact ex_net_ct_ok|]. split; [apply ex_ct_draws_ok|]. split.
  - intros o [<-|[<-|[<-|[<-|[]]]]]; cbn [ctiop_ok ctop_ok]; [lra| | |]; apply ex_ct_draws_ok.
  - set (m0 := ct_construct 1 2 1 1 0 1 1 1 false ex_net_ct (ex_ct_draws 1)). unfold ex_hist110. cbn [firstn ct_irun fold_left ct_istep ct_step].
    match goal with |- context [ct_add_data m0 ?a ?b 3 true] => destruct (@C78_add_data_accepts m0 a b 3 true) as [Hacc _] end. destruct (Hacc (proj2 (proj2 (proj2 C45_nonvacuous)))) as (d & E & Hd & _).
    rewrite E. cbn [snd]. exists d. split; [reflexivity|]. injection Hd as <-. reflexivity.
Qed.

Print Assumptions C110_assignments_are_the_sweep.
Print Assumptions C110_interrupted_partial.
Print Assumptions C110_resume_ignores_leftovers.
Print Assumptions C110_stale_statistics_refuted.
