(** * Props_Continuous: C43 (continuous-time half), C58, C59, C60, C62, C78. *)
From Coq Require Import Permutation FunctionalExtensionality.
From Verif Require Import Prelude ExtReal Arrays Spec_Gibbs Spec_Continuous M_Basis M_Parents M_Discrete M_Gibbs M_Dist M_Network M_Sweep
  L_Gibbs Props_Network M_Continuous L_Continuous.
Set Implicit Arguments.
Open Scope R_scope.

(** A valid data set for K processes: event times in [0, T), sorted, process ids in range. *)
Definition valid_events (K N : nat) (s : vec) (c : nat -> nat) (T : R) : Prop :=
  (forall n, (n < N)%nat -> 0 <= s n < T) /\ sorted N s /\ (forall n, (n < N)%nat -> (c n < K)%nat).
Definition data_ok (K : nat) (d : ctdata) : Prop := valid_events K (cd_N d) (cd_S d) (cd_C d) (cd_T d).
(** Parameters in their domain. *)
Definition params_ok (m : ctmodel) : Prop :=
  (forall k, (k < cm_K m)%nat -> 0 < cm_lam m k) /\
  (forall a b, (a < cm_K m)%nat -> (b < cm_K m)%nat -> 0 <= cm_W m a b) /\
  (forall a b, (a < cm_K m)%nat -> (b < cm_K m)%nat -> 0 < cm_tau m a b).
(** Weight of the connection a -> b: W if the edge is present, 0 otherwise. *)
Definition conn (m : ctmodel) (a b : nat) : R := if cm_A m a b then cm_W m a b else 0.
(** Response of b to an event of a after a delay; [kappa_c] is sqrt(2 pi) divided by its decimal literal (see C61). *)
Definition impulse_of (m : ctmodel) (a b : nat) (dt : R) : R :=
  conn m a b * (kappa_c * delay_pdf (cm_dtmax m) (cm_mu m a b) (cm_tau m a b) dt).
(** The intensity at event n of data set d. *)
Definition intensity (m : ctmodel) (d : ctdata) (n : nat) : R :=
  intensity_at eps (cm_dtmax m) (cd_S d) (cd_C d) (cm_lam m) (impulse_of m) n.

Lemma Weff_conn m a b : ct_W_effective m a b = conn m a b.
Proof. unfold ct_W_effective, conn. destruct (cm_A m a b); cbn; lra. Qed.
Lemma response_impulse m : response (cm_dtmax m) (ct_W_effective m) (cm_mu m) (cm_tau m) = impulse_of m.
Proof.
  extensionality a. extensionality b. extensionality dt. unfold response, impulse_of. now rewrite Weff_conn.
Qed.
Lemma conn_nonneg m a b : params_ok m -> (a < cm_K m)%nat -> (b < cm_K m)%nat -> 0 <= ct_W_effective m a b.
Proof. intros (_ & HW & _) Ha Hb. rewrite Weff_conn. unfold conn. destruct (cm_A m a b); [auto|lra]. Qed.

(* ================= C58 ================= *)
Theorem C58_rate_is_intensity :
  forall order m d n, params_ok m -> data_ok (cm_K m) d -> Permutation order (seq 0 (cd_N d)) -> (n < cd_N d)%nat ->
    ct_model_rate order m d n = intensity m d n.
Proof.
  intros order m d n Hp (Ht & Hs & Hc) Ho Hn. unfold ct_model_rate, ct_rate_at_events.
  rewrite (@run_tasks_all _ order (cd_N d)) by auto. unfold intensity. rewrite <- response_impulse.
  apply (@rate_one (cd_N d)); auto.
  - intros i j Hi Hj. apply conn_nonneg; auto.
  - intros i j Hi Hj. apply Hp; auto.
Qed.

Lemma back_scan_vec_sum skip stop w c k : forall n acc,
  (forall p q, (q <= p)%nat -> (p < n)%nat -> stop p = true -> stop q = true) ->
  back_scan_vec skip stop w c n acc k =
  acc k + Rsum n (fun p => if (negb (skip p) && negb (stop p))%bool then (if Nat.eqb (c p) k then w p else 0) else 0).
Proof.
  induction n as [|n IH]; intros acc H; cbn [back_scan_vec Rsum]; [lra|].
  assert (Hm : forall p q, (q <= p)%nat -> (p < n)%nat -> stop p = true -> stop q = true) by (intros; eapply (H p); eauto).
  destruct (skip n) eqn:Es; cbn [negb andb].
  - rewrite IH by exact Hm. lra.
  - destruct (stop n) eqn:Et; cbn [negb].
    + rewrite Rsum_0; [lra|]. intros i Hi. rewrite (H n i) by (auto; lia). cbn. now rewrite andb_false_r.
    + rewrite IH by exact Hm. unfold upd. rewrite (Nat.eqb_sym (c n)). destruct (Nat.eqb_spec k (c n)); subst; lra.
Qed.

(** Weighted impulse responses per source process (used by the adjacency update), before masking by A. *)
Theorem C58_weighted_impulses :
  forall order m d n k, params_ok m -> data_ok (cm_K m) d -> Permutation order (seq 0 (cd_N d)) -> (n < cd_N d)%nat ->
    ct_irs order m d n k =
    Rsum n (fun p => if (in_window_b eps (cm_dtmax m) (cd_S d n - cd_S d p) && Nat.eqb (cd_C d p) k)%bool
                     then cm_W m k (cd_C d n) * (kappa_c * delay_pdf (cm_dtmax m) (cm_mu m k (cd_C d n)) (cm_tau m k (cd_C d n)) (cd_S d n - cd_S d p))
                     else 0).
Proof.
  intros order m d n k Hp (Htm & Hs & Hc) Ho Hn. unfold ct_irs. rewrite (@run_tasks_all _ order (cd_N d)) by auto.
  unfold ct_irs_one. rewrite back_scan_vec_sum.
  - rewrite Rplus_0_l. apply Rsum_ext. intros p Hlt. rewrite negb_Rltb. unfold in_window_b.
    destruct (Rleb eps (cd_S d n - cd_S d p)) eqn:E1; cbn [andb]; [|reflexivity].
    replace (negb (Rleb (cm_dtmax m - eps) (cd_S d n - cd_S d p))) with (Rltb (cd_S d n - cd_S d p) (cm_dtmax m - eps))
      by (rewrite <- negb_Rltb, negb_involutive; reflexivity).
    destruct (Rltb (cd_S d n - cd_S d p) (cm_dtmax m - eps)) eqn:E2; cbn [andb]; [|reflexivity].
    apply Rleb_true in E1. apply Rltb_true in E2.
    destruct (Nat.eqb_spec (cd_C d p) k) as [<-|]; [|reflexivity].
    unfold ct_w. rewrite ln_impulse_pdf by (try (apply Hp; apply Hc; lia); lra). reflexivity.
  - intros p q Hqp Hpn H. apply Rleb_true in H. apply Rleb_true. assert (cd_S d q <= cd_S d p) by (apply Hs; lia). lra.
Qed.

(** ... and they add up to the intensity. *)
Theorem C58_masked_impulses_sum :
  forall order m d n, params_ok m -> data_ok (cm_K m) d -> Permutation order (seq 0 (cd_N d)) -> (n < cd_N d)%nat ->
    cm_lam m (cd_C d n) + Rsum (cm_K m) (fun k => b2R (cm_A m k (cd_C d n)) * ct_irs order m d n k) = intensity m d n.
Proof.
  intros order m d n Hp Hd Ho Hn. unfold intensity, intensity_at. f_equal.
  rewrite (@Rsum_ext (cm_K m) _ (fun k => Rsum n (fun p => b2R (cm_A m k (cd_C d n)) *
     (if (in_window_b eps (cm_dtmax m) (cd_S d n - cd_S d p) && Nat.eqb (cd_C d p) k)%bool
                     then cm_W m k (cd_C d n) * (kappa_c * delay_pdf (cm_dtmax m) (cm_mu m k (cd_C d n)) (cm_tau m k (cd_C d n)) (cd_S d n - cd_S d p))
                     else 0))))
    by (intros k Hk; rewrite C58_weighted_impulses by auto; rewrite <- Rsum_scal; reflexivity).
  rewrite Rsum_swap. apply Rsum_ext. intros p Hlt. destruct Hd as (_ & _ & Hc). assert (Hcp : (cd_C d p < cm_K m)%nat) by (apply Hc; lia).
  destruct (in_window_b _ _ _); cbn [andb].
  - rewrite (@Rsum_ext (cm_K m) _ (fun k => impulse_of m (cd_C d p) (cd_C d n) (cd_S d n - cd_S d p) * (if Nat.eqb (cd_C d p) k then 1 else 0))).
    + rewrite Rsum_scal, Rsum_indicator by exact Hcp. lra.
    + intros k Hk. unfold impulse_of, conn. destruct (Nat.eqb_spec (cd_C d p) k) as [<-|]; [destruct (cm_A m (cd_C d p) (cd_C d n)); cbn; ring|ring].
  - apply Rsum_0. intros; ring.
Qed.

(** The intensity is positive, so its logarithm is finite. *)
Lemma intensity_pos m d n : params_ok m -> data_ok (cm_K m) d -> (n < cd_N d)%nat -> 0 < intensity m d n.
Proof.
  intros Hp (Ht & Hs & Hc) Hn. unfold intensity, intensity_at. pose proof Hp as (Hl & HW & Htau).
  assert (0 < cm_lam m (cd_C d n)) by (apply Hl, Hc; lia).
  assert (0 <= Rsum n (fun p => if in_window_b eps (cm_dtmax m) (cd_S d n - cd_S d p) then impulse_of m (cd_C d p) (cd_C d n) (cd_S d n - cd_S d p) else 0)); [|lra].
  apply Rsum_nonneg. intros p Hlt. unfold in_window_b. destruct (Rleb _ _) eqn:E1; cbn [andb]; [|lra].
  destruct (Rltb _ _) eqn:E2; [|lra]. apply Rleb_true in E1. apply Rltb_true in E2. pose proof eps_pos. pose proof kappa_c_pos.
  unfold impulse_of. apply Rmult_le_pos.
  - rewrite <- Weff_conn. apply conn_nonneg; auto; apply Hc; lia.
  - left. apply Rmult_lt_0_compat; [auto|]. apply delay_pdf_pos; [apply Htau; apply Hc; lia|lra|lra].
Qed.

(* ================= C59 ================= *)
(** Probabilities of the candidates for the parent of event n (0: background, S p: event p). *)
Definition pparent (m : ctmodel) (d : ctdata) (n : nat) : vec :=
  parent_prob eps (cm_dtmax m) (cd_S d) (cd_C d) (cm_lam m) (impulse_of m) n.

Lemma pparent_nonneg m d n : params_ok m -> data_ok (cm_K m) d -> (n < cd_N d)%nat ->
  (forall j, (j <= n)%nat -> 0 <= pparent m d n j) /\ Rsum (S n) (pparent m d n) = 1.
Proof.
  intros Hp Hd Hn. pose proof Hd as (Ht & Hs & Hc). pose proof Hp as (Hl & _ & Htau). unfold pparent. rewrite <- response_impulse.
  set (h := response _ _ _ _).
  assert (Hw : forall j, (j <= n)%nat -> 0 <= parent_weight eps (cm_dtmax m) (cd_S d) (cd_C d) (cm_lam m) h n j).
  { intros j Hj. apply (@weight_ok (cd_N d)); auto.
    - intros a b Ha Hb. apply conn_nonneg; auto.
    - left. apply Hl, Hc. lia. }
  assert (Htot : 0 < Rsum (S n) (parent_weight eps (cm_dtmax m) (cd_S d) (cd_C d) (cm_lam m) h n)).
  { rewrite Rsum_shift. cbn [parent_weight]. assert (0 < cm_lam m (cd_C d n)) by (apply Hl, Hc; lia).
    match goal with |- 0 < _ + ?r => assert (0 <= r); [|lra] end. apply Rsum_nonneg. intros i Hi. apply (Hw (S i)). lia. }
  split.
  - intros j Hj. unfold parent_prob. apply Rmult_le_pos; [auto|]. left. now apply Rinv_0_lt_compat.
  - unfold parent_prob. rewrite Rsum_div. unfold Rdiv. apply Rinv_r. lra.
Qed.

(** A parent update never raises and draws each parent by inverse CDF from the probabilities above; the events themselves
    do not change. *)
Lemma parents_facts m order u d : params_ok m -> data_ok (cm_K m) d -> Permutation order (seq 0 (cd_N d)) ->
  (forall n, (n < cd_N d)%nat -> unit_interval (u n)) ->
  exists z, (forall n, (n < cd_N d)%nat -> exists j, (j <= n)%nat /\ z n = (Z.of_nat j - 1)%Z /\ selects (pparent m d n) j (u n)) /\
    (forall n, (cd_N d <= n)%nat -> z n = cd_Z d n) /\
    ct_resample_Z order (cd_S d) (cd_C d) (cm_dtmax m) (cm_lam m) (ct_W_effective m) (cm_mu m) (cm_tau m) u (cd_Z d) = Ok z.
Proof.
  intros Hp (Ht & Hs & Hc) Ho Hu. pose proof Hp as (Hl & _ & Htau).
  assert (H : forall n, (n < cd_N d)%nat -> exists j, (j <= n)%nat /\
     ct_parent (cd_S d) (cd_C d) (cm_dtmax m) (cm_lam m) (ct_W_effective m) (cm_mu m) (cm_tau m) u n = Ok (Z.of_nat j - 1)%Z /\
     selects (pparent m d n) j (u n)).
  { intros n Hn. unfold pparent. rewrite <- response_impulse. apply (@ct_parent_selects (cd_N d)); auto.
    all: try (intros i j Hi Hj; apply conn_nonneg; auto). apply Hu; exact Hn. }
  set (val := fun n => match ct_parent (cd_S d) (cd_C d) (cm_dtmax m) (cm_lam m) (ct_W_effective m) (cm_mu m) (cm_tau m) u n with Ok z => z | Raise _ => 0%Z end).
  exists (run_tasks order val (cd_Z d)). split; [|split].
  - intros n Hn. rewrite (@run_tasks_all _ order (cd_N d)) by auto. destruct (H n Hn) as (j & Hj & E & Hsel).
    exists j. unfold val. rewrite E. auto.
  - intros n Hn. now rewrite (@run_tasks_none _ order (cd_N d)) by auto.
  - unfold ct_resample_Z. apply run_tasks_r_spec. intros n Hn. apply (Permutation_in n Ho), in_seq in Hn.
    destruct (H n ltac:(lia)) as (j & _ & E & _). unfold val. now rewrite E.
Qed.

Lemma selected_candidate m d n p u : params_ok m -> data_ok (cm_K m) d -> (n < cd_N d)%nat -> (p < n)%nat ->
  selects (pparent m d n) (S p) u ->
  eps <= cd_S d n - cd_S d p <= cm_dtmax m - eps /\ cm_A m (cd_C d p) (cd_C d n) = true /\ 0 < cm_W m (cd_C d p) (cd_C d n).
Proof.
  intros Hp Hd Hn Hlt [S1 S2]. cbn [Rsum] in S2. assert (Hpos : pparent m d n (S p) <> 0) by (cbn [Rsum] in S1; lra).
  pose proof Hd as (_ & _ & Hc). pose proof Hp as (_ & HW & _).
  unfold pparent, parent_prob in Hpos. cbn [parent_weight] in Hpos.
  destruct (Rleb eps (cd_S d n - cd_S d p)) eqn:E1; cbn [andb] in Hpos; [|unfold Rdiv in Hpos; lra].
  destruct (Rleb (cd_S d n - cd_S d p) (cm_dtmax m - eps)) eqn:E2; [|unfold Rdiv in Hpos; lra].
  apply Rleb_true in E1. apply Rleb_true in E2. split; [lra|].
  unfold impulse_of, conn in Hpos. destruct (cm_A m (cd_C d p) (cd_C d n)); [|unfold Rdiv in Hpos; rewrite !Rmult_0_l in Hpos; lra].
  split; [reflexivity|]. destruct (HW (cd_C d p) (cd_C d n)) as [|E]; try (apply Hc; lia); [assumption|].
  rewrite <- E in Hpos. unfold Rdiv in Hpos. rewrite !Rmult_0_l in Hpos. lra.
Qed.

Definition pair_events (d : ctdata) (a b n : nat) : bool :=
  (negb (Z.eqb (cd_Z d n) (-1)) && Nat.eqb (cd_C d (Z.to_nat (cd_Z d n))) a && Nat.eqb (cd_C d n) b)%bool.
(** Transformed delay of event n from its parent. *)
Definition xdelay (m : ctmodel) (d : ctdata) (n : nat) : R :=
  to_line (cm_dtmax m) (cd_S d n - cd_S d (Z.to_nat (cd_Z d n))).

(** The statistics stored in d belong to its parent assignment. *)
Record stats_ok (m : ctmodel) (d : ctdata) : Prop := {
  st_bkgd : forall k, cd_bkgd d k = count (cd_N d) (fun n => (Z.eqb (cd_Z d n) (-1) && Nat.eqb (cd_C d n) k)%bool);
  st_weight : forall a b, cd_weight d a b = count (cd_N d) (pair_events d a b);
  st_n : forall a b, cd_imp d 0%nat a b = count (cd_N d) (pair_events d a b);
  st_sum : forall a b, cd_imp d 1%nat a b = total (cd_N d) (pair_events d a b) (xdelay m d);
  st_ss : forall a b, cd_imp d 2%nat a b = total (cd_N d) (pair_events d a b)
            (fun n => (xdelay m d n - total (cd_N d) (pair_events d a b) (xdelay m d) / count (cd_N d) (pair_events d a b)) ^ 2);
  st_balance : forall k, (k < cm_K m)%nat -> cd_bkgd d k + Rsum (cm_K m) (fun a => cd_weight d a k) = IZR (cd_Ns d k) }.

Lemma total_ext N P x y : (forall n, (n < N)%nat -> P n = true -> x n = y n) -> total N P x = total N P y.
Proof. intros H. apply Rsum_ext. intros n Hn. destruct (P n) eqn:E; auto. Qed.
Lemma sdt_to_line D dt : 0 < dt -> dt < D -> sdt D dt = to_line D dt.
Proof. intros. unfold sdt, to_line. rewrite ln_div by lra. reflexivity. Qed.

Theorem C59_parent_update :
  forall m order u d, params_ok m -> data_ok (cm_K m) d -> Permutation order (seq 0 (cd_N d)) ->
    (forall n, (n < cd_N d)%nat -> unit_interval (u n)) ->
    exists d', ct_parents_resample m order u d = Ok d' /\
      (cd_N d' = cd_N d /\ cd_S d' = cd_S d /\ cd_C d' = cd_C d /\ cd_T d' = cd_T d) /\
      stats_ok m d' /\
      forall n, (n < cd_N d)%nat ->
        (exists j, (j <= n)%nat /\ cd_Z d' n = (Z.of_nat j - 1)%Z /\ selects (pparent m d n) j (u n)) /\
        (forall j, (j <= n)%nat -> (cd_Z d' n = (Z.of_nat j - 1)%Z <-> selects (pparent m d n) j (u n))) /\
        (forall p, cd_Z d' n = Z.of_nat p -> (p < n)%nat /\ eps <= cd_S d n - cd_S d p <= cm_dtmax m - eps /\
           cm_A m (cd_C d p) (cd_C d n) = true /\ 0 < cm_W m (cd_C d p) (cd_C d n)).
Proof.
  intros m order u d Hp Hd Ho Hu. destruct (@parents_facts m order u d Hp Hd Ho Hu) as (z & Hz & Hout & E).
  unfold ct_parents_resample. rewrite E. cbn [bindr].
  assert (Hr : forall n, (n < cd_N d)%nat -> (-1 <= z n < Z.of_nat n)%Z).
  { intros n Hn. destruct (Hz n Hn) as (j & Hj & -> & _). lia. }
  assert (Hcand : forall n p, (n < cd_N d)%nat -> z n = Z.of_nat p -> (p < n)%nat /\ eps <= cd_S d n - cd_S d p <= cm_dtmax m - eps /\
           cm_A m (cd_C d p) (cd_C d n) = true /\ 0 < cm_W m (cd_C d p) (cd_C d n)).
  { intros n p Hn Ez. destruct (Hz n Hn) as (j & Hj & Ej & Hsel). destruct j as [|q]; [lia|].
    assert (q = p) as -> by lia. split; [lia|]. apply (@selected_candidate m d n p (u n)); auto; lia. }
  assert (Hdel : forall n, (n < cd_N d)%nat -> Z.eqb (z n) (-1) = false ->
     0 < cd_S d n - cd_S d (Z.to_nat (z n)) < cm_dtmax m).
  { intros n Hn Ez. apply Z.eqb_neq in Ez. specialize (Hr n Hn).
    destruct (Hcand n (Z.to_nat (z n)) Hn) as (_ & H1 & _); [lia|]. pose proof eps_pos. lra. }
  replace (forall_lt (cd_N d) (fun n => (-2 <? z n)%Z)) with true
    by (symmetry; apply forall_lt_true; intros n Hn; specialize (Hr n Hn); apply Z.ltb_lt; lia).
  replace (forall_lt (cd_N d) (fun n => (z n <? Z.of_nat n)%Z)) with true
    by (symmetry; apply forall_lt_true; intros n Hn; specialize (Hr n Hn); apply Z.ltb_lt; lia).
  cbn [guard bindr]. unfold ct_suff_stats.
  pose proof (pass1_spec (cd_S d) (cd_C d) z (cm_dtmax m) (cd_N d)) as H1.
  destruct (fold_left (ss_pass1 (cd_S d) (cd_C d) z (cm_dtmax m)) (seq 0 (cd_N d)) (fun _ => 0, fun _ _ => 0, fun _ _ => 0, fun _ _ => 0))
    as [[[bk ws] i0] i1].
  destruct H1 as (B1 & B2 & B3 & B4).
  assert (H2 := @pass2_spec (cd_S d) (cd_C d) z (cm_dtmax m) (fun a b => i1 a b / i0 a b) (cd_N d) (fun n Hn => proj1 (Hr n Hn))).
  match goal with |- context [guard (forall_lt (cd_N d) ?f) AssertionError] =>
    replace (forall_lt (cd_N d) f) with true end.
  2:{ symmetry. apply forall_lt_true. intros n Hn. destruct (Z.eqb (z n) (-1)) eqn:Ez; [reflexivity|]. cbn [orb].
      specialize (Hdel n Hn Ez). apply andb_true_intro. split; apply Rltb_true; lra. }
  cbn [guard bindr].
  match goal with |- context [guard (forall_lt (cm_K m) ?f) AssertionError] =>
    replace (forall_lt (cm_K m) f) with true end.
  2:{ symmetry. apply forall_lt_true. intros k Hk. apply Reqb_true. rewrite B1.
      rewrite (@Rsum_ext (cm_K m) _ (fun a => count (cd_N d) (att (cd_C d) z a k))) by (intros; apply B2).
      apply balance; [apply Hd|exact Hr]. }
  cbn [guard bindr].
  eexists. split; [reflexivity|]. cbn [cd_with cd_N cd_S cd_C cd_T cd_Z]. split; [auto|]. split.
  - assert (Ex : forall n, (n < cd_N d)%nat -> Z.eqb (z n) (-1) = false ->
      dly (cd_S d) z (cm_dtmax m) n = to_line (cm_dtmax m) (cd_S d n - cd_S d (Z.to_nat (z n)))).
    { intros n Hn Ez. unfold dly. apply sdt_to_line; apply Hdel; auto. }
    assert (Epass : forall a b n, att (cd_C d) z a b n = true -> Z.eqb (z n) (-1) = false).
    { intros a b n H. unfold att in H. destruct (Z.eqb (z n) (-1)); [discriminate|reflexivity]. }
    constructor; cbn [cd_with cd_N cd_S cd_C cd_T cd_Z cd_bkgd cd_weight cd_imp cd_Ns].
    + exact B1.
    + exact B2.
    + exact B3.
    + intros a b. rewrite B4. apply total_ext. intros n Hn Hat. apply Ex; eauto.
    + intros a b. rewrite H2. rewrite B4, B3. apply total_ext. intros n Hn Hat. rewrite Ex by eauto. f_equal. f_equal. f_equal.
      apply total_ext. intros n' Hn' Hat'. apply Ex; eauto.
    + intros k Hk. rewrite B1. rewrite (@Rsum_ext (cm_K m) _ (fun a => count (cd_N d) (att (cd_C d) z a k))) by (intros; apply B2).
      apply balance; [apply Hd|exact Hr].
  - intros n Hn. split; [exact (Hz n Hn)|]. split; [|intros p; apply Hcand; exact Hn].
    intros j Hj. destruct (Hz n Hn) as (j' & Hj' & Ej' & Hsel'). split.
    + intros Ej. assert (j = j') as -> by lia. exact Hsel'.
    + intros Hsel. rewrite Ej'. do 2 f_equal. eapply (@selects_unique (pparent m d n) n (u n)); eauto.
      apply pparent_nonneg; auto.
Qed.

(** The probabilities form a distribution, and each candidate's slice of the unit interval has exactly its probability. *)
Theorem C59_probabilities :
  forall m d n, params_ok m -> data_ok (cm_K m) d -> (n < cd_N d)%nat ->
    (forall j, (j <= n)%nat -> 0 <= pparent m d n j) /\ Rsum (S n) (pparent m d n) = 1 /\
    forall j u, (j <= n)%nat -> (selects (pparent m d n) j u <-> Rsum j (pparent m d n) <= u < Rsum j (pparent m d n) + pparent m d n j).
Proof.
  intros m d n Hp Hd Hn. destruct (pparent_nonneg Hp Hd Hn) as [H1 H2]. split; [exact H1|]. split; [exact H2|].
  intros j u Hj. unfold selects. cbn [Rsum]. reflexivity.
Qed.

(** The outcome does not depend on the schedule of the threads, and the serial sampler gives the same assignment. *)
Theorem C59_schedule_independent :
  forall m order1 order2 u d, Permutation order1 (seq 0 (cd_N d)) -> Permutation order2 (seq 0 (cd_N d)) ->
    params_ok m -> data_ok (cm_K m) d -> (forall n, (n < cd_N d)%nat -> unit_interval (u n)) ->
    ct_parents_resample m order1 u d = ct_parents_resample m order2 u d.
Proof.
  intros m o1 o2 u d H1 H2 Hp Hd Hu.
  destruct (@parents_facts m o1 u d Hp Hd H1 Hu) as (z1 & Hz1 & Ho1 & E1). destruct (@parents_facts m o2 u d Hp Hd H2 Hu) as (z2 & Hz2 & Ho2 & E2).
  assert (z1 = z2) as ->.
  { extensionality n. destruct (Nat.lt_ge_cases n (cd_N d)) as [L|L]; [|rewrite Ho1, Ho2 by exact L; reflexivity].
    destruct (Hz1 n L) as (j1 & J1 & -> & S1). destruct (Hz2 n L) as (j2 & J2 & -> & S2). do 2 f_equal.
    eapply (@selects_unique (pparent m d n) n (u n)); eauto. apply pparent_nonneg; auto. }
  unfold ct_parents_resample. rewrite E1, E2. reflexivity.
Qed.
Theorem C59_serial_sampler_agrees :
  forall N s c D lam W mu tau u Z0 p, 
    ct_serial_loop s c D lam W mu tau u (seq 0 N) Z0 p = ct_resample_Z (seq 0 N) s c D lam W mu tau u Z0.
Proof. intros. apply serial_loop. Qed.

(* ================= C60 ================= *)
(** For any assignment of earlier parents within the window (whoever made it). *)
Theorem C60_sufficient_statistics :
  forall m d, data_ok (cm_K m) d ->
    (forall n, (n < cd_N d)%nat -> (-1 <= cd_Z d n < Z.of_nat n)%Z) ->
    (forall n, (n < cd_N d)%nat -> cd_Z d n <> (-1)%Z -> 0 < cd_S d n - cd_S d (Z.to_nat (cd_Z d n)) < cm_dtmax m) ->
    exists bk ws im, ct_suff_stats (cd_N d) (cd_S d) (cd_C d) (cd_Z d) (cm_dtmax m) = Ok (bk, ws, im) /\
      stats_ok m (cd_with d (cd_Z d) bk ws im).
Proof.
  intros m d Hd Hr Hdel. unfold ct_suff_stats.
  pose proof (pass1_spec (cd_S d) (cd_C d) (cd_Z d) (cm_dtmax m) (cd_N d)) as H1.
  destruct (fold_left (ss_pass1 (cd_S d) (cd_C d) (cd_Z d) (cm_dtmax m)) (seq 0 (cd_N d)) (fun _ => 0, fun _ _ => 0, fun _ _ => 0, fun _ _ => 0))
    as [[[bk ws] i0] i1].
  destruct H1 as (B1 & B2 & B3 & B4).
  assert (H2 := @pass2_spec (cd_S d) (cd_C d) (cd_Z d) (cm_dtmax m) (fun a b => i1 a b / i0 a b) (cd_N d) (fun n Hn => proj1 (Hr n Hn))).
  match goal with |- context [guard (forall_lt (cd_N d) ?f) AssertionError] =>
    replace (forall_lt (cd_N d) f) with true end.
  2:{ symmetry. apply forall_lt_true. intros n Hn. destruct (Z.eqb_spec (cd_Z d n) (-1)) as [Ez|Ez]; [reflexivity|]. cbn [orb].
      specialize (Hdel n Hn Ez). apply andb_true_intro. split; apply Rltb_true; lra. }
  cbn [guard bindr]. do 3 eexists. split; [reflexivity|].
  assert (Ex : forall n, (n < cd_N d)%nat -> Z.eqb (cd_Z d n) (-1) = false ->
      dly (cd_S d) (cd_Z d) (cm_dtmax m) n = to_line (cm_dtmax m) (cd_S d n - cd_S d (Z.to_nat (cd_Z d n)))).
  { intros n Hn Ez. apply Z.eqb_neq in Ez. unfold dly. apply sdt_to_line; apply Hdel; auto. }
  assert (Epass : forall a b n, att (cd_C d) (cd_Z d) a b n = true -> Z.eqb (cd_Z d n) (-1) = false).
  { intros a b n H. unfold att in H. destruct (Z.eqb (cd_Z d n) (-1)); [discriminate|reflexivity]. }
  constructor; cbn [cd_with cd_N cd_S cd_C cd_T cd_Z cd_bkgd cd_weight cd_imp cd_Ns].
  + exact B1.
  + exact B2.
  + exact B3.
  + intros a b. rewrite B4. apply total_ext. intros n Hn Hat. apply Ex; eauto.
  + intros a b. rewrite H2. rewrite B4, B3. apply total_ext. intros n Hn Hat. rewrite Ex by eauto. f_equal. f_equal. f_equal.
    apply total_ext. intros n' Hn' Hat'. apply Ex; eauto.
  + intros k Hk. rewrite B1. rewrite (@Rsum_ext (cm_K m) _ (fun a => count (cd_N d) (att (cd_C d) (cd_Z d) a k))) by (intros; apply B2).
    apply balance; [apply Hd|exact Hr].
Qed.

(* ================= C62 ================= *)
Definition hawkes_loglik (m : ctmodel) (d : ctdata) : R :=
  Rsum (cd_N d) (fun n => ln (intensity m d n)) -
  Rsum (cm_K m) (fun k => cm_lam m k * cd_T d + Rsum (cm_K m) (fun k1 => conn m k1 k * count (cd_N d) (fun n => Nat.eqb (cd_C d n) k1))).

Lemma Ns_count N c k : IZR (ct_Ns N c k) = count N (fun n => Nat.eqb (c n) k).
Proof.
  unfold ct_Ns, count. rewrite IZR_Zsum. apply Rsum_ext. intros n _. rewrite b2Z_R. now destruct (Nat.eqb (c n) k).
Qed.

Lemma ct_ll_data_value order m d : params_ok m -> data_ok (cm_K m) d -> Permutation (order d) (seq 0 (cd_N d)) ->
  ct_ll_data order m d = Fin (hawkes_loglik m d).
Proof.
  intros Hp Hd Ho. unfold ct_ll_data.
  rewrite (@esum_fin (cd_N d) _ (fun n => ln (intensity m d n))).
  - rewrite eadd_fin. f_equal. unfold hawkes_loglik.
    rewrite (@Rsum_ext (cm_K m) (ct_integrated m d) (fun k => cm_lam m k * cd_T d + Rsum (cm_K m) (fun k1 => conn m k1 k * count (cd_N d) (fun n => Nat.eqb (cd_C d n) k1)))); [lra|].
    intros k Hk. unfold ct_integrated, cd_Ns. f_equal. apply Rsum_ext. intros k1 Hk1. now rewrite Weff_conn, Ns_count.
  - intros n Hn. rewrite C58_rate_is_intensity by auto. apply elog_fin. now apply intensity_pos.
Qed.

Theorem C62_log_likelihood :
  forall order m data, params_ok m -> (forall d, In d data -> data_ok (cm_K m) d /\ Permutation (order d) (seq 0 (cd_N d))) ->
    ct_log_likelihood order m (Some data) = Fin (lsum (map (hawkes_loglik m) data)) /\
    (cm_data m = data -> ct_log_likelihood order m None = Fin (lsum (map (hawkes_loglik m) data))).
Proof.
  intros order m data Hp H. assert (E : ct_log_likelihood order m (Some data) = Fin (lsum (map (hawkes_loglik m) data))).
  { unfold ct_log_likelihood. rewrite <- (Rplus_0_l (lsum _)). generalize 0 as acc.
    induction data as [|d data IH]; intros acc; cbn [fold_left map lsum]; [now rewrite Rplus_0_r|].
    rewrite ct_ll_data_value by (try exact Hp; apply H; now left). rewrite eadd_fin, IH by (intros; apply H; now right).
    f_equal. lra. }
  split; [exact E|]. intros <-. unfold ct_log_likelihood in *. exact E.
Qed.
(** Additive over concatenation of data lists, and a function of the parameters and the data passed only. *)
Theorem C62_additive_and_local :
  forall order m m' data1 data2,
    ct_log_likelihood order m (Some (data1 ++ data2)) =
      eadd (ct_log_likelihood order m (Some data1)) (ct_log_likelihood order m (Some data2)) /\
    (m' = cm_with_data m (cm_data m') -> ct_log_likelihood order m' (Some data1) = ct_log_likelihood order m (Some data1)).
Proof.
  intros order m m' d1 d2. split.
  - unfold ct_log_likelihood. rewrite fold_left_app. generalize (fold_left (fun ll d => eadd ll (ct_ll_data order m d)) d1 (Fin 0)) as a.
    intros a. rewrite <- (eadd_0_r a) at 1. generalize (Fin 0) as b.
    induction d2 as [|d d2 IH]; intros b; cbn [fold_left]; [reflexivity|].
    rewrite <- eadd_assoc. apply IH.
  - intros ->. reflexivity.
Qed.

(* ================= C43 / C78 ================= *)
(** What add_data should accept: a float horizon, a 1-d float array of sorted times in [0, T), an integer array of the same
    shape of process ids.  For an empty recording the dtype of the times is not looked at. *)
Definition acceptable (K : nat) (S_ : tval) (C_ : ival) (T : R) (T_isfloat : bool) : Prop :=
  T_isfloat = true /\ tv_isarray S_ = true /\ iv_isarray C_ = true /\ iv_isint C_ = true /\
  exists N, tv_dims S_ = [N] /\ iv_dims C_ = [N] /\ ((0 < N)%nat -> tv_isfloat S_ = true) /\
    (forall n, (n < N)%nat -> 0 <= tv_at S_ n < T) /\ sorted N (tv_at S_) /\
    (forall n, (n < N)%nat -> (0 <= iv_at C_ n < Z.of_nat K)%Z).

Lemma sorted_diff N s : (forall i, (i < N - 1)%nat -> 0 <= s (S i) - s i) -> sorted N s.
Proof.
  intros H i j Hij Hj. induction j as [|j IH]; [assert (i = 0%nat) as -> by lia; lra|].
  destruct (Nat.eq_dec i (S j)) as [->|]; [lra|]. specialize (IH ltac:(lia) ltac:(lia)). specialize (H j ltac:(lia)). lra.
Qed.

Theorem C78_add_data_accepts :
  forall m S_ C_ T f,
    (acceptable (cm_K m) S_ C_ T f -> exists d, ct_add_data m S_ C_ T f = Ok (cm_with_data m (cm_data m ++ [d])) /\
       tv_dims S_ = [cd_N d] /\ data_ok (cm_K m) d /\ cd_T d = T /\
       (forall n, (n < cd_N d)%nat -> cd_S d n = tv_at S_ n /\ Z.of_nat (cd_C d n) = iv_at C_ n /\ cd_Z d n = (-1)%Z) /\
       stats_ok m d) /\
    (~ acceptable (cm_K m) S_ C_ T f -> exists e, ct_add_data m S_ C_ T f = Raise e).
Proof.
  intros m S_ C_ T f. split.
  - intros (-> & HaS & HaC & HiC & N & EdS & EdC & Hfl & Ht & Hs & Hc).
    unfold ct_add_data. cbn [guard bindr]. rewrite EdS, EdC. cbn [py_len bindr]. rewrite HaS, HaC, HiC.
    assert (G1 : forall_lt N (fun i => Rleb 0 (tv_at S_ i) && Rltb (tv_at S_ i) T) = true).
    { apply forall_lt_true. intros i Hi. specialize (Ht i Hi). apply andb_true_intro. split; [apply Rleb_true|apply Rltb_true]; lra. }
    assert (G2 : forall_lt (N - 1) (fun i => Rleb 0 (tv_at S_ (S i) - tv_at S_ i)) = true).
    { apply forall_lt_true. intros i Hi. apply Rleb_true. assert (tv_at S_ i <= tv_at S_ (S i)) by (apply Hs; lia). lra. }
    assert (G3 : forall_lt N (fun i => Z.leb 0 (iv_at C_ i) && Z.ltb (iv_at C_ i) (Z.of_nat (cm_K m))) = true).
    { apply forall_lt_true. intros i Hi. specialize (Hc i Hi). apply andb_true_intro. split; [apply Z.leb_le|apply Z.ltb_lt]; lia. }
    rewrite G1, G2, G3. assert (Ed : dims_eqb [N] [N] = true) by (cbn; now rewrite Nat.eqb_refl).
    rewrite Ed. cbn [length Nat.eqb andb].
    match goal with |- exists d, bindr ?x _ = _ /\ _ => replace x with (@Ok unit tt) end.
    2:{ destruct (Nat.ltb_spec 0 N) as [L|L]; [|reflexivity]. rewrite (Hfl L). reflexivity. }
    cbn [bindr].
    match goal with |- exists d, bindr ?x _ = _ /\ _ => replace x with (@Ok unit tt) by (destruct (Nat.ltb 0 N); reflexivity) end.
    cbn [guard bindr]. eexists. split; [reflexivity|]. cbn [cd_N cd_S cd_C cd_Z cd_T]. split; [reflexivity|]. split.
    + split; [exact Ht|]. split; [exact Hs|]. cbn [cd_C]. intros n Hn. specialize (Hc n Hn). lia.
    + split; [reflexivity|]. split; [intros n Hn; specialize (Hc n Hn); repeat split; try reflexivity; lia|].
      constructor; cbn [cd_N cd_S cd_C cd_Z cd_T cd_bkgd cd_weight cd_imp cd_Ns].
      * intros k. rewrite Ns_count. apply Rsum_ext. intros n Hn. reflexivity.
      * intros a b. symmetry. apply Rsum_0. reflexivity.
      * intros a b. symmetry. apply Rsum_0. reflexivity.
      * intros a b. symmetry. apply Rsum_0. reflexivity.
      * intros a b. symmetry. apply Rsum_0. reflexivity.
      * intros k Hk. rewrite Rsum_zero. unfold cd_Ns. cbn [cd_N cd_C]. lra.
  - intros H. destruct (ct_add_data m S_ C_ T f) as [m'|e] eqn:E; [|eauto]. exfalso. apply H. clear H.
    unfold ct_add_data in E.
    apply bindr_ok in E as (? & E1 & E). apply bindr_ok in E as (n & E2 & E). apply bindr_ok in E as (? & E3 & E).
    apply bindr_ok in E as (c & E4 & E). apply bindr_ok in E as (? & E5 & E). apply bindr_ok in E as (? & E6 & E).
    apply bindr_ok in E as (? & E7 & E). apply bindr_ok in E as (? & E8 & E). apply bindr_ok in E as (? & E9 & E).
    unfold guard in E1, E6, E8, E9.
    destruct f; [|discriminate]. destruct (tv_isarray S_) eqn:EA; [|discriminate].
    destruct (dims_eqb (tv_dims S_) (iv_dims C_)) eqn:ED; [|discriminate]. destruct (iv_isint C_) eqn:EI; [|discriminate].
    destruct (Nat.eqb (length (tv_dims S_)) 1) eqn:EL; [|discriminate]. unfold guard in E7.
    destruct (iv_isarray C_) eqn:EC; [|discriminate].
    apply Nat.eqb_eq in EL. destruct (tv_dims S_) as [|N [|]] eqn:EdS; try discriminate.
    assert (EdC : iv_dims C_ = [N]) by (cbn in ED; destruct (iv_dims C_) as [|xx [|]]; try discriminate; [|rewrite andb_false_r in ED; discriminate]; rewrite andb_true_r in ED; apply Nat.eqb_eq in ED; congruence).
    cbn [py_len] in E2. injection E2 as <-. rewrite EdC in *. cbn [py_len] in E4. injection E4 as <-.
    split; [reflexivity|]. split; [exact EA|]. split; [exact EC|]. split; [exact EI|].
    exists N. split; [first [exact EdS|reflexivity]|]. split; [first [exact EdC|reflexivity]|].
    destruct (Nat.ltb_spec 0 N) as [L|L].
    + apply bindr_ok in E3 as (? & E3 & E3'). unfold guard in E3, E3', E5.
      rewrite ?EdS, ?EdC, ?EA, ?EC, ?EI in E3, E5. match type of E3 with (if ?b then _ else _) = _ => destruct b eqn:G1; [|discriminate] end.
      destruct (forall_lt (N - 1) _) eqn:G2; [|discriminate].
      cbn [bindr] in E5. match type of E5 with (if ?b then _ else _) = _ => destruct b eqn:G3; [|discriminate] end.
      apply andb_prop in G1 as [G1 Gf]. apply andb_prop in G1 as [_ G1].
      apply andb_prop in G3 as [G3 _]. apply andb_prop in G3 as [_ G3].
      rewrite forall_lt_true in G1, G2, G3.
      split; [auto|]. split; [|split].
      * intros n Hn. specialize (G1 n Hn). apply andb_prop in G1 as [Ga Gb]. apply Rleb_true in Ga. apply Rltb_true in Gb. lra.
      * apply sorted_diff. intros i Hi. apply Rleb_true. auto.
      * intros n Hn. specialize (G3 n Hn). apply andb_prop in G3 as [Ga Gb]. apply Z.leb_le in Ga. apply Z.ltb_lt in Gb. lia.
    + split; [lia|]. split; [intros; lia|]. split; [intros i j Hi Hj; lia|intros; lia].
Qed.

Theorem C43_continuous_heldout :
  forall order m S_ C_ T f,
    snd (ct_heldout order m S_ C_ T f) = m /\
    (acceptable (cm_K m) S_ C_ T f -> params_ok m -> (forall d, Permutation (order d) (seq 0 (cd_N d))) ->
       exists d, ct_add_data m S_ C_ T f = Ok (cm_with_data m (cm_data m ++ [d])) /\
         fst (ct_heldout order m S_ C_ T f) = Ok (Fin (hawkes_loglik m d))) /\
    (~ acceptable (cm_K m) S_ C_ T f -> exists e, fst (ct_heldout order m S_ C_ T f) = Raise e).
Proof.
  intros order m S_ C_ T f. unfold ct_heldout.
  assert (Em : forall l, cm_with_data (cm_with_data m l) (cm_data m) = m) by (intros; destruct m; reflexivity).
  split; [|split].
  - destruct (ct_add_data m S_ C_ T f) as [m1|e] eqn:E; [|reflexivity].
    assert (exists d, m1 = cm_with_data m (cm_data m ++ [d])) as (d & ->).
    { unfold ct_add_data in E. repeat (apply bindr_ok in E as (? & _ & E)). injection E as <-. eauto. }
    cbn [cm_with_data cm_set cm_data]. rewrite rev_app_distr. cbn [rev app]. rewrite rev_involutive. cbn [snd]. apply Em.
  - intros Ha Hp Ho. destruct (proj1 (C78_add_data_accepts m S_ C_ T f) Ha) as (d & E & _ & Hd & _). exists d. split; [exact E|].
    rewrite E. cbn [cm_with_data cm_set cm_data]. rewrite rev_app_distr. cbn [rev app]. rewrite rev_involutive. cbn [fst].
    f_equal. match goal with |- ct_log_likelihood _ ?mm _ = _ => replace mm with m by (destruct m; reflexivity) end.
    rewrite (proj1 (@C62_log_likelihood order m [d] Hp (fun d' Hin => match Hin with or_introl e => eq_ind d (fun x => data_ok (cm_K m) x /\ Permutation (order x) (seq 0 (cd_N x))) (conj Hd (Ho d)) d' e | or_intror x => match x with end end))).
    cbn [map lsum]. f_equal. lra.
  - intros Ha. destruct (proj2 (C78_add_data_accepts m S_ C_ T f) Ha) as (e & E). rewrite E. exists e. reflexivity.
Qed.
