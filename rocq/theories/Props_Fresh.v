(** * Props_Fresh: what a newly constructed object starts from, before any data (C104). *)
From Verif Require Import Prelude ExtReal Arrays M_Basis M_Parents M_Discrete M_Gibbs M_Dist M_Network M_MeanField M_Standard M_Sweep
  M_Continuous M_Nonlinear Spec_Gibbs Spec_Network Spec_Vlb Spec_Continuous L_Sweep Props_Network Props_Continuous4 Props_Nonlinear.
From Coq Require Import Permutation.
Set Implicit Arguments.
Open Scope R_scope.

(* ---------------- the block model ---------------- *)

Lemma sbm_init_fields a d s : sbm_init a d = Ok s ->
  sb_K s = ar_K a /\ sb_C s = ar_C a /\ sb_tau0 s = ar_tau0 a /\ sb_tau1 s = ar_tau1 a /\ sb_kappa s = ar_kappa a /\
  sb_alpha s = ar_alpha a /\ sb_beta s = ar_beta a /\ sb_allow s = ar_allow a /\ (1 <= ar_C a)%nat.
Proof.
  intros H. unfold sbm_init in H. apply bindr_ok in H as (s0 & Hb & H).
  unfold sbm_base_init in Hb. cbv zeta in Hb.
  apply bindr_ok in Hb as ([] & H1 & Hb). apply bindr_ok in Hb as (pi & _ & Hb). apply bindr_ok in Hb as (m & _ & Hb).
  apply bindr_ok in Hb as (c' & Hc & Hb). apply bindr_ok in Hb as (p' & Hp & Hb). apply bindr_ok in Hb as (v' & Hv & Hb).
  apply bindr_ok in Hb as (f & Hf & Hb). injection Hb as <-. cbn [sb_fixed] in H.
  assert (HC : (1 <= ar_C a)%nat).
  { unfold guard in H1. destruct (Nat.leb_spec 1 (ar_C a)); [auto|discriminate]. }
  destruct f; cbn [negb] in H; injection H as <-; cbn; tauto.
Qed.

Lemma block_mean_const C m x i j : Rsum C (m i) = 1 -> Rsum C (m j) = 1 -> block_mean C m (fun _ _ => x) i j = x.
Proof.
  intros Hi Hj. unfold block_mean.
  rewrite (@Rsum_ext C _ (fun c1 => m i c1 * x)).
  - rewrite Rsum_scal_r, Hi. ring.
  - intros c1 _. rewrite (@Rsum_ext C _ (fun c2 => m j c2 * (m i c1 * x))) by (intros; ring). rewrite Rsum_scal_r, Hj. ring.
Qed.

Lemma block_mean_ext C m T T' i j :
  (forall a b, T a b = T' a b) -> block_mean C m T i j = block_mean C m T' i j.
Proof. intros H. unfold block_mean. apply Rsum_ext; intros. apply Rsum_ext; intros. now rewrite H. Qed.

(** A block model built without fixing its parameters starts, whatever soft labels [D] are drawn, from the prior means:
    each possible edge has the mean of Beta(tau1, tau0), each scale the mean of Gamma(alpha, beta), and likewise for the
    expected logarithms; the divergence of each block's scale from its prior is zero. *)
Theorem C104_block_model : forall lgam psi a d s D,
  sbm_init a d = Ok s -> sb_fixed s = false ->
  (forall k, (k < ar_K a)%nat -> simplex (ar_C a) (D k)) ->
  let f := mf_init s D in
  forall i j, (i < ar_K a)%nat -> (j < ar_K a)%nat ->
    sbm_expected_p s f i j = (if possible (ar_allow a) i j then ar_tau1 a / (ar_tau0 a + ar_tau1 a) else 0) /\
    sbm_expected_log_p psi s f i j = (if possible (ar_allow a) i j then Fin (psi (ar_tau1 a) - psi (ar_tau0 a + ar_tau1 a)) else NInf) /\
    sbm_expected_log_notp psi s f i j = (if possible (ar_allow a) i j then Fin (psi (ar_tau0 a) - psi (ar_tau0 a + ar_tau1 a)) else Fin 0) /\
    sbm_expected_v s f i j = ar_alpha a / ar_beta a /\
    sbm_expected_log_v psi s f i j = psi (ar_alpha a) - ln (ar_beta a) /\
    (forall c1 c2, gamma_neg_kl lgam psi (ar_alpha a) (ar_beta a) (mf_alpha f c1 c2) (mf_beta f c1 c2) = 0) /\
    mf_m f i = D i.
Proof.
  intros lgam psi a d s D H Hf HD f i j Hi Hj. destruct (@sbm_init_fields _ _ _ H) as (EK & EC & E0 & E1 & Ek & Ea & Eb & Eal & HC).
  destruct (HD i Hi) as [_ Si]. destruct (HD j Hj) as [_ Sj].
  assert (Hm : forall x T, (forall c1 c2, T c1 c2 = x) -> block_mean (sb_C s) D T i j = x).
  { intros x T HT. rewrite (@block_mean_ext _ _ T (fun _ _ => x)) by (intros; apply HT). rewrite EC. now apply block_mean_const. }
  unfold sbm_expected_p, sbm_expected_log_p, sbm_expected_log_notp, sbm_expected_v, sbm_expected_log_v. rewrite Hf.
  unfold f, mf_init; cbn [mf_m mf_tau0 mf_tau1 mf_alpha mf_beta]. rewrite E0, E1, Ea, Eb, Eal.
  split.
  { unfold possible. destruct (ar_allow a); cbn [negb orb]; [|unfold fill_diagonal; destruct (i =? j)%nat; cbn; [reflexivity|]];
      apply Hm; intros; now rewrite !Rmult_1_r. }
  split.
  { unfold possible, efill_diagonal. destruct (ar_allow a); cbn [negb orb]; [|destruct (i =? j)%nat; cbn; [reflexivity|]];
      f_equal; apply Hm; intros; now rewrite !Rmult_1_r. }
  split.
  { unfold possible, efill_diagonal. destruct (ar_allow a); cbn [negb orb]; [|destruct (i =? j)%nat; cbn; [reflexivity|]];
      f_equal; apply Hm; intros; now rewrite !Rmult_1_r. }
  split; [apply Hm; intros; now rewrite !Rmult_1_r|].
  split; [apply Hm; intros; now rewrite !Rmult_1_r|].
  split; [|reflexivity]. intros. unfold gamma_neg_kl. rewrite !Rmult_1_r. ring.
Qed.
Print Assumptions C104_block_model.

(** ... but the block weights start from the uniform distribution whatever concentration the user gave. *)
Theorem C104_block_weights_refuted :
  (forall s D c, (c < sb_C s)%nat -> sbm_expected_m s (mf_init s D) c = 1 / INR (sb_C s)) /\
  (exists a d s, sbm_init a d = Ok s /\ sb_fixed s = false /\
     forall D, sbm_expected_m s (mf_init s D) 1%nat <> sb_pi s 1%nat / Rsum (sb_C s) (sb_pi s)).
Proof.
  assert (H0 : forall s D c, (c < sb_C s)%nat -> sbm_expected_m s (mf_init s D) c = 1 / INR (sb_C s)).
  { intros s D c _. unfold sbm_expected_m, mf_init; cbn [mf_pi]. now rewrite Rsum_const, Rmult_1_r. }
  split; [exact H0|].
  set (z := fun _ : nat => 0). set (m0 := fun _ _ : nat => 1).
  pose (d := {| dr_m := fun v => v; dr_c := fun _ _ => 0%nat; dr_p := fun _ _ => m0; dr_v := fun _ _ => m0;
                dr_c2 := fun _ => 0%nat; dr_p2 := fun _ _ => m0; dr_v2 := fun _ _ => m0 |}).
  pose (a := {| ar_K := 2; ar_C := 2; ar_c := None; ar_m := None; ar_pi := PiArray 2 (fun c => match c with O => 1 | _ => 3 end);
                ar_p := None; ar_tau0 := 1; ar_tau1 := 1; ar_v := None; ar_alpha := 1; ar_beta := 1; ar_kappa := 1; ar_allow := true |}).
  exists a, d. eexists. split; [reflexivity|]. split; [reflexivity|]. intros D. rewrite H0 by (cbn; lia). cbn. lra.
Qed.

(* ---------------- background rates and impulse responses ---------------- *)

Theorem C104_background_and_impulses : forall lgam psi B alpha beta (gamma : vec),
  let b := mfbias_init alpha beta in
  (forall k, expected_lambda0 b k = alpha / beta /\ expected_log_lambda0 psi b k = psi alpha - ln beta /\
     gamma_neg_kl lgam psi alpha beta (mb_alpha b k) (mb_beta b k) = 0) /\
  let g := mf_gamma_init gamma in
  (forall k1 k2 x, expected_g B g k1 k2 x = gamma x / Rsum B gamma /\
     expected_log_g psi B g k1 k2 x = psi (gamma x) - psi (Rsum B gamma)) /\
  (forall k1 k2, dirichlet_neg_kl lgam psi B gamma (g k1 k2) = 0).
Proof.
  intros lgam psi B alpha beta gamma b. split.
  - intros k. unfold expected_lambda0, expected_log_lambda0, gamma_neg_kl, b, mfbias_init; cbn [mb_alpha mb_beta].
    rewrite !Rmult_1_r. split; [reflexivity|]. split; [reflexivity|ring].
  - intros g. assert (E : forall k1 k2, Rsum B (fun x => g k1 k2 x) = Rsum B gamma).
    { intros. apply Rsum_ext; intros. unfold g, mf_gamma_init. ring. }
    split.
    + intros k1 k2 x. unfold expected_g, expected_log_g. rewrite E. unfold g, mf_gamma_init. rewrite Rmult_1_r. now split.
    + intros k1 k2. unfold dirichlet_neg_kl, dirichlet_elog. change (Rsum B (g k1 k2)) with (Rsum B (fun x => g k1 k2 x)). rewrite E.
      rewrite (@Rsum_ext B (fun b0 => lgam (g k1 k2 b0)) (fun x => lgam (gamma x)))
        by (intros; unfold g, mf_gamma_init; now rewrite Rmult_1_r).
      rewrite (@Rsum_ext B (fun b0 => (g k1 k2 b0 - 1) * (psi (g k1 k2 b0) - psi (Rsum B gamma)))
                 (fun x => (gamma x - 1) * (psi (g k1 k2 x) - psi (Rsum B gamma))))
        by (intros; unfold g, mf_gamma_init; now rewrite Rmult_1_r).
      ring.
Qed.
Print Assumptions C104_background_and_impulses.

(* ---------------- weights ---------------- *)

(** Given an edge, the weight starts at the mean of Gamma(kappa, v); given none, at the mean of Gamma(kappa0, nu0). *)
Theorem C104_weights : forall lgam psi kappa0 nu0 n i j,
  let w := mfw_init kappa0 nu0 n in
  expected_W_given_A w 1 i j = n_kappa n / n_V n i j /\ expected_W_given_A w 0 i j = kappa0 / nu0 /\
  expected_log_W_given_A psi w 1 i j = psi (n_kappa n) - ln (n_V n i j) /\ expected_log_W_given_A psi w 0 i j = psi kappa0 - ln nu0 /\
  gamma_neg_kl lgam psi (n_kappa n) (n_V n i j) (w_kappa1 w i j) (w_v1 w i j) = 0 /\
  gamma_neg_kl lgam psi kappa0 nu0 (w_kappa0 w i j) (w_v0 w i j) = 0.
Proof.
  intros. unfold expected_W_given_A, expected_log_W_given_A, gamma_neg_kl, w, mfw_init; cbn [w_kappa0 w_kappa1 w_v0 w_v1]. rewrite !Rmult_1_r.
  repeat split; ring.
Qed.
(** ... but the edge probability does not start from the network's: every edge, an impossible self edge included, starts
    with probability 0.999. *)
Theorem C104_edge_probability_refuted : forall kappa0 nu0 n i j, w_A (mfw_init kappa0 nu0 n) i j = 999 / 1000.
Proof. intros. unfold w_A, mfw_init; cbn [w_p fval]. lra. Qed.

(* ---------------- Erdos-Renyi network ---------------- *)

(** The one-block network always asks for explicit labels, so it can only be built for a single node; then it has one
    block, the label is block 0 (fresh draws are from range(C)), self edges are allowed. *)
Theorem C104_erdos_renyi_partial : forall K p tau0 tau1 v alpha beta kappa d s,
  (forall k, (dr_c2 d k < 1)%nat) ->
  erdos_renyi_init K p tau0 tau1 v alpha beta kappa d = Ok s ->
  K = 1%nat /\ sb_C s = 1%nat /\ sb_allow s = true /\ sb_kappa s = kappa /\
  (forall k, (k < K)%nat -> sb_c s k = 0%nat) /\
  (forall i j, (i < K)%nat -> (j < K)%nat -> sbm_P s i j = sb_p s 0%nat 0%nat /\ sbm_V s i j = sb_v s 0%nat 0%nat) /\
  (p = None -> sb_p s = dr_p2 d tau1 tau0) /\ (v = None -> sb_v s = dr_v2 d alpha (1 / beta)).
Proof.
  intros K p tau0 tau1 v alpha beta kappa d s Hd H.
  assert (HK : K = 1%nat).
  { destruct (Nat.lt_ge_cases 1 K) as [Hl|Hl].
    - exfalso. pose proof (@C32_labels_rejected_refuted (erdos_renyi_args K p tau0 tau1 v alpha beta kappa) d _ _ eq_refl Hl) as E.
      unfold erdos_renyi_init in H. rewrite H in E. discriminate.
    - destruct K as [|[|K]]; [|reflexivity|lia]. exfalso. revert H. unfold erdos_renyi_init, sbm_init, sbm_base_init. cbn. discriminate. }
  unfold erdos_renyi_init in H. destruct (@sbm_init_fields _ _ _ H) as (EK & EC & E0 & E1 & Ek & Ea & Eb & Eal & _).
  split; [exact HK|]. split; [exact EC|]. split; [exact Eal|]. split; [exact Ek|].
  assert (Hc : forall k, (k < K)%nat -> sb_c s k = 0%nat).
  { destruct (@C32_all_or_nothing _ _ _ H) as [(n & c & p' & v' & Ec & _ & _ & Hc & _)|(_ & Ec & _)].
    - intros k Hk. specialize (Hc k Hk). injection Ec as _ <-. lia.
    - intros k _. rewrite Ec. specialize (Hd k). lia. }
  split; [exact Hc|]. split.
  { intros i j Hi Hj. unfold sbm_P, sbm_V, ix. rewrite Eal. cbn [negb erdos_renyi_args ar_allow]. rewrite !Hc by auto. now split. }
  destruct (@C32_all_or_nothing _ _ _ H) as [(n & c & p' & v' & _ & Ep & Ev & _)|(_ & _ & Ep & Ev & _)].
  - cbn in Ep, Ev. subst. split; discriminate.
  - cbn in Ep, Ev. split; intros _; [exact Ep|exact Ev].
Qed.
Theorem C104_erdos_renyi_refuted : forall K p tau0 tau1 v alpha beta kappa d, (2 <= K)%nat ->
  is_ok (erdos_renyi_init K p tau0 tau1 v alpha beta kappa d) = false.
Proof. intros. eapply C32_labels_rejected_refuted; [reflexivity|assumption]. Qed.

(* ---------------- the continuous-time model ---------------- *)

(** A newly built continuous-time model is a draw from its prior: background rates Gamma(alpha, 1/beta), precisions
    Gamma(alpha0, 1/beta0), means Normal(mu0, 1/(lmbda0*tau)), weights Gamma(kappa, 1/v) and edges present with the
    network's probability, whether the adjacency is updated serially or in parallel. *)
Theorem C104_continuous : forall K dt_max alpha beta mu0 lmbda0 alpha0 beta0 par no dr,
  net_ok K no ->
  (forall k, (k < K)%nat -> 0 < td_bias dr k alpha (1 / beta)) ->
  (forall i j, (i < K)%nat -> (j < K)%nat -> 0 < td_g dr i j alpha0 (1 / beta0)) ->
  (forall i j, (i < K)%nat -> (j < K)%nat -> 0 <= td_W dr i j (n_kappa (net_view no)) (1 / n_V (net_view no) i j)) ->
  (forall i j, (i < K)%nat -> (j < K)%nat -> unit_interval (td_uA dr i j)) ->
  Permutation (td_order dr) (seq 0 K) ->
  let m := ct_construct K dt_max alpha beta mu0 lmbda0 alpha0 beta0 par no dr in
  cm_data m = [] /\ cm_net m = no /\ cm_dtmax m = dt_max /\
  (forall k, cm_lam m k = td_bias dr k alpha (1 / beta)) /\
  (forall i j, cm_tau m i j = td_g dr i j alpha0 (1 / beta0)) /\
  (forall i j, cm_mu m i j = td_nrm dr i j mu0 (sqrt (1 / (lmbda0 * cm_tau m i j)))) /\
  (forall i j, cm_W m i j = td_W dr i j (n_kappa (net_view no)) (1 / n_V (net_view no) i j)) /\
  (forall i j, (i < K)%nat -> (j < K)%nat -> (cm_A m i j = true <-> td_uA dr i j < M_Gibbs.n_P (net_view no) i j)).
Proof.
  intros K dt_max alpha beta mu0 lmbda0 alpha0 beta0 par no dr Hno Hb Ht Hw Hu Ho m.
  assert (Elam : forall k, cm_lam m k = td_bias dr k alpha (1 / beta)).
  { intros k. unfold m, ct_construct, ct_weights_resample. cbv zeta. cbn [cm_set cm_lam].
    unfold ct_bias_resample, ct_bias_request. cbn. f_equal; try ring; f_equal; ring. }
  assert (Etau : forall i j, cm_tau m i j = td_g dr i j alpha0 (1 / beta0)).
  { intros i j. unfold m, ct_construct, ct_weights_resample. cbv zeta. cbn [cm_set cm_tau sample_nig snd]. now rewrite !Rmult_1_r. }
  assert (EW : forall i j, cm_W m i j = td_W dr i j (n_kappa (net_view no)) (1 / n_V (net_view no) i j)).
  { intros i j. unfold m, ct_construct, ct_weights_resample. cbv zeta. cbn [cm_set cm_W cm_net].
    unfold ct_W_resample, ct_W_request. cbn. f_equal; try ring; f_equal; ring. }
  split; [reflexivity|]. split; [reflexivity|]. split; [reflexivity|]. split; [exact Elam|]. split; [exact Etau|]. split.
  { intros i j. rewrite Etau. unfold m, ct_construct, ct_weights_resample. cbv zeta. cbn [cm_set cm_mu sample_nig fst]. now rewrite !Rmult_1_r. }
  split; [exact EW|].
  intros i j Hi Hj. unfold m, ct_construct in *. cbv zeta in *.
  set (m1 := cm_set _ _ _ _ _ _ _ _) in *.
  destruct (@C76_edges_from_posterior (td_order dr) (td_norder dr) (td_W dr) (td_uA dr) m1 []) as [_ HA].
  - exact Hno.
  - intros k Hk. change (cm_lam m1 k) with (cm_lam (ct_weights_resample (td_order dr) (td_norder dr) (td_W dr) (td_uA dr) m1 []) k).
    rewrite Elam. now apply Hb.
  - intros a b Ha Hbb. change (cm_tau m1 a b) with (cm_tau (ct_weights_resample (td_order dr) (td_norder dr) (td_W dr) (td_uA dr) m1 []) a b).
    rewrite Etau. now apply Ht.
  - intros d [].
  - exact Hu.
  - exact Ho.
  - intros a b Ha Hbb. rewrite EW. now apply Hw.
  - set (m' := ct_weights_resample _ _ _ _ m1 []) in *.
    destruct (HA i j (fun a b => if Nat.ltb a i then cm_A m' a b else cm_A m1 a b) Hi Hj) as [_ Hiff].
    { intros; reflexivity. }
    cbn [map lsum] in Hiff. unfold edge_posterior in Hiff. rewrite exp_0 in Hiff. rewrite Hiff.
    change (cm_net m1) with no. 
    replace (M_Gibbs.n_P (net_view no) i j * 1 / (M_Gibbs.n_P (net_view no) i j * 1 + (1 - M_Gibbs.n_P (net_view no) i j) * 1)) with (M_Gibbs.n_P (net_view no) i j) by (field; lra).
    reflexivity.
Qed.
Print Assumptions C104_continuous.

(* ---------------- nonlinear process, and the standard-model initialisation ---------------- *)

(** The process classes default to no penalty: the objective is the mean negative log likelihood (contrast
    C57_default_node_objective_refuted for a node built on its own). *)
Theorem C104_nonlinear_default_penalty : forall k K B dt L bas n0 data w,
  In n0 (p_nodes (p_init k K B dt None None L bas)) ->
  let n := n_with_data n0 data in
  0 < n_total n -> node_rates_pos n w ->
  exists ll, n_log_likelihood (n_with_w n (finw w)) None = Ok (Fin ll) /\ n_objective n w = Fin (- ll / n_total n).
Proof.
  intros k K B dt L bas n0 data w Hin n HN Hr. cbn [p_init p_nodes] in Hin. apply in_map_iff in Hin as (x & <- & _).
  destruct (@C57_objective n w 0 0 HN Hr) as (ll & E1 & E2); [left; now split|reflexivity|].
  exists ll. split; [exact E1|]. rewrite E2. f_equal. field. lra.
Qed.
(** A fixed penalty given by the caller reaches every node. *)
Theorem C104_nonlinear_penalty : forall k K B dt s l L bas n0,
  In n0 (p_nodes (p_init k K B dt (Some s) (Some l) L bas)) -> n_sigma n0 = s /\ n_lmbda n0 = l /\ n_kind n0 = k /\ n_K n0 = K /\ n_B n0 = B /\
    n_dt n0 = dt /\ (forall j, n_w n0 j = Fin 0) /\ n_data n0 = [].
Proof.
  intros k K B dt s l L bas n0 Hin. cbn [p_init p_nodes] in Hin. apply in_map_iff in Hin as (x & <- & _). cbn. repeat split; reflexivity.
Qed.

(** After initialising from a standard model the mean background rate is that model's (floored at 1e-10). *)
Theorem C104_initialised_background : forall ip k,
  expected_lambda0 (init_mf_bias ip) k = Rmax (/ 10 ^ 10) (ip_lam ip k).
Proof.
  intros. unfold expected_lambda0, init_mf_bias, clip_lo; cbn [mb_alpha mb_beta].
  unfold Rmax. destruct (Rle_dec (/ 10 ^ 8) (100 * ip_lam ip k)); destruct (Rle_dec (/ 10 ^ 10) (ip_lam ip k)); lra.
Qed.

(* ---------------- the hypotheses can be met ---------------- *)

Example C104_block_nonvacuous : exists a d s D, sbm_init a d = Ok s /\ sb_fixed s = false /\ (2 <= ar_K a)%nat /\ (2 <= ar_C a)%nat /\
  (forall k, (k < ar_K a)%nat -> simplex (ar_C a) (D k)).
Proof.
  pose (m0 := fun _ _ : nat => 1).
  pose (d := {| dr_m := fun v => v; dr_c := fun _ _ => 0%nat; dr_p := fun _ _ => m0; dr_v := fun _ _ => m0;
                dr_c2 := fun k => (k mod 2)%nat; dr_p2 := fun _ _ => m0; dr_v2 := fun _ _ => m0 |}).
  pose (a := {| ar_K := 3; ar_C := 2; ar_c := None; ar_m := None; ar_pi := PiScalar 1;
                ar_p := None; ar_tau0 := 1; ar_tau1 := 2; ar_v := None; ar_alpha := 3; ar_beta := 1; ar_kappa := 1; ar_allow := false |}).
  exists a, d. eexists. exists (fun _ c => match c with O => 1/4 | _ => 3/4 end). split; [reflexivity|]. split; [reflexivity|].
  split; [cbn; lia|]. split; [cbn; lia|]. intros k _. split; [intros b _; destruct b; lra|cbn; lra].
Qed.
Example C104_erdos_renyi_nonvacuous : exists d s, (forall k, (dr_c2 d k < 1)%nat) /\ erdos_renyi_init 1 None 1 1 None 1 1 1 d = Ok s.
Proof.
  pose (m0 := fun _ _ : nat => 1).
  exists {| dr_m := fun v => v; dr_c := fun _ _ => 0%nat; dr_p := fun _ _ => m0; dr_v := fun _ _ => m0;
            dr_c2 := fun _ => 0%nat; dr_p2 := fun _ _ => m0; dr_v2 := fun _ _ => m0 |}. eexists. split; [intros; cbn; lia|reflexivity].
Qed.
Example C104_continuous_nonvacuous : exists K no dr, (2 <= K)%nat /\ net_ok K no /\
  (forall k, (k < K)%nat -> 0 < td_bias dr k 1 (1 / 2)) /\
  (forall i j, (i < K)%nat -> (j < K)%nat -> 0 < td_g dr i j 3 (1 / 1)) /\
  (forall i j, (i < K)%nat -> (j < K)%nat -> 0 <= td_W dr i j (n_kappa (net_view no)) (1 / n_V (net_view no) i j)) /\
  (forall i j, (i < K)%nat -> (j < K)%nat -> unit_interval (td_uA dr i j)) /\
  Permutation (td_order dr) (seq 0 K).
Proof.
  pose (e := {| e_K := 2; e_p := 1/2; e_kappa := 1; e_v := 5; e_alpha := None; e_beta := None; e_allow := true; e_mf := None |}).
  pose (gd := {| gd_beta := fun _ _ _ _ => 1/2; gd_gamma := fun _ _ _ _ => 1; gd_pick := fun _ _ => 0%nat; gd_dir := fun v => v |}).
  exists 2%nat, (NetEr e),
    {| td_u := fun _ _ => 0; td_norder := fun d => seq 0 (cd_N d); td_bias := fun _ a s => a * s; td_g := fun _ _ a s => a * s;
       td_nrm := fun _ _ m _ => m; td_net := gd; td_er := fun a b => a * b; td_W := fun _ _ a s => a * s; td_order := [1; 0]%nat;
       td_uA := fun _ _ => 1/3 |}.
  cbn. split; [lia|]. split; [repeat split; try lra; discriminate|]. split; [intros; lra|]. split; [intros; lra|].
  split; [intros; unfold er_V; cbn; lra|]. split; [intros; unfold unit_interval; lra|]. apply perm_swap.
Qed.
