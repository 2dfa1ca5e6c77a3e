(** * Props_Moments: the reported variational expectations are integrals (C98); the bound's shares and the distribution
    objects' negative entropies are integrals of log densities (C86, C71). *)
From Coq Require Import FunctionalExtensionality.
From Coquelicot Require Import Coquelicot.
From Verif Require Import Prelude ExtReal Arrays Spec_Gibbs Spec_Network Spec_Vlb Spec_Gamma Spec_Moments Spec_Labels M_Parents M_Discrete M_Dist M_Network M_MeanField M_Vlb
  L_Network L_Vlb L_Vlb2 L_Vlb3 L_Vlb4 L_Gamma L_Euler L_Moments L_Dirichlet Props_Network Props_MeanField Props_Vlb Props_Gamma Props_Expect.
Set Implicit Arguments.
Open Scope R_scope.

(* ------------------------------------------------------------------ *)
(** ** C98 *)

(** Background rates: Gamma(shape, rate) per process. *)
Theorem C98_background : forall b k, 0 < mb_alpha b k -> 0 < mb_beta b k ->
  gamma_law (mb_alpha b k) (mb_beta b k) (fun x => x) (expected_lambda0 b k) /\
  gamma_law (mb_alpha b k) (mb_beta b k) ln (expected_log_lambda0 digamma b k).
Proof. intros b k Ha Hb. split; [now apply gamma_law_id|now apply gamma_law_log]. Qed.
(** Impulse responses: Dirichlet per pair of processes. *)
Theorem C98_impulses : forall B mg k1 k2 b, (b < B)%nat -> (forall b', (b' < B)%nat -> 0 < mg k1 k2 b') ->
  dirichlet_law B (mg k1 k2) (fun x => x b) (expected_g B mg k1 k2 b) /\
  dirichlet_law B (mg k1 k2) (fun x => ln (x b)) (expected_log_g digamma B mg k1 k2 b).
Proof. intros B mg k1 k2 b Hb Hp. assert (0 < B)%nat by lia. split; [apply dirichlet_law_entry; auto|apply dirichlet_law_log; auto]. Qed.
(** Weights: a mixture of two gammas per pair; given the indicator, one of them.  A self-connection that is not allowed
    has weight zero. *)
Theorem C98_weights : forall allow w i j p, w_p w i j = Fin p ->
  0 < w_kappa1 w i j -> 0 < w_v1 w i j -> 0 < w_kappa0 w i j -> 0 < w_v0 w i j ->
  gamma_law (w_kappa1 w i j) (w_v1 w i j) (fun x => x) (expected_W_given_A w 1 i j) /\
  gamma_law (w_kappa0 w i j) (w_v0 w i j) (fun x => x) (expected_W_given_A w 0 i j) /\
  gamma_law (w_kappa1 w i j) (w_v1 w i j) ln (expected_log_W_given_A digamma w 1 i j) /\
  gamma_law (w_kappa0 w i j) (w_v0 w i j) ln (expected_log_W_given_A digamma w 0 i j) /\
  (allow = true \/ i <> j ->
   gamma_mixture_law p (w_kappa1 w i j) (w_v1 w i j) (w_kappa0 w i j) (w_v0 w i j) (fun x => x) (expected_W allow w i j) /\
   exists v, expected_log_W digamma allow w i j = Fin v /\
     gamma_mixture_law p (w_kappa1 w i j) (w_v1 w i j) (w_kappa0 w i j) (w_v0 w i j) ln v) /\
  (allow = false /\ i = j -> expected_W allow w i j = 0 /\ expected_log_W digamma allow w i j = NInf).
Proof.
  intros allow w i j p Ep H1 H2 H3 H4.
  assert (G1 : gamma_law (w_kappa1 w i j) (w_v1 w i j) (fun x => x) (expected_W_given_A w 1 i j)) by (rewrite EW1; now apply gamma_law_id).
  assert (G2 : gamma_law (w_kappa0 w i j) (w_v0 w i j) (fun x => x) (expected_W_given_A w 0 i j)) by (rewrite EW0; now apply gamma_law_id).
  assert (G3 : gamma_law (w_kappa1 w i j) (w_v1 w i j) ln (expected_log_W_given_A digamma w 1 i j)) by (rewrite ElnW1; now apply gamma_law_log).
  assert (G4 : gamma_law (w_kappa0 w i j) (w_v0 w i j) ln (expected_log_W_given_A digamma w 0 i j)) by (rewrite ElnW0; now apply gamma_law_log).
  split; [exact G1|]. split; [exact G2|]. split; [exact G3|]. split; [exact G4|]. split.
  - intros Hal. assert (Hd : (if negb allow then (i =? j)%nat else false) = false).
    { destruct allow; [reflexivity|]. cbn. destruct (Nat.eqb_spec i j); [destruct Hal; congruence|reflexivity]. }
    assert (E1 : expected_W allow w i j = p * expected_W_given_A w 1 i j + (1 - p) * expected_W_given_A w 0 i j).
    { unfold expected_W, w_A, fill_diagonal. destruct allow; cbn [negb] in *; cbv beta; [|rewrite Hd]; rewrite Ep; reflexivity. }
    assert (E2 : expected_log_W digamma allow w i j = Fin (p * expected_log_W_given_A digamma w 1 i j + (1 - p) * expected_log_W_given_A digamma w 0 i j)).
    { unfold expected_log_W, w_A, efill_diagonal. destruct allow; cbn [negb] in *; cbv beta; [|rewrite Hd]; rewrite Ep; reflexivity. }
    split; [rewrite E1; eexists; eexists; eauto|]. eexists. split; [exact E2|]. eexists; eexists; eauto.
  - intros (-> & <-). unfold expected_W, expected_log_W, fill_diagonal, efill_diagonal. cbn [negb]. now rewrite Nat.eqb_refl.
Qed.
(** Erdos-Renyi scale. *)
Theorem C98_erdos_renyi : forall e a b, e_mf e = Some (a, b) -> 0 < a -> 0 < b ->
  exists v lv, er_expected_v e = Ok v /\ er_expected_log_v digamma e = Ok lv /\ gamma_law a b (fun x => x) v /\ gamma_law a b ln lv.
Proof.
  intros e a b Em Ha Hb. unfold er_expected_v, er_expected_log_v. rewrite Em. eexists; eexists. split; [reflexivity|]. split; [reflexivity|]. split; [now apply gamma_law_id|now apply gamma_law_log].
Qed.
(** Block model, between distinct nodes: means over the labels and then over the block pair's beta or gamma. *)
Theorem C98_block_model_partial : forall s f i j, sb_fixed s = false -> mf_valid s f ->
  (i < sb_K s)%nat -> (j < sb_K s)%nat -> i <> j ->
  exists Tp Tv Tlv Tlp Tlq,
  (forall a b, (a < sb_C s)%nat -> (b < sb_C s)%nat ->
     beta_law (mf_tau1 f a b) (mf_tau0 f a b) (fun x => x) (Tp a b) /\
     beta_law (mf_tau1 f a b) (mf_tau0 f a b) ln (Tlp a b) /\
     beta_law (mf_tau1 f a b) (mf_tau0 f a b) (fun x => ln (1 - x)) (Tlq a b) /\
     gamma_law (mf_alpha f a b) (mf_beta f a b) (fun x => x) (Tv a b) /\
     gamma_law (mf_alpha f a b) (mf_beta f a b) ln (Tlv a b)) /\
  sbm_expected_p s f i j = posterior_mean s f Tp i j /\
  sbm_expected_v s f i j = posterior_mean s f Tv i j /\
  sbm_expected_log_v digamma s f i j = posterior_mean s f Tlv i j /\
  sbm_expected_log_p digamma s f i j = Fin (posterior_mean s f Tlp i j) /\
  sbm_expected_log_notp digamma s f i j = Fin (posterior_mean s f Tlq i j).
Proof.
  intros s f i j Hf Hv Hi Hj Hij. pose proof Hv as (V1 & V2 & V3).
  do 5 eexists. split; [|apply (@C93_expectations_partial digamma s f i j Hf V1 Hi Hj (or_introl Hij) (or_intror Hij))].
  intros a b Ha Hb. destruct (V3 a b Ha Hb) as (P0 & P1 & P2 & P3). cbv beta.
  split; [now apply beta_law_id|]. split; [now apply beta_law_log|]. split; [now apply beta_law_log1m|]. split; [now apply gamma_law_id|now apply gamma_law_log].
Qed.
Print Assumptions C98_background.
Print Assumptions C98_impulses.
Print Assumptions C98_weights.
Print Assumptions C98_erdos_renyi.
Print Assumptions C98_block_model_partial.

(** Self-connections of a block model: the value reported is not the mean of the self-connection's probability (C93). *)
Theorem C98_self_connection_refuted :
  exists s f T, mf_valid s f /\ sb_fixed s = false /\ sb_allow s = true /\ (0 < sb_K s)%nat /\
  (forall a b, (a < sb_C s)%nat -> (b < sb_C s)%nat -> gamma_law (mf_alpha f a b) (mf_beta f a b) (fun x => x) (T a b)) /\
  sbm_expected_v s f 0%nat 0%nat <> posterior_mean s f T 0%nat 0%nat.
Proof.
  destruct C93_self_connection_refuted as (s & f & Hv & Hf & Ha & HK & _ & _ & E1 & E2).
  exists s, f, (fun a b => mf_alpha f a b / mf_beta f a b). split; [exact Hv|]. split; [exact Hf|]. split; [exact Ha|]. split; [exact HK|]. split.
  - intros a b Ha' Hb'. destruct Hv as (_ & _ & V3). destruct (V3 a b Ha' Hb') as (_ & _ & P2 & P3). now apply gamma_law_id.
  - rewrite E1, E2. lra.
Qed.
Print Assumptions C98_self_connection_refuted.

(** Every state the variational algorithms reach (C38) meets the hypotheses. *)
Corollary C98_model : forall m, mf_ok m -> forall k1 k2 b, (k1 < mh_K (mm_h m))%nat -> (k2 < mh_K (mm_h m))%nat -> (b < mh_B (mm_h m))%nat ->
  gamma_law (mb_alpha (mm_bias m) k1) (mb_beta (mm_bias m) k1) (fun x => x) (expected_lambda0 (mm_bias m) k1) /\
  gamma_law (mb_alpha (mm_bias m) k1) (mb_beta (mm_bias m) k1) ln (expected_log_lambda0 digamma (mm_bias m) k1) /\
  dirichlet_law (mh_B (mm_h m)) (mm_gamma m k1 k2) (fun x => x b) (expected_g (mh_B (mm_h m)) (mm_gamma m) k1 k2 b) /\
  dirichlet_law (mh_B (mm_h m)) (mm_gamma m k1 k2) (fun x => ln (x b)) (expected_log_g digamma (mh_B (mm_h m)) (mm_gamma m) k1 k2 b) /\
  (mfnet_allow (mm_net m) = true \/ k1 <> k2 ->
   exists p v, w_p (mm_w m) k1 k2 = Fin p /\ expected_log_W digamma (mfnet_allow (mm_net m)) (mm_w m) k1 k2 = Fin v /\
   gamma_mixture_law p (w_kappa1 (mm_w m) k1 k2) (w_v1 (mm_w m) k1 k2) (w_kappa0 (mm_w m) k1 k2) (w_v0 (mm_w m) k1 k2) (fun x => x)
     (expected_W (mfnet_allow (mm_net m)) (mm_w m) k1 k2) /\
   gamma_mixture_law p (w_kappa1 (mm_w m) k1 k2) (w_v1 (mm_w m) k1 k2) (w_kappa0 (mm_w m) k1 k2) (w_v0 (mm_w m) k1 k2) ln v).
Proof.
  intros m Hm k1 k2 b H1 H2 Hb. destruct (ok_bias Hm H1) as (A1 & A2). destruct (C98_background _ _ A1 A2) as (B1 & B2).
  destruct (@C98_impulses (mh_B (mm_h m)) (mm_gamma m) k1 k2 b Hb) as (B3 & B4); [intros b' Hb'; now apply (ok_gamma Hm)|].
  split; [exact B1|]. split; [exact B2|]. split; [exact B3|]. split; [exact B4|]. intros Hal.
  destruct (ok_w Hm H1 H2) as (P0 & P1 & P2 & P3 & p & Ep & _).
  destruct (@C98_weights (mfnet_allow (mm_net m)) (mm_w m) k1 k2 p Ep P2 P3 P0 P1) as (_ & _ & _ & _ & HH & _).
  destruct (HH Hal) as (W1 & v & W2 & W3). exists p, v. auto.
Qed.
Print Assumptions C98_model.
Example C98_nonvacuous : exists m, mf_ok m /\ (0 < mh_K (mm_h m))%nat /\ (0 < mh_B (mm_h m))%nat /\ mfnet_allow (mm_net m) = true.
Proof. exists (ex_vlb (MfEr (ex_er true))). split; [|cbn; auto]. destruct C83_nonvacuous as (_ & (H & _)). exact H. Qed.

(* ------------------------------------------------------------------ *)
(** ** C71: negative entropies of gamma, beta and Dirichlet objects are the integrals of density times log density *)
Theorem C71_gamma_negentropy_integral : forall a b, 0 < a -> 0 < b ->
  gamma_law a b (fun x => gamma_lpdf log_gamma a b x) (gamma_negentropy log_gamma digamma a b).
Proof.
  intros a b Ha Hb. unfold gamma_negentropy, gamma_negentropy_with, gamma_mean, gamma_mean_log.
  replace (a * ln b + - log_gamma a + (a - 1) * (digamma a - ln b) + - b * (a / b)) with ((a * ln b - log_gamma a) + (a - 1) * (digamma a - ln b) + (- b) * (a / b)) by ring.
  apply gamma_law_loglinear; auto. intros x Hx. unfold gamma_lpdf. ring.
Qed.
Theorem C71_beta_negentropy_integral : forall t1 t0, 0 < t1 -> 0 < t0 ->
  beta_law t1 t0 (fun x => beta_lpdf log_gamma t1 t0 x) (beta_negentropy log_gamma digamma 1 (fun _ => t1) (fun _ => t0)).
Proof.
  intros a b Ha Hb. unfold beta_negentropy. rewrite dir_neg_rows. cbn [Rsum pair_rows]. rewrite !Rplus_0_l.
  replace (log_gamma (a + b) - (log_gamma a + log_gamma b) + ((a - 1) * (digamma a - digamma (a + b)) + (b - 1) * (digamma b - digamma (a + b))))
    with ((log_gamma (a + b) - log_gamma a - log_gamma b) + (a - 1) * (digamma a - digamma (a + b)) + (b - 1) * (digamma b - digamma (a + b))) by ring.
  apply beta_law_loglinear; auto.
Qed.
Theorem C71_dirichlet_negentropy_integral : forall n g, (0 < n)%nat -> (forall b, (b < n)%nat -> 0 < g b) ->
  dirichlet_law n g (fun x => dirichlet_lpdf log_gamma n g x) (dirichlet_negentropy log_gamma digamma 1 n (fun _ => g)).
Proof.
  intros n g Hn Hg. rewrite dir_neg_rows. cbn [Rsum]; rewrite Rplus_0_l. apply dirichlet_law_loglinear; auto.
Qed.
Print Assumptions C71_gamma_negentropy_integral.
Print Assumptions C71_beta_negentropy_integral.
Print Assumptions C71_dirichlet_negentropy_integral.

(* ------------------------------------------------------------------ *)
(** ** C86: shares of the bound as integrals *)

(** Minus the divergence of q = Gamma(qa, qb) from Gamma(a, b): the mean under q of the log ratio of the densities. *)
Lemma gamma_kl_integral a b qa qb : 0 < a -> 0 < b -> 0 < qa -> 0 < qb ->
  gamma_law qa qb (fun x => gamma_lpdf log_gamma a b x - gamma_lpdf log_gamma qa qb x) (gamma_neg_kl log_gamma digamma a b qa qb).
Proof.
  intros Ha Hb Hqa Hqb. unfold gamma_neg_kl, gamma_elog.
  match goal with |- gamma_law _ _ _ ?v => replace v with ((a * ln b - log_gamma a - (qa * ln qb - log_gamma qa)) + (a - qa) * (digamma qa - ln qb) + (qb - b) * (qa / qb)) by ring end.
  apply gamma_law_loglinear; auto. intros x Hx. unfold gamma_lpdf. ring.
Qed.
Lemma dirichlet_kl_integral n g q : (0 < n)%nat -> (forall b, (b < n)%nat -> 0 < q b) ->
  dirichlet_law n q (fun x => dirichlet_lpdf log_gamma n g x - dirichlet_lpdf log_gamma n q x) (dirichlet_neg_kl log_gamma digamma n g q).
Proof.
  intros Hn Hq. unfold dirichlet_neg_kl, dirichlet_elog.
  set (c0 := log_gamma (Rsum n g) - Rsum n (fun b => log_gamma (g b)) - (log_gamma (Rsum n q) - Rsum n (fun b => log_gamma (q b)))).
  pose proof (@dirichlet_law_loglinear n q c0 (fun b => g b - q b) (fun x => dirichlet_lpdf log_gamma n g x - dirichlet_lpdf log_gamma n q x) Hn Hq) as H.
  cbv zeta. match goal with |- dirichlet_law _ _ _ ?v => match type of H with _ -> dirichlet_law _ _ _ ?v' => assert (E : v = v') end end.
  { unfold c0. rewrite (@Rsum_ext n (fun b => (g b - q b) * (digamma (q b) - digamma (Rsum n q)))
      (fun b => (g b - 1) * (digamma (q b) - digamma (Rsum n q)) - (q b - 1) * (digamma (q b) - digamma (Rsum n q)))) by (intros; ring).
    rewrite Rsum_minus. ring. }
  rewrite E. apply H. intros x Hx. unfold dirichlet_lpdf, c0.
  rewrite (@Rsum_ext n (fun b => (g b - q b) * ln (x b)) (fun b => (g b - 1) * ln (x b) - (q b - 1) * ln (x b))) by (intros; ring).
  rewrite Rsum_minus. ring.
Qed.
(** Background rates. *)
Theorem C86_bias_share_integral : forall K alpha beta b, 0 < alpha -> 0 < beta ->
  (forall k, (k < K)%nat -> 0 < mb_alpha b k /\ 0 < mb_beta b k) ->
  exists kl : vec, bias_vlb log_gamma digamma K alpha beta b = Rsum K (fun k => - kl k) /\
  forall k, (k < K)%nat -> 0 <= kl k /\
    gamma_law (mb_alpha b k) (mb_beta b k) (fun x => gamma_lpdf log_gamma (mb_alpha b k) (mb_beta b k) x - gamma_lpdf log_gamma alpha beta x) (kl k).
Proof.
  intros K alpha beta b Ha Hb Hp. exists (fun k => - gamma_neg_kl log_gamma digamma alpha beta (mb_alpha b k) (mb_beta b k)). split.
  - rewrite (proj1 (@C86_bias_share_euler K alpha beta b Ha Hb Hp)). apply Rsum_ext; intros. ring.
  - intros k Hk. destruct (Hp k Hk) as (H1 & H2). split.
    + pose proof (@gamma_neg_kl_le log_gamma digamma alpha beta _ _ true_gamma_functions Ha Hb H1 H2). lra.
    + refine (@gamma_law_ext _ _ _ _ _ _ (gamma_law_opp (@gamma_kl_integral alpha beta _ _ Ha Hb H1 H2))). intros x Hx. ring.
Qed.
(** The scale of an Erdos-Renyi network. *)
Theorem C86_erdos_renyi_share_integral : forall e a b ma mb,
  e_alpha e = Some a -> e_beta e = Some b -> e_mf e = Some (ma, mb) -> 0 < a -> 0 < b -> 0 < ma -> 0 < mb ->
  exists kl, er_get_vlb log_gamma digamma e = Ok (- kl) /\ 0 <= kl /\
    gamma_law ma mb (fun x => gamma_lpdf log_gamma ma mb x - gamma_lpdf log_gamma a b x) kl.
Proof.
  intros e a b ma mb Ea Eb Em Ha Hb Hma Hmb. destruct (@C86_erdos_renyi_share_euler e a b ma mb Ea Eb Em Ha Hb Hma Hmb) as (E & Hle).
  exists (- gamma_neg_kl log_gamma digamma a b ma mb). split; [rewrite E; f_equal; ring|]. split; [lra|].
  refine (@gamma_law_ext _ _ _ _ _ _ (gamma_law_opp (@gamma_kl_integral a b _ _ Ha Hb Hma Hmb))). intros x Hx. ring.
Qed.
(** Impulse responses: the divergences, and the normaliser counted once instead of K*K times. *)
Theorem C86_impulse_share_integral_partial : forall K B gamma mg, (0 < B)%nat -> (forall b, (b < B)%nat -> 0 < gamma b) ->
  (forall k1 k2 b, (k1 < K)%nat -> (k2 < K)%nat -> (b < B)%nat -> 0 < mg k1 k2 b) ->
  exists kl : mat,
  ir_vlb log_gamma digamma K B gamma mg = Rsum K (fun k1 => Rsum K (fun k2 => - kl k1 k2))
    - (INR K * INR K - 1) * (log_gamma (Rsum B gamma) - Rsum B (fun b => log_gamma (gamma b))) /\
  forall k1 k2, (k1 < K)%nat -> (k2 < K)%nat -> 0 <= kl k1 k2 /\
    dirichlet_law B (mg k1 k2) (fun x => dirichlet_lpdf log_gamma B (mg k1 k2) x - dirichlet_lpdf log_gamma B gamma x) (kl k1 k2).
Proof.
  intros K B gamma mg HB Hg Hm. exists (fun k1 k2 => - dirichlet_neg_kl log_gamma digamma B gamma (mg k1 k2)). split.
  - rewrite C86_impulse_share_partial. f_equal. apply Rsum_ext; intros k1 _. apply Rsum_ext; intros k2 _. ring.
  - intros k1 k2 H1 H2. assert (Hq : forall b, (b < B)%nat -> 0 < mg k1 k2 b) by (intros; now apply Hm). split.
    + pose proof (@dir_neg_kl_le log_gamma digamma B gamma (mg k1 k2) true_gamma_functions HB ltac:(auto)). lra.
    + pose proof (@dirichlet_kl_integral B gamma (mg k1 k2) HB Hq) as H. apply simplex_scal with (k := -1) in H.
      unfold dirichlet_law. match type of H with simplex_int _ _ ?F ?v => match goal with |- simplex_int _ _ ?F' ?v' => replace v' with v by ring; replace F' with F; [exact H|] end end.
      apply functional_extensionality. intros x. ring.
Qed.
(** Weights: the mean over the indicator and the weight of ln p(A, W | network) - ln q(A, W), where what the network
    contributes enters through its expectations (the shares of p, v and ln v). *)
Theorem C86_weights_share_integral : forall K kappa0 nu0 n w, w_ok K w -> 0 < kappa0 -> 0 < nu0 ->
  (forall i j, (i < K)%nat -> (j < K)%nat -> exists lp lq, ne_lnp n i j = Fin lp /\ ne_lnnotp n i j = Fin lq) ->
  exists (m1 m0 : mat),
  weights_vlb log_gamma digamma K kappa0 nu0 n w = Ok (Fin (Rsum K (fun i => Rsum K (fun j =>
      let p := fval (w_p w i j) in
      p * (fval (ne_lnp n i j) + m1 i j - ln p) + (1 - p) * (fval (ne_lnnotp n i j) + m0 i j - ln (1 - p)))))) /\
  forall i j, (i < K)%nat -> (j < K)%nat ->
    gamma_law (w_kappa1 w i j) (w_v1 w i j) (fun x =>
       (ne_kappa n * ne_lnv n i j - log_gamma (ne_kappa n) + (ne_kappa n - 1) * ln x - ne_v n i j * x)
       - gamma_lpdf log_gamma (w_kappa1 w i j) (w_v1 w i j) x) (m1 i j) /\
    gamma_law (w_kappa0 w i j) (w_v0 w i j) (fun x =>
       gamma_lpdf log_gamma kappa0 nu0 x - gamma_lpdf log_gamma (w_kappa0 w i j) (w_v0 w i j) x) (m0 i j).
Proof.
  intros K kappa0 nu0 n w Hw H0 H1 Hn.
  exists (fun i j => gamma_negentropy_with log_gamma (ne_kappa n) (digamma (w_kappa1 w i j) - ln (w_v1 w i j)) (w_kappa1 w i j / w_v1 w i j) (ne_v n i j) (ne_lnv n i j)
                     - gamma_negentropy log_gamma digamma (w_kappa1 w i j) (w_v1 w i j)).
  exists (fun i j => gamma_neg_kl log_gamma digamma kappa0 nu0 (w_kappa0 w i j) (w_v0 w i j)). split.
  - rewrite weights_vlb_fin; [|exact Hw|].
    + do 2 f_equal. unfold wv_R. apply Rsum_ext; intros i Hi. apply Rsum_ext; intros j Hj. cbv zeta. unfold edge_v, w_A, gamma_neg_kl, gamma_elog, gamma_negentropy, gamma_negentropy_with, gamma_mean, gamma_mean_log. ring.
    + intros i j Hi Hj. destruct (Hn i j Hi Hj) as (lp & lq & -> & ->). split; reflexivity.
  - intros i j Hi Hj. destruct (Hw i j Hi Hj) as (P0 & P1 & P2 & P3 & _). split; [|now apply gamma_kl_integral].
    unfold gamma_negentropy, gamma_negentropy_with, gamma_mean, gamma_mean_log.
    set (k1 := w_kappa1 w i j) in *. set (v1 := w_v1 w i j) in *.
    match goal with |- gamma_law _ _ _ ?v => replace v with ((ne_kappa n * ne_lnv n i j - log_gamma (ne_kappa n) - (k1 * ln v1 - log_gamma k1)) + (ne_kappa n - k1) * (digamma k1 - ln v1) + (v1 - ne_v n i j) * (k1 / v1)) by ring end.
    apply gamma_law_loglinear; auto. intros x Hx. unfold gamma_lpdf. ring.
Qed.
(** Block model: labels, block probabilities, sparsities and scales.  The sparsities' prior constant is counted once
    instead of once per pair of blocks. *)
Theorem C86_block_model_share_partial : forall s f, prior_pos s -> mf_valid s f ->
  (forall k c, (k < sb_K s)%nat -> (c < sb_C s)%nat -> 0 < mf_m f k c) ->
  exists (Elnm : vec) (kp kv : mat) (km : R),
  sbm_vlb log_gamma digamma s f true true true true
  = Rsum (sb_K s) (fun k => Rsum (sb_C s) (fun c => mf_m f k c * (Elnm c - ln (mf_m f k c))))
    - Rsum (sb_C s) (fun a => Rsum (sb_C s) (fun b => kp a b)) - Rsum (sb_C s) (fun a => Rsum (sb_C s) (fun b => kv a b)) - km
    - (INR (sb_C s) * INR (sb_C s) - 1) * (log_gamma (sb_tau1 s + sb_tau0 s) - log_gamma (sb_tau1 s) - log_gamma (sb_tau0 s)) /\
  (forall c, (c < sb_C s)%nat -> dirichlet_law (sb_C s) (mf_pi f) (fun x => ln (x c)) (Elnm c)) /\
  dirichlet_law (sb_C s) (mf_pi f) (fun x => dirichlet_lpdf log_gamma (sb_C s) (mf_pi f) x - dirichlet_lpdf log_gamma (sb_C s) (sb_pi s) x) km /\
  forall a b, (a < sb_C s)%nat -> (b < sb_C s)%nat ->
    beta_law (mf_tau1 f a b) (mf_tau0 f a b) (fun x => beta_lpdf log_gamma (mf_tau1 f a b) (mf_tau0 f a b) x - beta_lpdf log_gamma (sb_tau1 s) (sb_tau0 s) x) (kp a b) /\
    gamma_law (mf_alpha f a b) (mf_beta f a b) (fun x => gamma_lpdf log_gamma (mf_alpha f a b) (mf_beta f a b) x - gamma_lpdf log_gamma (sb_alpha s) (sb_beta s) x) (kv a b).
Proof.
  intros s f HP HV Hm. pose proof HV as (V1 & V2 & V3).
  set (C := sb_C s) in *. set (K := sb_K s) in *.
  set (T1 := fun a b => digamma (mf_tau1 f a b) - digamma (mf_tau0 f a b + mf_tau1 f a b)).
  set (T0 := fun a b => digamma (mf_tau0 f a b) - digamma (mf_tau0 f a b + mf_tau1 f a b)).
  set (Elm := fun c => digamma (mf_pi f c) - digamma (Rsum C (mf_pi f))).
  set (cst := fun t1 t0 => log_gamma (t1 + t0) - log_gamma t1 - log_gamma t0).
  exists Elm, (fun a b => cst (mf_tau1 f a b) (mf_tau0 f a b) - cst (sb_tau1 s) (sb_tau0 s) + (mf_tau1 f a b - sb_tau1 s) * T1 a b + (mf_tau0 f a b - sb_tau0 s) * T0 a b),
    (fun a b => - gamma_neg_kl log_gamma digamma (sb_alpha s) (sb_beta s) (mf_alpha f a b) (mf_beta f a b)),
    (- dirichlet_neg_kl log_gamma digamma C (sb_pi s) (mf_pi f)).
  split; [|split; [|split]].
  - unfold sbm_vlb. fold C K. cbv zeta.
    assert (E3 : Rsum K (fun k => discrete_negentropy C (mf_m f k) (Some (mf_m f k)) (Some (fun c => Fin (Elm c))) - discrete_negentropy C (mf_m f k) None None)
      = Rsum K (fun k => Rsum C (fun c => mf_m f k c * (Elm c - ln (mf_m f k c))))).
    { apply Rsum_ext; intros k Hk. unfold discrete_negentropy. rewrite (esum_fin _ (fun c => mf_m f k c * Elm c)) by reflexivity.
      rewrite (esum_fin _ (fun c => mf_m f k c * ln (mf_m f k c))) by (intros c Hc; rewrite elog_fin by (now apply Hm); reflexivity).
      cbn [nan_to_num]. rewrite <- Rsum_minus. apply Rsum_ext; intros; ring. }
    assert (E4 : beta_negentropy_with log_gamma 1 (C * C) (fun _ => sb_tau1 s) (fun _ => sb_tau0 s)
         (fun r => T1 (r / C)%nat (r mod C)%nat) (fun r => T0 (r / C)%nat (r mod C)%nat)
       - beta_negentropy log_gamma digamma (C * C) (fun r => mf_tau1 f (r / C)%nat (r mod C)%nat) (fun r => mf_tau0 f (r / C)%nat (r mod C)%nat)
      = cst (sb_tau1 s) (sb_tau0 s) + Rsum C (fun a => Rsum C (fun b => (sb_tau1 s - mf_tau1 f a b) * T1 a b + (sb_tau0 s - mf_tau0 f a b) * T0 a b - cst (mf_tau1 f a b) (mf_tau0 f a b)))).
    { unfold beta_negentropy_with, beta_negentropy. rewrite dir_neg_rows. unfold dirichlet_negentropy_with. cbn [Nat.eqb]. rewrite !Rsum_mul.
      change (Rsum 1 (fun r => log_gamma (Rsum 2 (pair_rows (fun _ => sb_tau1 s) (fun _ => sb_tau0 s) r)))) with (0 + log_gamma (0 + sb_tau1 s + sb_tau0 s)).
      change (Rsum 1 (fun r => Rsum 2 (fun b => log_gamma (pair_rows (fun _ => sb_tau1 s) (fun _ => sb_tau0 s) r b)))) with (0 + (0 + log_gamma (sb_tau1 s) + log_gamma (sb_tau0 s))).
      rewrite !Rplus_0_l. unfold cst at 1.
      match goal with |- ?u + - (?v1 + ?v2) + ?x - ?y = _ => replace (u + - (v1 + v2) + x - y) with (u - v1 - v2 + (x - y)) by ring end.
      f_equal. rewrite <- Rsum_minus. apply Rsum_ext; intros a Ha. rewrite <- Rsum_minus. apply Rsum_ext; intros b Hb'.
      rewrite !Rsum2. cbn [pair_rows]. rewrite div_idx, mod_idx by auto. unfold cst, T1, T0. rewrite (Rplus_comm (mf_tau0 f a b)). ring. }
    assert (E5 : dirichlet_negentropy_with log_gamma 1 1 C (fun _ => sb_pi s) (fun _ => Elm) - dirichlet_negentropy log_gamma digamma 1 C (fun _ => mf_pi f)
      = dirichlet_neg_kl log_gamma digamma C (sb_pi s) (mf_pi f)).
    { rewrite dir_neg_rows. unfold dirichlet_negentropy_with, dirichlet_neg_kl, dirichlet_elog. cbn [Nat.eqb Rsum]. unfold Elm. ring. }
    unfold T1, T0 in E4. cbv beta in E4. unfold Elm in E3, E5. rewrite E3, E4, E5. fold Elm.
    rewrite (@Rsum2_ext C (fun a b => gamma_negentropy_with log_gamma (sb_alpha s) (digamma (mf_alpha f a b) - ln (mf_beta f a b)) (mf_alpha f a b / mf_beta f a b) (sb_beta s) (ln (sb_beta s)) - gamma_negentropy log_gamma digamma (mf_alpha f a b) (mf_beta f a b)) (fun a b => - - gamma_neg_kl log_gamma digamma (sb_alpha s) (sb_beta s) (mf_alpha f a b) (mf_beta f a b))).
    2:{ intros. unfold gamma_neg_kl, gamma_elog, gamma_negentropy, gamma_negentropy_with, gamma_mean_log, gamma_mean. ring. }
    assert (O : forall g, Rsum C (fun i => Rsum C (fun j => - g i j)) = - Rsum C (fun i => Rsum C (fun j => g i j))).
    { intros g. rewrite <- Rsum_opp. apply Rsum_ext. intros. apply Rsum_opp. }
    rewrite (O (fun a b => - gamma_neg_kl log_gamma digamma (sb_alpha s) (sb_beta s) (mf_alpha f a b) (mf_beta f a b))).
    assert (E6 : Rsum C (fun a => Rsum C (fun b => (sb_tau1 s - mf_tau1 f a b) * T1 a b + (sb_tau0 s - mf_tau0 f a b) * T0 a b - cst (mf_tau1 f a b) (mf_tau0 f a b)))
      = - Rsum C (fun a => Rsum C (fun b => cst (mf_tau1 f a b) (mf_tau0 f a b) - cst (sb_tau1 s) (sb_tau0 s) + (mf_tau1 f a b - sb_tau1 s) * T1 a b + (mf_tau0 f a b - sb_tau0 s) * T0 a b))
        - INR C * INR C * cst (sb_tau1 s) (sb_tau0 s)).
    { rewrite <- O. rewrite (@Rsum2_ext C (fun a b => (sb_tau1 s - mf_tau1 f a b) * T1 a b + (sb_tau0 s - mf_tau0 f a b) * T0 a b - cst (mf_tau1 f a b) (mf_tau0 f a b))
        (fun a b => - (cst (mf_tau1 f a b) (mf_tau0 f a b) - cst (sb_tau1 s) (sb_tau0 s) + (mf_tau1 f a b - sb_tau1 s) * T1 a b + (mf_tau0 f a b - sb_tau0 s) * T0 a b) + - cst (sb_tau1 s) (sb_tau0 s))) by (intros; ring).
      rewrite Rsum2_plus. rewrite (@Rsum_ext C (fun _ => Rsum C (fun _ => - cst (sb_tau1 s) (sb_tau0 s))) (fun _ => INR C * - cst (sb_tau1 s) (sb_tau0 s))) by (intros; apply Rsum_const). rewrite Rsum_const. ring. }
    unfold T1, T0 in E6 |- *. cbv beta in E6 |- *. rewrite E6. unfold cst, Elm. ring.
  - intros c Hc. apply dirichlet_law_log; auto. unfold C in *; lia.
  - assert (HC : (0 < C)%nat). { destruct HP as (H & _). unfold C. exact H. }
    pose proof (@dirichlet_kl_integral C (sb_pi s) (mf_pi f) HC V2) as H. apply simplex_scal with (k := -1) in H.
    unfold dirichlet_law. match type of H with simplex_int _ _ ?F ?v => match goal with |- simplex_int _ _ ?F' ?v' => replace v' with v by ring; replace F' with F; [exact H|] end end.
    apply functional_extensionality. intros x. ring.
  - intros a b Ha Hb. destruct (V3 a b Ha Hb) as (P0 & P1 & P2 & P3). destruct HP as (HC & Hpi & HR). repeat match goal with H : _ /\ _ |- _ => destruct H end. split.
    + unfold T1, T0. rewrite (Rplus_comm (mf_tau0 f a b)). apply beta_law_loglinear; auto. intros x Hx. unfold beta_lpdf, cst. ring.
    + refine (@gamma_law_ext _ _ _ _ _ _ (gamma_law_opp (@gamma_kl_integral (sb_alpha s) (sb_beta s) _ _ _ _ P2 P3))); [intros x Hx; ring| |]; assumption.
Qed.
Print Assumptions C86_bias_share_integral.
Print Assumptions C86_erdos_renyi_share_integral.
Print Assumptions C86_impulse_share_integral_partial.
Print Assumptions C86_weights_share_integral.
Print Assumptions C86_block_model_share_partial.
