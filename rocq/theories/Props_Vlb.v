(** * Props_Vlb: properties C83-C86, the variational lower bound. *)
From Coq Require Import FunctionalExtensionality.
From Verif Require Import Prelude ExtReal Arrays Spec_Vlb M_Basis M_Parents M_Discrete M_Gibbs M_Dist M_Network M_MeanField M_Vlb
  L_Basis L_Discrete L_Parents L_Gibbs L_Network L_Vlb L_Vlb2 L_Vlb3 L_Vlb4 L_Vlb5 L_Vlb6 L_Vlb7
  Props_Discrete Props_Parents Props_Gibbs Props_Network Props_MeanField.
Set Implicit Arguments.
Open Scope R_scope.

(** Two reported bounds are finite numbers, the first at most the second. *)
Definition vlb_le (a b : result er) : Prop := exists x y, a = Ok (Fin x) /\ b = Ok (Fin y) /\ x <= y.

(* ------------------------------------------------------------------ *)
(** ** C84: each update is the maximiser of the reported bound over its block *)

Definition with_bias (m : mfmodel) (b : mfbias) : mfmodel :=
  {| mm_h := mm_h m; mm_bias := b; mm_gamma := mm_gamma m; mm_w := mm_w m; mm_net := mm_net m; mm_data := mm_data m; mm_off := mm_off m |}.
Definition with_ir (m : mfmodel) (g : ten) : mfmodel :=
  {| mm_h := mm_h m; mm_bias := mm_bias m; mm_gamma := g; mm_w := mm_w m; mm_net := mm_net m; mm_data := mm_data m; mm_off := mm_off m |}.
Definition with_w (m : mfmodel) (w : mfw) : mfmodel :=
  {| mm_h := mm_h m; mm_bias := mm_bias m; mm_gamma := mm_gamma m; mm_w := w; mm_net := mm_net m; mm_data := mm_data m; mm_off := mm_off m |}.
Definition with_net (m : mfmodel) (no : mfnet) : mfmodel :=
  {| mm_h := mm_h m; mm_bias := mm_bias m; mm_gamma := mm_gamma m; mm_w := mm_w m; mm_net := no; mm_data := mm_data m; mm_off := mm_off m |}.

(** Valid state, non-negative expected counts, and a network for which the bound is finite: self-connections allowed,
    edge probabilities inside (0,1), block parameters not frozen. *)
Definition nonneg_EZ (d : parents) : Prop :=
  forall k r c, (k < pa_K d)%nat -> (r < pa_Tk d k)%nat -> (c < 1 + pa_K d * pa_B d)%nat -> 0 <= pa_EZ d k r c.
Definition bound_ok (m : mfmodel) : Prop :=
  mf_ok m /\ net_good (mm_net m) /\ mm_data m <> [] /\ forall d, In d (mm_data m) -> nonneg_EZ d.
Lemma bound_upd m : bound_ok m -> forall d, In d (mm_data m) -> upd_ok (mm_h m) d.
Proof.
  intros (Hm & _ & _ & HE) d Hin. destruct (ok_data Hm d Hin) as (EK & EB & _ & Hdt & _ & Hf). repeat split; auto; apply Hf || apply HE; auto.
Qed.
Lemma bound_dim m : bound_ok m -> forall d, In d (mm_data m) -> pa_K d = mh_K (mm_h m) /\ pa_B d = mh_B (mm_h m).
Proof. intros (Hm & _) d Hin. destruct (ok_data Hm d Hin) as (EK & EB & _). auto. Qed.

Lemma Rsum_lt n f g : (0 < n)%nat -> (forall i, (i < n)%nat -> f i < g i) -> Rsum n f < Rsum n g.
Proof.
  intros Hn H. destruct n as [|n]; [lia|]. cbn [Rsum]. assert (Rsum n f <= Rsum n g) by (apply Rsum_le; intros; left; apply H; lia).
  specialize (H n ltac:(lia)). lra.
Qed.
Section Max.
Variables lgam psi : R -> R.
Hypothesis GF : gamma_functions lgam psi.

Theorem C84_bias_maximises_partial : forall m b', bound_ok m -> (forall d, In d (mm_data m) -> pa_dt d = 1) ->
  bias_mf (mh_alpha (mm_h m)) (mh_beta (mm_h m)) (mm_data m) (mm_bias m) = Ok b' ->
  forall b, (forall k, (k < mh_K (mm_h m))%nat -> 0 < mb_alpha b k /\ 0 < mb_beta b k) ->
  vlb_le (mf_get_vlb lgam psi (with_bias m b)) (mf_get_vlb lgam psi (with_bias m b')).
Proof.
  intros m b' Hb Hdt E b Hpos. pose proof Hb as (Hm & Hg & Hne & _).
  do 2 eexists. split; [apply get_vlb_fin; [apply (ok_w Hm)|apply (ok_net Hm)|exact Hg]|].
  split; [apply get_vlb_fin; [apply (ok_w Hm)|apply (ok_net Hm)|exact Hg]|].
  rewrite !vlb_R_blocks by (first [apply net_good_allow; exact Hg|exact (bound_dim Hb)]). cbn [with_bias mm_h mm_bias mm_gamma mm_w mm_net mm_data].
  pose proof (@bias_step_max lgam psi GF (mm_h m) (mm_data m) (ok_hyp Hm) Hne (bound_upd Hb) (mm_bias m) b' Hdt E b Hpos). lra.
Qed.
Theorem C84_impulses_maximise : forall m, bound_ok m -> (0 < mh_B (mm_h m))%nat ->
  forall g, (forall k1 k2 b, (k1 < mh_K (mm_h m))%nat -> (k2 < mh_K (mm_h m))%nat -> (b < mh_B (mm_h m))%nat -> 0 < g k1 k2 b) ->
  vlb_le (mf_get_vlb lgam psi (with_ir m g)) (mf_get_vlb lgam psi (with_ir m (ir_mf (mh_gamma (mm_h m)) (mm_data m) (mm_gamma m)))).
Proof.
  intros m Hb HB g Hpos. pose proof Hb as (Hm & Hg & Hne & _).
  do 2 eexists. split; [apply get_vlb_fin; [apply (ok_w Hm)|apply (ok_net Hm)|exact Hg]|].
  split; [apply get_vlb_fin; [apply (ok_w Hm)|apply (ok_net Hm)|exact Hg]|].
  rewrite !vlb_R_blocks by (first [apply net_good_allow; exact Hg|exact (bound_dim Hb)]). cbn [with_ir mm_h mm_bias mm_gamma mm_w mm_net mm_data].
  pose proof (@ir_step_max lgam psi GF (mm_h m) (mm_data m) (ok_hyp Hm) (bound_upd Hb) (mm_gamma m) g HB Hpos). lra.
Qed.
(** Edge probabilities (within the clipping range), shapes and rates jointly. *)
Theorem C84_weights_maximise : forall m n w', bound_ok m -> mfnet_view psi (mm_net m) = Ok n ->
  weights_mf lgam (mh_kappa0 (mm_h m)) (mh_nu0 (mm_h m)) n (mm_data m) (mm_w m) = Ok w' ->
  forall w, w_ok (mh_K (mm_h m)) w ->
  vlb_le (mf_get_vlb lgam psi (with_w m w)) (mf_get_vlb lgam psi (with_w m w')).
Proof.
  intros m n w' Hb En E w Hw. pose proof Hb as (Hm & Hg & Hne & _).
  destruct (@net_good_facts lgam psi _ _ (ok_net Hm) Hg) as (En' & Hnf & _). rewrite En in En'. injection En' as ->.
  destruct (@mfnet_view_ok psi _ _ (ok_net Hm)) as (n2 & En2 & Hkap & _ & Hv). rewrite En in En2. injection En2 as <-.
  assert (Hw' : w_ok (mh_K (mm_h m)) w').
  { destruct (@common_update lgam psi (mm_h m) (mm_data m) 1 1 (mm_bias m) (mm_gamma m) (mm_w m) (mm_net m) (ok_hyp Hm) Hne
       (bound_upd Hb) ltac:(lra) ltac:(lra) (ok_bias Hm) (ok_gamma Hm) (ok_w Hm) (ok_net Hm)) as (_ & _ & n3 & En3 & w3 & Ew & Hw3 & _).
    rewrite En in En3. injection En3 as <-. change (weights_sgd lgam (mh_kappa0 (mm_h m)) (mh_nu0 (mm_h m)) (view psi (mm_net m)) (mm_data m) 1 1 (mm_w m))
      with (weights_mf lgam (mh_kappa0 (mm_h m)) (mh_nu0 (mm_h m)) (view psi (mm_net m)) (mm_data m) (mm_w m)) in Ew.
    rewrite E in Ew. injection Ew as <-. exact Hw3. }
  do 2 eexists. split; [apply get_vlb_fin; [exact Hw|apply (ok_net Hm)|exact Hg]|].
  split; [apply get_vlb_fin; [exact Hw'|apply (ok_net Hm)|exact Hg]|].
  rewrite !vlb_R_blocks by (first [apply net_good_allow; exact Hg|exact (bound_dim Hb)]). cbn [with_w mm_h mm_bias mm_gamma mm_w mm_net mm_data].
  pose proof (@w_step_max lgam psi GF (mm_h m) (mm_data m) (ok_hyp Hm) Hne (bound_upd Hb) (view psi (mm_net m)) (mm_w m) w' Hnf (ok_w Hm) Hkap
         (fun i j Hi Hj => proj1 (Hv i j Hi Hj)) E w Hw). lra.
Qed.
Lemma net_le m no1 no2 : bound_ok m -> mfnet_ok (mh_K (mm_h m)) no1 -> net_good no1 -> mfnet_ok (mh_K (mm_h m)) no2 -> net_good no2 ->
  net_obj lgam psi (mm_h m) (mm_w m) no1 <= net_obj lgam psi (mm_h m) (mm_w m) no2 ->
  vlb_le (mf_get_vlb lgam psi (with_net m no1)) (mf_get_vlb lgam psi (with_net m no2)).
Proof.
  intros Hb H1 G1 H2 G2 H. pose proof Hb as (Hm & _). do 2 eexists. split; [apply get_vlb_fin; [exact (ok_w Hm)|exact H1|exact G1]|].
  split; [apply get_vlb_fin; [exact (ok_w Hm)|exact H2|exact G2]|].
  rewrite !vlb_R_blocks by (first [apply net_good_allow; assumption|exact (bound_dim Hb)]). cbn [with_net mm_h mm_bias mm_gamma mm_w mm_net mm_data].
  unfold net_obj in H. lra.
Qed.
Lemma w_stats_ok K w : w_ok K w -> stats_ok K (wstats_of psi w).
Proof.
  intros Hw i j Hi Hj. destruct (Hw i j Hi Hj) as (W1 & W2 & W3 & W4 & p & Ep & Hp). destruct p_lo_bounds as (? & ? & ?).
  cbn [wstats_of ws_A ws_W]. rewrite EW1. unfold w_A. rewrite Ep. cbn [fval]. split; [lra|].
  assert (0 < w_kappa1 w i j / w_v1 w i j) by (apply Rdiv_lt_0_compat; auto). lra.
Qed.
(** Block model with any number of blocks: the sparsity, scale and block-probability parameters. *)
Theorem C84_block_model_maximises : forall m s f, bound_ok m -> mm_net m = MfSbm false s f ->
  let put tau0 tau1 al be pi := {| mf_pi := pi; mf_m := mf_m f; mf_tau0 := tau0; mf_tau1 := tau1; mf_alpha := al; mf_beta := be |} in
  let w := wstats_of psi (mm_w m) in
  let pos (M : mat) := forall a b, (a < sb_C s)%nat -> (b < sb_C s)%nat -> 0 < M a b in
  (forall tau0 tau1, pos tau0 -> pos tau1 ->
     vlb_le (mf_get_vlb lgam psi (with_net m (MfSbm false s (put tau0 tau1 (mf_alpha f) (mf_beta f) (mf_pi f)))))
            (mf_get_vlb lgam psi (with_net m (MfSbm false s (mf_update_p s f w 1))))) /\
  (forall al be, pos al -> pos be ->
     vlb_le (mf_get_vlb lgam psi (with_net m (MfSbm false s (put (mf_tau0 f) (mf_tau1 f) al be (mf_pi f)))))
            (mf_get_vlb lgam psi (with_net m (MfSbm false s (mf_update_v s f w 1))))) /\
  (forall pi, (forall a, (a < sb_C s)%nat -> 0 < pi a) ->
     vlb_le (mf_get_vlb lgam psi (with_net m (MfSbm false s (put (mf_tau0 f) (mf_tau1 f) (mf_alpha f) (mf_beta f) pi))))
            (mf_get_vlb lgam psi (with_net m (MfSbm false s (mf_update_m s f 1))))).
Proof.
  intros m s f Hb En put w pos. pose proof Hb as (Hm & Hg & _). rewrite En in Hg. pose proof (ok_net Hm) as Hno. rewrite En in Hno.
  cbn [mfnet_ok net_good] in Hno, Hg. destruct Hno as (EK & HP & HV & HS). destruct Hg as (_ & Ha & Hf).
  assert (HW : stats_ok (sb_K s) w) by (rewrite EK; apply w_stats_ok, (ok_w Hm)).
  pose proof HV as (V1 & V2 & V3).
  assert (OK : forall f', mf_valid s f' -> mfnet_ok (mh_K (mm_h m)) (MfSbm false s f')) by (intros; cbn; auto).
  assert (GD : forall f', net_good (MfSbm false s f')) by (intros; cbn; auto).
  assert (HM : mf_valid s (mf_update_m s f 1)).
  { split; [exact V1|]. split; [|exact V3]. intros a Ha'. cbn. rewrite mix_step_1. destruct HP as (_ & Hpi & _). specialize (Hpi a Ha').
    assert (0 <= Rsum (sb_K s) (fun k => mf_m f k a)); [|lra]. apply Rsum_nonneg. intros k Hk. now apply V1. }
  split; [|split].
  - intros tau0 tau1 P0 P1. apply net_le; auto.
    + apply OK. split; [exact V1|]. split; [exact V2|]. intros a b Ha' Hb'. cbn. split; [now apply P0|]. split; [now apply P1|]. now apply V3.
    + apply OK. now apply mf_valid_p.
    + rewrite !net_obj_sbm by auto. apply Rplus_le_compat_r. apply (@sbm_p_max lgam psi GF s f w HP HV HW tau0 tau1). intros; split; auto.
  - intros al be P0 P1. apply net_le; auto.
    + apply OK. split; [exact V1|]. split; [exact V2|]. intros a b Ha' Hb'. cbn. destruct (V3 a b Ha' Hb') as (? & ? & _). auto 10.
    + apply OK. now apply mf_valid_v.
    + rewrite !net_obj_sbm by auto. apply Rplus_le_compat_r. apply (@sbm_v_max lgam psi GF s f w HP HV HW al be). intros; split; auto.
  - intros pi P. apply net_le; auto.
    + apply OK. split; [exact V1|]. split; [exact P|]. exact V3.
    + rewrite !net_obj_sbm by auto. apply Rplus_le_compat_r. apply (@sbm_m_max lgam psi GF s f w HP HV pi P).
Qed.
(** Erdos-Renyi: the scale. *)
Theorem C84_erdos_renyi_maximises : forall m e e', bound_ok m -> mm_net m = MfEr e ->
  er_meanfieldupdate e (wstats_of psi (mm_w m)) 1 = Ok e' ->
  forall x y, 0 < x -> 0 < y ->
  vlb_le (mf_get_vlb lgam psi (with_net m (MfEr (er_with_mf e (x, y))))) (mf_get_vlb lgam psi (with_net m (MfEr e'))).
Proof.
  intros m e e' Hb En E x y Hx Hy. pose proof Hb as (Hm & Hg & _). rewrite En in Hg. pose proof (ok_net Hm) as Hno. rewrite En in Hno.
  assert (Hx' : mfnet_ok (mh_K (mm_h m)) (MfEr (er_with_mf e (x, y)))).
  { cbn in Hno |- *. destruct Hno as (EK & H1 & H2 & a & b & ma & mb & Ea & Eb & Em & Hpa & Hpb & _). split; [exact EK|]. split; [exact H1|]. split; [exact H2|].
    exists a, b, x, y. auto 10. }
  assert (E' : er_meanfieldupdate (er_with_mf e (x, y)) (wstats_of psi (mm_w m)) 1 = Ok e').
  { cbn [mfnet_ok] in Hno. destruct Hno as (_ & _ & _ & a & b & ma & mb & Ea & Eb & Em & _). unfold er_meanfieldupdate in E |- *.
    cbn [er_with_mf e_alpha e_beta e_mf e_K e_kappa]. rewrite Ea, Eb in *. rewrite Em in E. rewrite <- E. now rewrite !mix_step_1. }
  destruct (@net_step_ascent lgam psi GF (mm_h m) (mm_w m) (MfEr (er_with_mf e (x, y))) (MfEr e') Hx' (conj Hg I) (ok_w Hm)) as [N1 N2].
  { cbn [mfnet_batch]. rewrite E'. reflexivity. }
  apply net_le; auto.
  - unfold er_meanfieldupdate in E. cbn in Hno |- *. destruct Hno as (EK & H1 & H2 & a & b & ma & mb & Ea & Eb & Em & Hpa & Hpb & Hma & Hmb).
      rewrite Ea, Eb, Em in E. injection E as <-. cbn. split; [exact EK|]. split; [exact H1|]. split; [exact H2|].
      pose proof (w_stats_ok (ok_w Hm)) as Hst. rewrite EK.
      do 4 eexists. split; [exact Ea|]. split; [exact Eb|]. split; [reflexivity|]. split; [exact Hpa|]. split; [exact Hpb|]. rewrite !mix_step_1. split.
    + assert (0 <= Rsum (mh_K (mm_h m)) (fun i => Rsum (mh_K (mm_h m)) (fun j => ws_A (wstats_of psi (mm_w m)) i j * e_kappa e))); [|cbn in *; lra].
        apply Rsum2_nonneg. intros i j Hi Hj. destruct (Hst i j Hi Hj). apply Rmult_le_pos; lra.
    + assert (0 <= Rsum (mh_K (mm_h m)) (fun i => Rsum (mh_K (mm_h m)) (fun j => ws_A (wstats_of psi (mm_w m)) i j * ws_W (wstats_of psi (mm_w m)) i j))); [|cbn in *; lra].
        apply Rsum2_nonneg. intros i j Hi Hj. destruct (Hst i j Hi Hj). apply Rmult_le_pos; lra.
  - apply N2.
Qed.

(** The bias update ignores that the bound charges T (bins) and not T*dt: whenever dt is not 1 some other rate
    parameter gives a strictly larger reported bound. *)
Theorem C84_bias_dt_refuted : forall m d b', bound_ok m -> mm_data m = [d] -> pa_dt d <> 1 -> (0 < mh_K (mm_h m))%nat ->
  bias_mf (mh_alpha (mm_h m)) (mh_beta (mm_h m)) (mm_data m) (mm_bias m) = Ok b' ->
  exists b v v', (forall k, (k < mh_K (mm_h m))%nat -> 0 < mb_alpha b k /\ 0 < mb_beta b k) /\
    mf_get_vlb lgam psi (with_bias m b) = Ok (Fin v) /\ mf_get_vlb lgam psi (with_bias m b') = Ok (Fin v') /\ v' < v.
Proof.
  intros m d b' Hb Ed Hdt HK E. pose proof Hb as (Hm & Hg & Hne & _). pose proof (ok_hyp Hm) as (Ha & Hbe & _).
  set (b := {| mb_alpha := mb_alpha b'; mb_beta := fun _ => mh_beta (mm_h m) + INR (pa_T d) |}). exists b.
  assert (F : forall k, mb_alpha b' k = mh_alpha (mm_h m) + pool (fun d => exp_bkgd_ss0 d k) (mm_data m) /\ mb_beta b' k = mh_beta (mm_h m) + INR (pa_T d) * pa_dt d).
  { destruct (@C36_components lgam psi (mh_alpha (mm_h m)) (mh_beta (mm_h m)) (mh_gamma (mm_h m)) 0 0 {| ne_kappa := 0; ne_lnp := fun _ _ => NaN; ne_lnnotp := fun _ _ => NaN; ne_v := fun _ _ => 0; ne_lnv := fun _ _ => 0; ne_allow := false |} (mm_data m) (mm_bias m) (fun _ _ _ => 0) (mm_w m))
      as (_ & _ & _ & _ & C). destruct (C Hne) as ((b2 & E2 & F) & _). rewrite E in E2. injection E2 as <-. intros k. destruct (F k) as [F1 F2].
    split; [exact F1|]. rewrite F2, Ed, pool_lsum. cbn. ring. }
  destruct (ok_data Hm d) as (_ & _ & HT & Hdt0 & _); [rewrite Ed; now left|]. assert (HT' : 0 < INR (pa_T d)) by now apply lt_0_INR.
  assert (HTd : 0 < INR (pa_T d) * pa_dt d) by (apply Rmult_lt_0_compat; auto).
  do 2 eexists. split.
  { intros k Hk. cbn. destruct (F k) as [-> _]. pose proof (@stat_bias (mm_h m) (mm_data m) (bound_upd Hb) k Hk). split; lra. }
  split; [apply get_vlb_fin; [apply (ok_w Hm)|apply (ok_net Hm)|exact Hg]|].
  split; [apply get_vlb_fin; [apply (ok_w Hm)|apply (ok_net Hm)|exact Hg]|].
  rewrite !vlb_R_blocks by (first [apply net_good_allow; exact Hg|exact (bound_dim Hb)]). cbn [with_bias mm_h mm_bias mm_gamma mm_w mm_net mm_data].
  do 3 apply Rplus_lt_compat_r. apply Rplus_lt_compat_l. unfold lin_bias. rewrite !bias_block.
  - apply Rplus_lt_compat_r. apply Rsum_lt; [exact HK|]. intros k Hk. cbn [b mb_alpha mb_beta]. destruct (F k) as [-> ->].
    assert (ET : total_T (mm_data m) = INR (pa_T d)) by (unfold total_T; rewrite Ed, pool_lsum; cbn; ring). rewrite ET.
    pose proof (@stat_bias (mm_h m) (mm_data m) (bound_upd Hb) k Hk).
    apply gJ_rate_strict; try lra. intros X. apply Hdt. apply Rmult_eq_reg_l with (INR (pa_T d)); lra.
  - intros k Hk. cbn. lra.
  - intros k Hk. destruct (F k) as [_ ->]. lra.
Qed.
End Max.
Print Assumptions C84_bias_maximises_partial.
Print Assumptions C84_impulses_maximise.
Print Assumptions C84_weights_maximise.
Print Assumptions C84_block_model_maximises.
Print Assumptions C84_erdos_renyi_maximises.
Print Assumptions C84_bias_dt_refuted.

(* ------------------------------------------------------------------ *)
(** ** C83: a coordinate-ascent step never lowers the bound *)

Definition data_slack (d : parents) : R :=
  log_guard_slack (pa_K d) (pa_B d) (pa_Tk d) (pa_EZ d) (fun k r => pa_F d (pa_row d k r)) (fun k r => pa_S d (pa_row d k r) k).
Definition slack (m : mfmodel) : R := lsum (map data_slack (mm_data m)).
Lemma slack_split m : slack m = eps32 * lsum (map slack_F (mm_data m)) + eps32 * lsum (map slack_S (mm_data m)).
Proof.
  unfold slack. induction (mm_data m) as [|d l IH]; cbn [map lsum]; [ring|]. rewrite IH. unfold data_slack, log_guard_slack.
  fold eps32. fold (slack_F d). fold (slack_S d). ring.
Qed.

(** The conditions (unit bins, self-connections allowed, at most one block, expected counts as every update leaves
    them) are kept by the step; the value it returns is at least the value before, up to the effect of the 1e-32
    inside the compiled bound's logarithms. *)
Theorem C83_bound_increases_partial :
  forall lgam psi m, gamma_functions lgam psi -> ascent_ok m ->
  exists m' v v', mf_get_vlb lgam psi m = Ok (Fin v) /\ mf_cd_step lgam psi m = Ok (m', Fin v') /\
    v - slack m <= v' /\ ascent_ok m'.
Proof.
  intros lgam psi m GF H. destruct (@step_ascent lgam psi GF m H) as (m' & E & H' & HV & HS).
  pose proof H as (Hm & _ & [Hg _] & _ & Hd). pose proof H' as (Hm' & _ & [Hg' _] & _ & Hd').
  exists m', (vlb_R lgam psi m), (vlb_R lgam psi m').
  assert (E1 := @get_vlb_fin lgam psi m (ok_w Hm) (ok_net Hm) Hg).
  assert (E2 := @get_vlb_fin lgam psi m' (ok_w Hm') (ok_net Hm') Hg').
  split; [exact E1|]. split; [unfold mf_cd_step; rewrite E; cbn [bindr]; rewrite E2; reflexivity|]. split; [|exact H'].
  assert (D : forall d, In d (mm_data m) -> nonneg_F d /\ fits d /\ counts_ok d).
  { intros d Hin. destruct (ok_data Hm d Hin) as (_ & _ & _ & _ & ? & ?). split; [auto|split; [auto|apply (Hd d Hin)]]. }
  assert (D' : forall d, In d (mm_data m') -> nonneg_F d /\ fits d /\ counts_ok d).
  { intros d Hin. destruct (ok_data Hm' d Hin) as (_ & _ & _ & _ & ? & ?). split; [auto|split; [auto|apply (Hd' d Hin)]]. }
  destruct (@total_cy_py (x_of psi m) _ D) as [_ T1]. destruct (@total_cy_py (x_of psi m') _ D') as [T2 _].
  rewrite HS in T2. rewrite slack_split. unfold vlb_py in HV. lra.
Qed.

(** With the python routine for the data sets (no 1e-32) in place of the compiled one, the bound is monotone along
    every number of steps; nothing ever raises. *)
Fixpoint cd_run (lgam psi : R -> R) (n : nat) (m : mfmodel) : result mfmodel :=
  match n with O => Ok m | S n' => do r <- mf_cd_step lgam psi m ;; cd_run lgam psi n' (fst r) end.
Definition exact_bound (lgam psi : R -> R) (m : mfmodel) (v : R) : Prop :=
  exists c, mf_get_vlb lgam psi m = Ok (Fin c) /\
    v = c + lsum (map (fun d => vlb_python d (x_of psi m) - cy_vlb d (x_of psi m)) (mm_data m)).
Theorem C83_histories_monotone_partial :
  forall lgam psi, gamma_functions lgam psi -> forall n m, ascent_ok m ->
  exists m' v v', cd_run lgam psi n m = Ok m' /\ ascent_ok m' /\
    exact_bound lgam psi m v /\ exact_bound lgam psi m' v' /\ v <= v'.
Proof.
  intros lgam psi GF.
  assert (X : forall m, ascent_ok m -> mf_get_vlb lgam psi m = Ok (Fin (vlb_R lgam psi m)) /\ exact_bound lgam psi m (vlb_py lgam psi m)).
  { intros m (Hm & _ & [Hg _] & _). assert (E1 := @get_vlb_fin lgam psi m (ok_w Hm) (ok_net Hm) Hg). split; [exact E1|].
    eexists. split; [exact E1|]. unfold vlb_py, total_cy, total_py. 
    assert (L : forall l, lsum (map (fun d => vlb_python d (x_of psi m) - cy_vlb d (x_of psi m)) l)
       = lsum (map (fun d => vlb_python d (x_of psi m)) l) - lsum (map (fun d => cy_vlb d (x_of psi m)) l)).
    { induction l as [|d l IH]; cbn; [ring|]. rewrite IH. ring. }
    rewrite L. ring. }
  induction n as [|n IH]; intros m Hm.
  - exists m, (vlb_py lgam psi m), (vlb_py lgam psi m). destruct (X m Hm). split; [reflexivity|]. split; [exact Hm|]. split; [auto|]. split; [auto|lra].
  - destruct (@step_ascent lgam psi GF m Hm) as (m1 & E & HA1 & HV & _). destruct (X m1 HA1) as [E1 X1]. destruct (X m Hm) as [_ X0]. clear X.
    destruct (IH m1 HA1) as (m' & v & v' & E' & H' & Xv & Xv' & Hle).
    exists m', (vlb_py lgam psi m), v'. split; [cbn [cd_run]; unfold mf_cd_step; rewrite E; cbn [bindr]; rewrite E1; cbn [bindr fst]; exact E'|].
    split; [exact H'|]. split; [exact X0|]. split; [exact Xv'|].
    destruct Xv as (c & Ec & ->). destruct X1 as (c1 & Ec1 & X1). rewrite Ec in Ec1. injection Ec1 as <-. rewrite <- X1 in Hle. lra.
Qed.
Print Assumptions C83_bound_increases_partial.
Print Assumptions C83_histories_monotone_partial.

(** Hypotheses are met: two processes, one data set, and a pair of functions that satisfies the contract. *)
Definition ex_vlb_data : parents :=
  {| pa_T := 2; pa_K := 2; pa_B := 1; pa_dt := 1; pa_S := pa_S ex_child; pa_F := pa_F ex_child; pa_Z := pa_Z ex_child;
     pa_EZ := fun k r c => match c with O => 1 | _ => 0 end |}.
Definition ex_vlb (no : mfnet) : mfmodel :=
  {| mm_h := mm_h ex_mfm; mm_bias := mm_bias ex_mfm; mm_gamma := mm_gamma ex_mfm; mm_w := mm_w ex_mfm; mm_net := no;
     mm_data := [ex_vlb_data]; mm_off := None |}.
Definition ex_er (allow : bool) : ernet :=
  {| e_K := 2; e_p := 1/2; e_kappa := 1; e_alpha := Some 1; e_beta := Some 1; e_v := 1; e_allow := allow; e_mf := Some (1, 1) |}.
Lemma ex_vlb_ok allow : mf_ok (ex_vlb (MfEr (ex_er allow))).
Proof.
  unfold ex_vlb, ex_mfm. cbn [mm_h mm_bias mm_gamma mm_w]. apply C38_initial; try lra; try (intros; cbn; lra).
  - split; [reflexivity|]. cbn. split; [lra|]. split; [lra|]. exists 1, 1, 1, 1. repeat split; lra.
  - intros d [<-|[]]. split; [reflexivity|]. split; [reflexivity|]. split; [cbn; lia|]. split; [cbn; lra|].
    split; [|].
    + intros t k b Ht Hk Hb. cbn. repeat match goal with |- context [if ?x then _ else _] => destruct x end; lra.
    + intros t k Ht Hk. cbn. repeat match goal with |- context [if ?x then _ else _] => destruct x end; lia.
Qed.
Lemma ex_counts : counts_ok ex_vlb_data.
Proof.
  split; [|split].
  - intros k r [|c] _ _ _; cbn; lra.
  - intros k r Hk Hr. destruct (@pa_row_in ex_vlb_data k r Hr) as [Ht Hs].
    cbn [ex_vlb_data pa_K pa_B pa_EZ Nat.mul Nat.add Rsum].
    assert (E : pa_S ex_vlb_data (pa_row ex_vlb_data k r) k = 1%Z).
    { cbn [ex_vlb_data pa_S ex_child] in *. match goal with |- context [Nat.eqb ?a ?b] => destruct (Nat.eqb a b); [reflexivity|congruence] end. }
    rewrite E. lra.
  - intros. reflexivity.
Qed.
Example C83_nonvacuous : gamma_functions st_lgam st_psi /\ ascent_ok (ex_vlb (MfEr (ex_er true))).
Proof.
  split; [exact st_functions|]. split; [apply ex_vlb_ok|]. split; [cbn; lia|]. split; [split; [cbn; lra|exact I]|]. split; [cbn; congruence|].
  intros d [<-|[]]. split; [reflexivity|apply ex_counts].
Qed.
Example C84_nonvacuous : bound_ok (ex_vlb (MfEr (ex_er true))).
Proof.
  split; [apply ex_vlb_ok|]. split; [cbn; lra|]. split; [cbn; congruence|]. intros d [<-|[]] k r [|c]; intros; cbn; lra.
Qed.

(* ------------------------------------------------------------------ *)
(** ** C85: the value returned *)

(** With self-connections allowed, probabilities inside (0,1) and an unfrozen block model, the bound is a finite number. *)
Theorem C85_bound_finite_partial : forall lgam psi m, mf_ok m -> net_good (mm_net m) -> exists v, mf_get_vlb lgam psi m = Ok (Fin v).
Proof. intros lgam psi m Hm Hg. eexists. apply get_vlb_fin; [apply (ok_w Hm)|apply (ok_net Hm)|exact Hg]. Qed.
Print Assumptions C85_bound_finite_partial.

Lemma eadd_fin_inv a b v : eadd a b = Fin v -> exists x y, a = Fin x /\ b = Fin y.
Proof. destruct a, b; cbn; intros; try discriminate; eauto. Qed.
Lemma esum_fin_inv n f v : esum n f = Fin v -> forall i, (i < n)%nat -> exists x, f i = Fin x.
Proof.
  revert v. induction n as [|n IH]; intros v H i Hi; [lia|]. cbn [esum] in H. apply eadd_fin_inv in H as (x & y & H1 & H2).
  destruct (Nat.eq_dec i n) as [->|]; [eauto|]. apply (IH x H1). lia.
Qed.
(** With self-connections disallowed the bound is never a finite number. *)
Theorem C85_no_self_connections_refuted : forall lgam psi m, mf_ok m -> mfnet_allow (mm_net m) = false -> (0 < mh_K (mm_h m))%nat ->
  forall v, mf_get_vlb lgam psi m <> Ok (Fin v).
Proof.
  intros lgam psi m Hm Ha HK v E. unfold mf_get_vlb in E. cbv zeta in E.
  apply bindr_ok in E as (n & En & E). apply bindr_ok in E as (wv & Ew & E). apply bindr_ok in E as (nv & _ & E). injection E as E.
  apply eadd_fin_inv in E as (x & y & E & _). apply eadd_fin_inv in E as (x1 & y1 & _ & E). subst wv.
  unfold weights_vlb in Ew. apply bindr_ok in Ew as (? & _ & Ew). injection Ew as Ew. unfold esub in Ew.
  do 3 (apply eadd_fin_inv in Ew as (? & ? & Ew & _)). do 2 (apply eadd_fin_inv in Ew as (? & ? & Ew & _)).
  destruct (e2sum _ _) as [z| | |] eqn:Ew2 in Ew; try discriminate. clear Ew. rename Ew2 into Ew. unfold e2sum in Ew. destruct (@esum_fin_inv _ _ _ Ew 0%nat HK) as (? & E0).
  destruct (@esum_fin_inv _ _ _ E0 0%nat HK) as (? & E1). unfold bernoulli_negentropy_with in E1. apply eadd_fin_inv in E1 as (? & ? & E1 & _).
  destruct (@ok_w _ Hm 0%nat 0%nat HK HK) as (_ & _ & _ & _ & p & Ep & Hp). destruct p_lo_bounds as (? & ? & ?). rewrite Ep in E1.
  assert (HN : ne_lnp n 0%nat 0%nat = NInf).
  { destruct (mm_net m) as [fp s f|e] eqn:Eno; cbn [mfnet_view] in En; cbn [mfnet_allow] in Ha.
    - injection En as <-. cbn [ne_lnp]. destruct fp; [unfold fsbm_expected_log_p|unfold sbm_expected_log_p]; rewrite Ha; reflexivity.
    - apply bindr_ok in En as (? & _ & En). apply bindr_ok in En as (? & _ & En). injection En as <-. cbn [ne_lnp]. unfold er_P. rewrite Ha.
      unfold fill_diagonal. cbn [negb Nat.eqb]. apply elog_0. }
  rewrite HN in E1. cbn in E1. unfold einf_sign in E1. rewrite (proj2 (Rltb_true 0 p)) in E1 by lra. discriminate.
Qed.
Print Assumptions C85_no_self_connections_refuted.

(** After one step on data with at least one event it is NaN (or, with the fixed-sparsity model, an exception). *)
Lemma fold_nan {A} (f : A -> er) l d v : In d l -> f d = NaN -> fold_left (fun v d => eadd v (f d)) l v = NaN.
Proof.
  intros Hin Hd. revert v. induction l as [|a l IH]; intros v; [destruct Hin|]. cbn [fold_left]. destruct Hin as [->|Hin].
  - rewrite Hd, eadd_NaN_r. clear. induction l as [|a l IH]; [reflexivity|]. cbn [fold_left]. rewrite eadd_NaN_l. exact IH.
  - now apply IH.
Qed.
Theorem C85_nan_refuted : forall lgam psi m d t k, mf_ok m -> mfnet_allow (mm_net m) = false -> (0 < mh_B (mm_h m))%nat ->
  In d (mm_data m) -> (t < pa_T d)%nat -> (k < pa_K d)%nat -> (0 < pa_S d t k)%Z ->
  forall m' v, mf_cd_step lgam psi m = Ok (m', v) -> v = NaN.
Proof.
  intros lgam psi m d t k Hm Ha HB Hin Ht Hk Hpos m' v E. unfold mf_cd_step in E. apply bindr_ok in E as (m2 & E & E2).
  apply bindr_ok in E2 as (v2 & Ev & E2). injection E2 as -> ->.
  assert (Hne : mm_data m <> []) by (intros X; rewrite X in Hin; destruct Hin).
  unfold mf_batch_step in E. cbv zeta in E.
  apply bindr_ok in E as (data' & Ep & E). apply bindr_ok in E as (b' & Eb & E). apply bindr_ok in E as (n & En & E).
  apply bindr_ok in E as (w' & Ew & E). apply bindr_ok in E as (no' & Eno & E). injection E as <-.
  (* the updated data set puts nothing on a self-connection *)
  assert (P : exists d', In d' data' /\ mf_update_python d (mf_in_of psi m) = Ok d').
  { clear - Ep Hin. revert data' Ep. induction (mm_data m) as [|a l IH]; intros data' Ep; [destruct Hin|]. cbn [mf_parents] in Ep.
    apply bindr_ok in Ep as (a' & E1 & Ep). apply bindr_ok in Ep as (l' & E2 & Ep). injection Ep as <-.
    destruct Hin as [->|Hin]; [exists a'; split; [now left|exact E1]|]. destruct (IH Hin l' E2) as (d' & H1 & H2). exists d'. split; [now right|exact H2]. }
  destruct P as (d' & Hin' & Ed). destruct (ok_data Hm d Hin) as (EK & EB & _ & Hdt & HF & Hf).
  assert (Eset : d' = set_EZ d (pa_EZ d')).
  { destruct (@updated_ok psi m d d' Hm EK EB Hdt HF Hf Ed) as [_ X]. exact X. }
  destruct (@pa_row_surj d k t Ht ltac:(lia)) as (r & Hr & Er).
  assert (HZ : pa_EZ d' k r (1 + (k * pa_B d + 0))%nat = 0).
  { unfold mf_update_python in Ed. destruct (all_rows d _) in Ed; [|discriminate]. cbn [negb] in Ed. injection Ed as <-.
    cbn [set_EZ pa_EZ Nat.add]. unfold pkb. rewrite div_idx by lia. cbn [mf_in_of e_W]. rewrite Ha. unfold expected_log_W. cbn [negb].
    unfold efill_diagonal. rewrite Nat.eqb_refl. cbn [eexp fval]. unfold Rdiv. ring. }
  assert (Ha' : mfnet_allow no' = false).
  { destruct (mm_net m) as [[|] s f|e]; cbn [mfnet_batch] in Eno.
    - apply bindr_ok in Eno as (f' & _ & Eno). injection Eno as <-. exact Ha.
    - injection Eno as <-. exact Ha.
    - apply bindr_ok in Eno as (e' & Ee & Eno). injection Eno as <-. unfold er_meanfieldupdate in Ee.
      destruct (e_alpha e), (e_beta e), (e_mf e) as [[? ?]|]; try discriminate. injection Ee as <-. exact Ha. }
  set (m' := {| mm_h := mm_h m; mm_bias := b' |}) in *.
  assert (HN : data_vlb psi m' d' = NaN).
  { unfold data_vlb. replace (pa_K d') with (pa_K d) by (now rewrite Eset).
    apply esum_NaN with (i := k); [exact Hk|]. unfold cy_vlb_er_k.
    replace (pa_Tk d' k) with (pa_Tk d k) by (now rewrite Eset). replace (pa_K d') with (pa_K d) by (now rewrite Eset).
    replace (pa_B d') with (pa_B d) by (now rewrite Eset).
    rewrite (@esum_NaN (pa_Tk d k) _ r Hr); [apply eadd_NaN_r|].
    rewrite (@esum_NaN (pa_K d) _ k Hk); [apply eadd_NaN_r|].
    apply esum_NaN with (i := 0%nat); [lia|]. cbv zeta. rewrite HZ. cbn [m' mm_net mm_w mm_h mm_bias mm_gamma]. rewrite Ha'.
    unfold expected_log_W. cbn [negb]. unfold efill_diagonal. rewrite Nat.eqb_refl. cbn [eadd emul]. unfold einf_sign.
    rewrite !(proj2 (Rltb_false 0 0)) by lra. reflexivity. }
  unfold mf_get_vlb in Ev. cbv zeta in Ev. rewrite (@fold_nan _ (data_vlb psi m') (mm_data m') d' (Fin 0) Hin' HN) in Ev.
  apply bindr_ok in Ev as (n2 & _ & Ev). apply bindr_ok in Ev as (wv & _ & Ev). apply bindr_ok in Ev as (nv & _ & Ev). now injection Ev as <-.
Qed.
Print Assumptions C85_nan_refuted.

(** With the fixed-sparsity block model get_vlb, and with it every coordinate step, raises. *)
Theorem C85_fixed_sparsity_raises_refuted : forall lgam psi m s f, mf_ok m -> mm_net m = MfSbm true s f ->
  mf_get_vlb lgam psi m = Raise TypeError.
Proof.
  intros lgam psi m s f Hm En. unfold mf_get_vlb. cbv zeta. rewrite En. cbn [mfnet_view bindr].
  unfold weights_vlb.
  assert (G : forall_lt (mh_K (mm_h m)) (fun i => forall_lt (mh_K (mm_h m)) (fun j => p_in_01 (w_p (mm_w m) i j))) = true).
  { apply forall_lt_true. intros i Hi. apply forall_lt_true. intros j Hj. destruct (@ok_w _ Hm i j Hi Hj) as (_ & _ & _ & _ & p & -> & Hp).
    destruct p_lo_bounds as (? & ? & ?). cbn. apply andb_true_intro. split; apply Rleb_true; lra. }
  cbv zeta. rewrite G. cbn [guard bindr]. reflexivity.
Qed.
Print Assumptions C85_fixed_sparsity_raises_refuted.
Example C85_nonvacuous : mf_ok (ex_vlb (MfEr (ex_er false))) /\ mfnet_allow (MfEr (ex_er false)) = false /\
  (0 < pa_S ex_vlb_data 0%nat 0%nat)%Z /\ (forall lgam psi, exists m' v, mf_batch_step lgam psi (ex_vlb (MfEr (ex_er false))) = Ok m' /\ mf_cd_step lgam psi (ex_vlb (MfEr (ex_er false))) = Ok (m', v)).
Proof.
  split; [apply ex_vlb_ok|]. split; [reflexivity|]. split; [reflexivity|]. intros lgam psi.
  destruct (@mf_step_ok lgam psi OpBatch (ex_vlb (MfEr (ex_er false))) (ex_vlb_ok false) ltac:(cbn; congruence)) as (m' & E & Hm' & Eh & _).
  cbn [mf_op_step] in E. exists m'. unfold mf_cd_step. rewrite E. cbn [bindr].
  assert (Q : exists e', mm_net m' = MfEr e').
  { unfold mf_batch_step in E. cbv zeta in E.
    apply bindr_ok in E as (data' & Ep & E). apply bindr_ok in E as (b' & Eb & E). apply bindr_ok in E as (n & En & E).
    apply bindr_ok in E as (w' & Ew & E). apply bindr_ok in E as (no' & Eno & E). injection E as <-. cbn [mm_net].
    cbn [ex_vlb mm_net mfnet_batch] in Eno. apply bindr_ok in Eno as (e' & _ & Eno). injection Eno as <-. eauto. }
  destruct Q as (e' & Q). pose proof (ok_net Hm') as Hno. rewrite Q in Hno.
  unfold mf_get_vlb. cbv zeta. rewrite Q. destruct (@mfnet_view_ok psi _ _ Hno) as (n & En & _). rewrite En. cbn [bindr].
  unfold weights_vlb.
  assert (G : forall_lt (mh_K (mm_h m')) (fun i => forall_lt (mh_K (mm_h m')) (fun j => p_in_01 (w_p (mm_w m') i j))) = true).
  { apply forall_lt_true. intros i Hi. apply forall_lt_true. intros j Hj. destruct (@ok_w _ Hm' i j Hi Hj) as (_ & _ & _ & _ & p & -> & Hp).
    destruct p_lo_bounds as (? & ? & ?). cbn. apply andb_true_intro. split; apply Rleb_true; lra. }
  cbv zeta. rewrite G. cbn [guard bindr mfnet_vlb]. cbn [mfnet_ok] in Hno. destruct Hno as (_ & _ & _ & a & b & ma & mb & Ea & Eb & Em & _).
  unfold er_get_vlb. rewrite Ea, Eb, Em. cbn [bindr]. eauto.
Qed.

(* ------------------------------------------------------------------ *)
(** ** C86: the parameters' shares are minus Kullback-Leibler divergences *)

Lemma gJ_kl lgam psi a b qa qb : gamma_neg_kl lgam psi a b qa qb = gJ lgam psi a b qa qb + (a * ln b - lgam a).
Proof. unfold gamma_neg_kl, gamma_elog, gJ, gamma_negentropy, gamma_negentropy_with, gamma_mean_log, gamma_mean. ring. Qed.
Lemma dJ_kl lgam psi n g q : dirichlet_neg_kl lgam psi n g q = dJ lgam psi n g q + (lgam (Rsum n g) - Rsum n (fun b => lgam (g b))).
Proof. unfold dirichlet_neg_kl, dirichlet_elog, dJ. ring. Qed.
Lemma gJ_self lgam psi a b : 0 < b -> gJ lgam psi a b a b + (a * ln b - lgam a) = 0.
Proof. intros H. rewrite gJ_at by auto. ring. Qed.
Lemma gamma_neg_kl_le lgam psi a b qa qb : gamma_functions lgam psi -> 0 < a -> 0 < b -> 0 < qa -> 0 < qb -> gamma_neg_kl lgam psi a b qa qb <= 0.
Proof. intros GF Ha Hb Hqa Hqb. rewrite gJ_kl. pose proof (gJ_max GF Ha Hb Hqa Hqb). pose proof (gJ_self lgam psi a Hb). lra. Qed.
Lemma dir_neg_kl_le lgam psi n g q : gamma_functions lgam psi -> (0 < n)%nat -> (forall b, (b < n)%nat -> 0 < g b /\ 0 < q b) -> dirichlet_neg_kl lgam psi n g q <= 0.
Proof.
  intros GF Hn H. rewrite dJ_kl. pose proof (@dJ_max lgam psi GF n g q Hn H).
  assert (dJ lgam psi n g g + (lgam (Rsum n g) - Rsum n (fun b => lgam (g b))) = 0) by (unfold dJ; ring). lra.
Qed.

(** The background rates' share is the sum of minus the divergences, hence not positive. *)
Theorem C86_bias_share : forall lgam psi K alpha beta b, gamma_functions lgam psi -> 0 < alpha -> 0 < beta ->
  (forall k, (k < K)%nat -> 0 < mb_alpha b k /\ 0 < mb_beta b k) ->
  bias_vlb lgam psi K alpha beta b = Rsum K (fun k => gamma_neg_kl lgam psi alpha beta (mb_alpha b k) (mb_beta b k)) /\
  bias_vlb lgam psi K alpha beta b <= 0.
Proof.
  intros lgam psi K alpha beta b GF Ha Hb Hp.
  assert (E : bias_vlb lgam psi K alpha beta b = Rsum K (fun k => gamma_neg_kl lgam psi alpha beta (mb_alpha b k) (mb_beta b k))).
  { unfold bias_vlb. rewrite <- Rsum_minus. apply Rsum_ext; intros k Hk.
    unfold gamma_neg_kl, gamma_elog, gamma_negentropy, gamma_negentropy_with, expected_log_lambda0, expected_lambda0, gamma_mean_log, gamma_mean. ring. }
  split; [exact E|]. rewrite E. replace 0 with (Rsum K (fun _ => 0)) by (apply Rsum_0; auto). apply Rsum_le; intros k Hk. destruct (Hp k Hk). apply gamma_neg_kl_le; auto.
Qed.
(** The scale of an Erdos-Renyi network. *)
Theorem C86_erdos_renyi_share : forall lgam psi e a b ma mb, gamma_functions lgam psi ->
  e_alpha e = Some a -> e_beta e = Some b -> e_mf e = Some (ma, mb) -> 0 < a -> 0 < b -> 0 < ma -> 0 < mb ->
  er_get_vlb lgam psi e = Ok (gamma_neg_kl lgam psi a b ma mb) /\ gamma_neg_kl lgam psi a b ma mb <= 0.
Proof.
  intros lgam psi e a b ma mb GF Ea Eb Em Ha Hb Hma Hmb. unfold er_get_vlb. rewrite Ea, Eb, Em. split; [|now apply gamma_neg_kl_le].
  f_equal. unfold gamma_neg_kl, gamma_elog, gamma_negentropy, gamma_negentropy_with, gamma_mean_log, gamma_mean. ring.
Qed.
(** The impulse responses' share counts the prior's normalising constant once instead of once per pair of processes. *)
Theorem C86_impulse_share_partial : forall lgam psi K B gamma mg,
  ir_vlb lgam psi K B gamma mg
  = Rsum K (fun k1 => Rsum K (fun k2 => dirichlet_neg_kl lgam psi B gamma (mg k1 k2)))
    - (INR K * INR K - 1) * (lgam (Rsum B gamma) - Rsum B (fun b => lgam (gamma b))).
Proof.
  intros lgam psi K B gamma mg. pose proof (@ir_block lgam psi K B gamma mg (fun _ _ _ => 0)) as E. cbv beta in E.
  rewrite (@Rsum_0 K (fun k1 => Rsum K (fun k2 => Rsum B (fun b => 0 * expected_log_g psi B mg k1 k2 b)))) in E.
  2:{ intros. apply Rsum_0. intros. apply Rsum_0. intros. ring. }
  rewrite Rplus_0_l in E. rewrite E.
  rewrite (@Rsum2_ext K (fun k1 k2 => dirichlet_neg_kl lgam psi B gamma (mg k1 k2))
     (fun k1 k2 => dJ lgam psi B gamma (mg k1 k2) + (lgam (Rsum B gamma) - Rsum B (fun b => lgam (gamma b))))) by (intros; apply dJ_kl).
  rewrite Rsum2_plus. 
  rewrite (@Rsum2_ext K (fun k1 k2 => dJ lgam psi B (fun b => gamma b + 0) (mg k1 k2)) (fun k1 k2 => dJ lgam psi B gamma (mg k1 k2))).
  2:{ intros. f_equal. apply functional_extensionality. intros. ring. }
  rewrite (@Rsum_ext K (fun _ => Rsum K (fun _ => _ - _)) (fun _ => INR K * (lgam (Rsum B gamma) - Rsum B (fun b => lgam (gamma b))))) by (intros; apply Rsum_const).
  rewrite Rsum_const. ring.
Qed.
Print Assumptions C86_bias_share.
Print Assumptions C86_erdos_renyi_share.
Print Assumptions C86_impulse_share_partial.
(** So with two or more processes and a prior whose normalising constant is not zero the reported share is wrong. *)
Theorem C86_impulse_share_refuted : forall lgam psi K B gamma mg, (2 <= K)%nat ->
  lgam (Rsum B gamma) - Rsum B (fun b => lgam (gamma b)) <> 0 ->
  ir_vlb lgam psi K B gamma mg <> Rsum K (fun k1 => Rsum K (fun k2 => dirichlet_neg_kl lgam psi B gamma (mg k1 k2))).
Proof.
  intros lgam psi K B gamma mg HK Hc E. rewrite C86_impulse_share_partial in E.
  assert (HK' : 2 <= INR K) by (apply (le_INR 2) in HK; exact HK). assert (INR K * INR K - 1 <> 0) by nra.
  apply Hc. apply Rmult_eq_reg_l with (INR K * INR K - 1); [|auto]. lra.
Qed.
Print Assumptions C86_impulse_share_refuted.
Example C86_nonvacuous : st_lgam (Rsum 2 (fun _ => 1)) - Rsum 2 (fun _ => st_lgam 1) <> 0.
Proof. unfold st_lgam. cbn. replace (0 + 1 + 1) with 2 by ring. rewrite ln_1. assert (0 < ln 2) by (rewrite <- ln_1; apply ln_increasing; lra). lra. Qed.
