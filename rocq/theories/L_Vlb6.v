(** * L_Vlb6: each block update maximises the bound over its block. *)
From Coq Require Import FunctionalExtensionality.
From Verif Require Import Prelude ExtReal Arrays Spec_Vlb M_Basis M_Parents M_Discrete M_Gibbs M_Dist M_Network M_MeanField M_Vlb
  L_Basis L_Discrete L_Parents L_Gibbs L_Network L_Vlb L_Vlb2 L_Vlb3 L_Vlb4 L_Vlb5 Props_Discrete Props_Parents Props_Gibbs Props_Network Props_MeanField.
Set Implicit Arguments.
Open Scope R_scope.

Lemma pool_ext {A} (f g : A -> R) l : (forall x, In x l -> f x = g x) -> pool f l = pool g l.
Proof. intros H. rewrite !pool_lsum. f_equal. apply map_ext_in. exact H. Qed.
Lemma div1 x : x / 1 = x. Proof. field. Qed.

Section U.
Variables lgam psi : R -> R.
Hypothesis GF : gamma_functions lgam psi.
Notation vlbR := (vlb_R lgam psi).

Section D.
Variables (h : mfhyp) (data : list parents).
Hypothesis Hh : mfhyp_ok h.
Hypothesis Hne : data <> [].
Hypothesis Hd : forall d, In d data -> upd_ok h d.

Lemma stat_bias k : (k < mh_K h)%nat -> 0 <= pool (fun d => exp_bkgd_ss0 d k) data.
Proof.
  intros Hk. apply pool_nonneg_mf. intros d Hin. destruct (Hd d Hin) as (EK & EB & _ & _ & HE).
  apply Rsum_nonneg. intros r Hr. apply HE; [lia|auto|lia].
Qed.
Lemma stat_w i j : (i < mh_K h)%nat -> (j < mh_K h)%nat -> 0 <= pool (fun d => exp_weight_ss0 d i j) data.
Proof.
  intros Hi Hj. apply pool_nonneg_mf. intros d Hin. destruct (Hd d Hin) as (EK & EB & _ & _ & HE).
  unfold exp_weight_ss0. apply Rsum_nonneg. intros b Hb'. apply Rsum_nonneg. intros r Hr. apply HE; [lia|auto|nia].
Qed.
Lemma stat_Ns i : (i < mh_K h)%nat -> 0 <= pool (fun d => IZR (pa_Ns d i)) data.
Proof.
  intros Hi. apply pool_nonneg_mf. intros d Hin. destruct (Hd d Hin) as (EK & _ & _ & Hfit & _).
  apply IZR_le. rewrite pa_Ns_sum. apply Zsum_nonneg. intros t Ht. apply Hfit; lia.
Qed.
Lemma stat_ir i j b : (i < mh_K h)%nat -> (j < mh_K h)%nat -> (b < mh_B h)%nat -> 0 <= pool (fun d => exp_ir_ss d i j b) data.
Proof.
  intros Hi Hj Hb. apply pool_nonneg_mf. intros d Hin. destruct (Hd d Hin) as (EK & EB & _ & _ & HE).
  apply Rsum_nonneg. intros r Hr. apply HE; [lia|auto|nia].
Qed.
Lemma total_T_nonneg : 0 <= total_T data.
Proof. apply pool_nonneg_mf. intros. apply pos_INR. Qed.

Lemma bias_step_max bold b' : (forall d, In d data -> pa_dt d = 1) ->
  bias_mf (mh_alpha h) (mh_beta h) data bold = Ok b' ->
  forall b, (forall k, (k < mh_K h)%nat -> 0 < mb_alpha b k /\ 0 < mb_beta b k) ->
  lin_bias psi data (mh_K h) b + bias_vlb lgam psi (mh_K h) (mh_alpha h) (mh_beta h) b
  <= lin_bias psi data (mh_K h) b' + bias_vlb lgam psi (mh_K h) (mh_alpha h) (mh_beta h) b'.
Proof.
  intros Hdt E b Hb. destruct Hh as (Ha & Hbe & _).
  assert (F : forall k, mb_alpha b' k = mh_alpha h + pool (fun d => exp_bkgd_ss0 d k) data /\ mb_beta b' k = mh_beta h + total_T data).
  { destruct (@C36_components lgam psi (mh_alpha h) (mh_beta h) (mh_gamma h) 0 0 {| ne_kappa := 0; ne_lnp := fun _ _ => NaN; ne_lnnotp := fun _ _ => NaN; ne_v := fun _ _ => 0; ne_lnv := fun _ _ => 0; ne_allow := false |} data bold (fun _ _ _ => 0)
        {| w_p := fun _ _ => NaN; w_kappa0 := fun _ _ => 0; w_v0 := fun _ _ => 0; w_kappa1 := fun _ _ => 0; w_v1 := fun _ _ => 0 |})
      as (_ & _ & _ & _ & C). destruct (C Hne) as ((b2 & E2 & F) & _). rewrite E in E2. injection E2 as <-. intros k. destruct (F k) as [F1 F2].
    split; [exact F1|]. rewrite F2. unfold total_T. f_equal. apply pool_ext. intros d Hin. rewrite (Hdt d Hin). ring. }
  pose proof total_T_nonneg as HT.
  unfold lin_bias. rewrite !bias_block; [| |intros k Hk; now apply Hb].
  - apply Rplus_le_compat_r. apply Rsum_le. intros k Hk. destruct (F k) as [-> ->]. destruct (Hb k Hk). pose proof (stat_bias Hk).
    apply (gJ_max GF); auto; lra.
  - intros k Hk. destruct (F k) as [_ ->]. lra.
Qed.

Lemma ir_step_max mgold mg : (0 < mh_B h)%nat ->
  (forall k1 k2 b, (k1 < mh_K h)%nat -> (k2 < mh_K h)%nat -> (b < mh_B h)%nat -> 0 < mg k1 k2 b) ->
  lin_ir psi data (mh_K h) (mh_B h) mg + ir_vlb lgam psi (mh_K h) (mh_B h) (mh_gamma h) mg
  <= lin_ir psi data (mh_K h) (mh_B h) (ir_mf (mh_gamma h) data mgold) + ir_vlb lgam psi (mh_K h) (mh_B h) (mh_gamma h) (ir_mf (mh_gamma h) data mgold).
Proof.
  intros HB Hm. destruct Hh as (_ & _ & Hg & _). unfold lin_ir. rewrite !ir_block. apply Rplus_le_compat_r.
  apply Rsum_le; intros k1 H1. apply Rsum_le; intros k2 H2.
  replace (ir_mf (mh_gamma h) data mgold k1 k2) with (fun b => mh_gamma h b + pool (fun d => exp_ir_ss d k1 k2 b) data)
    by (apply functional_extensionality; intros b; unfold ir_mf, mf_update_gamma; now rewrite mix_step_1, div1).
  apply (dJ_max GF); [exact HB|]. intros b Hb. split; [|auto]. specialize (Hg b Hb). pose proof (stat_ir H1 H2 Hb). lra.
Qed.

Lemma w_step_max n wold w' : net_finite (mh_K h) n -> w_ok (mh_K h) wold -> 0 < ne_kappa n ->
  (forall i j, (i < mh_K h)%nat -> (j < mh_K h)%nat -> 0 < ne_v n i j) ->
  weights_mf lgam (mh_kappa0 h) (mh_nu0 h) n data wold = Ok w' ->
  forall w, w_ok (mh_K h) w ->
  lin_w psi data (mh_K h) w + wv_R lgam psi (mh_K h) (mh_kappa0 h) (mh_nu0 h) n w
  <= lin_w psi data (mh_K h) w' + wv_R lgam psi (mh_K h) (mh_kappa0 h) (mh_nu0 h) n w'.
Proof.
  intros Hn Hwo Hk Hv E w Hw. destruct Hh as (_ & _ & _ & Hk0 & Hn0).
  unfold lin_w, wv_R. rewrite <- !Rsum2_plus. apply Rsum_le; intros i Hi. apply Rsum_le; intros j Hj.
  set (s0 := pool (fun d => exp_weight_ss0 d i j) data). set (s1 := pool (fun d => IZR (pa_Ns d i)) data).
  assert (S0 : 0 <= s0) by (apply stat_w; auto). assert (S1 : 0 <= s1) by (apply stat_Ns; auto).
  destruct (Hw i j Hi Hj) as (W1 & W2 & W3 & W4 & p & Ep & Hp). destruct p_lo_bounds as (PL1 & PL2 & PL3).
  specialize (Hv i j Hi Hj). destruct (Hn i j Hi Hj) as [F1 F2].
  (* the updated parameters *)
  assert (U : w_kappa0 w' i j = mh_kappa0 h + s0 /\ w_kappa1 w' i j = ne_kappa n + s0 /\ w_v0 w' i j = mh_nu0 h + s1 /\ w_v1 w' i j = ne_v n i j + s1).
  { destruct (@C36_components lgam psi 0 0 (mh_gamma h) (mh_kappa0 h) (mh_nu0 h) n data {| mb_alpha := fun _ => 0; mb_beta := fun _ => 0 |} (fun _ _ _ => 0) wold)
      as (_ & _ & _ & _ & C). destruct (C Hne) as (_ & _ & w2 & E2 & F). rewrite E in E2. injection E2 as <-. destruct (F i j) as (G1 & G2 & G3 & G4). auto. }
  destruct U as (U1 & U2 & U3 & U4).
  set (a' := fval (ne_lnp n i j) + ne_kappa n * ne_lnv n i j - lgam (ne_kappa n) + gJ lgam psi (ne_kappa n + s0) (ne_v n i j + s1) (ne_kappa n + s0) (ne_v n i j + s1)).
  set (b' := fval (ne_lnnotp n i j) + mh_kappa0 h * ln (mh_nu0 h) - lgam (mh_kappa0 h) + gJ lgam psi (mh_kappa0 h + s0) (mh_nu0 h + s1) (mh_kappa0 h + s0) (mh_nu0 h + s1)).
  assert (UP : w_A w' i j = Rmin (Rmax (1 / (1 + exp (- (a' - b')))) p_lo) p_hi).
  { unfold weights_mf in E. apply bindr_ok in E as (w1 & E1 & E). injection E as <-.
    destruct (Hwo i j Hi Hj) as (_ & _ & _ & _ & p0 & Ep0 & Hp0).
    assert (Q : w_p w1 i j = Fin p0 /\ w_kappa0 w1 i j = mh_kappa0 h + s0 /\ w_kappa1 w1 i j = ne_kappa n + s0 /\ w_v0 w1 i j = mh_nu0 h + s1 /\ w_v1 w1 i j = ne_v n i j + s1).
    { assert (X : w_p w1 = w_p wold).
      { unfold meanfieldupdate_kappa_v in E1. clear - E1. destruct data; [discriminate|]. now injection E1 as <-. }
      split; [now rewrite X|]. repeat split; assumption. }
    destruct Q as (Q0 & Q1 & Q2 & Q3 & Q4).
    unfold w_A. rewrite (@p_update_value lgam (mh_kappa0 h) (mh_nu0 h) n 1 w1 i j p0 (a' - b') Q0).
    - cbn [fval]. replace ((1 - 1) * ln (p0 / (1 - p0)) + 1 * (a' - b')) with (a' - b') by ring. unfold Rdiv, p_lo, p_hi. now rewrite Rmult_1_l.
    - lra.
    - unfold logit_p. rewrite F1, F2, Q1, Q2, Q3, Q4. cbn [esub eopp eadd]. f_equal. unfold a', b'. rewrite !gJ_at by lra. ring. }
  rewrite !EW1, !EW0, !ElnW1, !ElnW0. rewrite !edge_block by (rewrite ?U3, ?U4; lra).
  rewrite U1, U2, U3, U4. fold a' b'. rewrite UP.
  assert (HA : w_A w i j = p) by (unfold w_A; now rewrite Ep).
  eapply Rle_trans; [|apply bJ_max with (p := p); lra]. rewrite HA. apply bJ_mono; [lra| |].
  - unfold a'. apply Rplus_le_compat_l. apply (gJ_max GF); auto; lra.
  - unfold b'. apply Rplus_le_compat_l. apply (gJ_max GF); auto; lra.
Qed.
End D.

(* ---------------- network ---------------- *)
(** Everything in the bound that depends on the network. *)
Definition net_obj (h : mfhyp) (w : mfw) (no : mfnet) : R :=
  wv_R lgam psi (mh_K h) (mh_kappa0 h) (mh_nu0 h) (view psi no) w + net_value lgam psi no.
Lemma net_obj_er h w n a b ma mb : e_alpha n = Some a -> e_beta n = Some b -> e_mf n = Some (ma, mb) -> 0 < mb -> e_allow n = true -> 0 < e_p n < 1 ->
  net_obj h w (MfEr n)
  = gJ lgam psi (a + Rsum (mh_K h) (fun i => Rsum (mh_K h) (fun j => w_A w i j * e_kappa n)))
       (b + Rsum (mh_K h) (fun i => Rsum (mh_K h) (fun j => w_A w i j * expected_W_given_A w 1 i j))) ma mb
    + (a * ln b - lgam a)
    + Rsum (mh_K h) (fun i => Rsum (mh_K h) (fun j => w_A w i j * ln (e_p n) + (1 - w_A w i j) * ln (1 - e_p n)))
    + wv_rest lgam psi (mh_K h) (mh_kappa0 h) (mh_nu0 h) (e_kappa n) w.
Proof.
  intros Ea Eb Em Hmb Ha Hp. unfold net_obj. rewrite wv_R_split. unfold net_value, view.
  cbn [mfnet_view mfnet_vlb]. unfold er_expected_v, er_expected_log_v, er_get_vlb. rewrite Ea, Eb, Em. cbn [bindr ne_lnp ne_lnnotp ne_kappa ne_v ne_lnv].
  rewrite <- er_block by exact Hmb.
  unfold er_P. rewrite Ha. cbn [negb].
  rewrite (@Rsum2_ext (mh_K h) (fun i j => w_A w i j * fval (elog (Fin (e_p n * 1))) + (1 - w_A w i j) * fval (elog (Fin (1 - e_p n * 1))))
     (fun i j => w_A w i j * ln (e_p n) + (1 - w_A w i j) * ln (1 - e_p n))).
  2:{ intros. rewrite !elog_fin by lra. cbn [fval]. now rewrite Rmult_1_r. }
  ring.
Qed.
Lemma net_obj_sbm h w s f : sb_K s = mh_K h -> sb_allow s = true -> sb_fixed s = false ->
  net_obj h w (MfSbm false s f) = sbm_obj lgam psi s f (wstats_of psi w) + wv_rest lgam psi (mh_K h) (mh_kappa0 h) (mh_nu0 h) (sb_kappa s) w.
Proof.
  intros EK Ha Hf. unfold net_obj. rewrite wv_R_split. unfold net_value, view, sbm_obj.
  cbn [mfnet_view mfnet_vlb ne_lnp ne_lnnotp ne_kappa ne_v ne_lnv wstats_of ws_A ws_W]. rewrite EK.
  unfold sbm_expected_log_p, sbm_expected_log_notp, sbm_expected_v, sbm_expected_log_v. rewrite Ha, Hf. cbn [negb fval]. ring.
Qed.

(** One block: the labels cannot move. *)
Lemma mf_update_c_one s f w : sb_C s = 1%nat ->
  let f' := mf_update_c lgam psi s f w 1 in
  mf_pi f' = mf_pi f /\ mf_tau0 f' = mf_tau0 f /\ mf_tau1 f' = mf_tau1 f /\ mf_alpha f' = mf_alpha f /\ mf_beta f' = mf_beta f /\
  forall k, (k < sb_K s)%nat -> mf_m f k 0%nat = 1 -> mf_m f' k 0%nat = 1.
Proof.
  intros HC. unfold mf_update_c. generalize (seq 0 (sb_K s)). intros l. revert f. induction l as [|i l IH]; intros f; [cbn; auto 10|].
  cbn [fold_left]. destruct (IH (mf_c_row lgam psi s w 1 f i)) as (I1 & I2 & I3 & I4 & I5 & I6).
  rewrite I1, I2, I3, I4, I5. repeat (split; [reflexivity|]). intros k Hk Hm. apply I6; [exact Hk|].
  unfold mf_c_row. cbn [with_m mf_m]. unfold set_row. destruct (k =? i)%nat; [|exact Hm]. rewrite mix_step_1, HC.
  set (x := mf_c_lp lgam psi s f w i). unfold logsumexp, vmax. cbn [seq fold_left Rsum].
  rewrite Rmax_left by lra. replace (x 0%nat - x 0%nat) with 0 by ring. rewrite exp_0, Rplus_0_l, ln_1.
  replace (x 0%nat - (0 + x 0%nat)) with 0 by ring. apply exp_0.
Qed.
Lemma sbm_obj_m_ext s f m1 w : (forall k c, (k < sb_K s)%nat -> (c < sb_C s)%nat -> m1 k c = mf_m f k c) ->
  sbm_obj lgam psi s (with_m f m1) w = sbm_obj lgam psi s f w.
Proof.
  intros H. unfold sbm_obj. cbn [with_m mf_m mf_tau0 mf_tau1 mf_alpha mf_beta].
  assert (B : forall T i j, (i < sb_K s)%nat -> (j < sb_K s)%nat -> block_mean (sb_C s) m1 T i j = block_mean (sb_C s) (mf_m f) T i j).
  { intros T i j Hi Hj. unfold block_mean. apply Rsum2_ext. intros a b Ha Hb. now rewrite !H. }
  f_equal; [f_equal|].
  - apply Rsum2_ext. intros i j Hi Hj. now rewrite !B.
  - apply Rsum2_ext. intros i j Hi Hj. now rewrite !B.
  - unfold sbm_vlb. cbn [with_m mf_m mf_tau0 mf_tau1 mf_alpha mf_beta mf_pi]. f_equal. f_equal. f_equal. apply Rsum_ext. intros k Hk.
    unfold discrete_negentropy. f_equal; f_equal; apply esum_ext; intros c Hc; rewrite ?H by auto; reflexivity.
Qed.
Lemma mf_valid_p s f w : prior_pos s -> mf_valid s f -> stats_ok (sb_K s) w -> mf_valid s (mf_update_p s f w 1).
Proof.
  intros HP HV HW. pose proof HV as (H1 & H2 & H3). split; [exact H1|]. split; [exact H2|]. intros a b Ha Hb. cbn. rewrite !mix_step_1.
  destruct (@hats_pos s f w HP HV HW a b Ha Hb) as (? & ? & _). destruct (H3 a b Ha Hb). intuition.
Qed.
Lemma mf_valid_v s f w : prior_pos s -> mf_valid s f -> stats_ok (sb_K s) w -> mf_valid s (mf_update_v s f w 1).
Proof.
  intros HP HV HW. pose proof HV as (H1 & H2 & H3). split; [exact H1|]. split; [exact H2|]. intros a b Ha Hb. cbn. rewrite !mix_step_1.
  destruct (@hats_pos s f w HP HV HW a b Ha Hb) as (_ & _ & ? & ?). destruct (H3 a b Ha Hb) as (? & ? & _). intuition.
Qed.
Lemma eta_sbm f : {| mf_pi := mf_pi f; mf_m := mf_m f; mf_tau0 := mf_tau0 f; mf_tau1 := mf_tau1 f; mf_alpha := mf_alpha f; mf_beta := mf_beta f |} = f.
Proof. now destruct f. Qed.
Lemma sbm_step_ascent s f w : prior_pos s -> mf_valid s f -> stats_ok (sb_K s) w -> sb_C s = 1%nat ->
  sbm_obj lgam psi s f w <= sbm_obj lgam psi s (sbm_mf_batch lgam psi s all_flags w f) w.
Proof.
  intros HP HV HW HC. unfold sbm_mf_batch, all_flags, when. cbn [up_p up_v up_m up_c].
  set (f1 := mf_update_p s f w 1). set (f2 := mf_update_v s f1 w 1). set (f3 := mf_update_m s f2 1).
  assert (HV1 : mf_valid s f1) by (apply mf_valid_p; auto). assert (HV2 : mf_valid s f2) by (apply mf_valid_v; auto).
  assert (S1 : sbm_obj lgam psi s f w <= sbm_obj lgam psi s f1 w).
  { pose proof (@sbm_p_max lgam psi GF s f w HP HV HW (mf_tau0 f) (mf_tau1 f)) as M. rewrite eta_sbm in M. apply M. intros; split; now apply HV. }
  assert (S2 : sbm_obj lgam psi s f1 w <= sbm_obj lgam psi s f2 w).
  { pose proof (@sbm_v_max lgam psi GF s f1 w HP HV1 HW (mf_alpha f1) (mf_beta f1)) as M. rewrite eta_sbm in M. apply M. intros; split; now apply HV1. }
  assert (S3 : sbm_obj lgam psi s f2 w <= sbm_obj lgam psi s f3 w).
  { pose proof (@sbm_m_max lgam psi GF s f2 w HP HV2 (mf_pi f2)) as M. rewrite eta_sbm in M. apply M. intros; now apply HV2. }
  assert (S4 : sbm_obj lgam psi s (mf_update_c lgam psi s f3 w 1) w = sbm_obj lgam psi s f3 w).
  { destruct (@mf_update_c_one s f3 w HC) as (I1 & I2 & I3 & I4 & I5 & I6). cbv zeta in *.
    set (f4 := mf_update_c lgam psi s f3 w 1) in *. rewrite <- (@sbm_obj_m_ext s f3 (mf_m f4) w).
    - f_equal. unfold with_m. rewrite <- I1, <- I2, <- I3, <- I4, <- I5. symmetry. apply eta_sbm.
    - intros k c Hk Hc. replace c with 0%nat by lia. assert (E1 : mf_m f3 k 0%nat = 1).
      { destruct HV as (HV0 & _). destruct (HV0 k Hk) as [_ Hs]. rewrite HC in Hs. cbn in Hs. cbn. lra. }
      rewrite E1. now apply I6. }
  rewrite S4. lra.
Qed.

(** Networks whose own update is a coordinate ascent. *)
Definition net_ascends (no : mfnet) : Prop := net_good no /\ match no with MfSbm _ s _ => sb_C s = 1%nat | MfEr _ => True end.
Lemma net_step_ascent h w no no' : mfnet_ok (mh_K h) no -> net_ascends no -> w_ok (mh_K h) w ->
  mfnet_batch lgam psi (wstats_of psi w) no = Ok no' ->
  net_obj h w no <= net_obj h w no' /\ net_ascends no'.
Proof.
  intros Hno [Hg HC] Hw E.
  assert (Hst : stats_ok (mh_K h) (wstats_of psi w)).
  { intros i j Hi Hj. destruct (Hw i j Hi Hj) as (W1 & W2 & W3 & W4 & p & Ep & Hp). destruct p_lo_bounds as (? & ? & ?).
    cbn [wstats_of ws_A ws_W]. rewrite EW1. unfold w_A. rewrite Ep. cbn [fval]. split; [lra|].
    assert (0 < w_kappa1 w i j / w_v1 w i j) by (apply Rdiv_lt_0_compat; auto). lra. }
  destruct no as [fp s f|n]; cbn [net_good mfnet_ok] in *.
  - destruct Hg as (-> & Ha & Hf). destruct Hno as (EK & HP & HV & HS). cbn [mfnet_batch] in E. injection E as <-.
    rewrite !net_obj_sbm by auto. split; [|repeat split; auto]. apply Rplus_le_compat_r. apply sbm_step_ascent; auto. now rewrite EK.
  - destruct Hg as (Ha & Hp). destruct Hno as (EK & _ & Hk & a & b & ma & mb & Ea & Eb & Em & Hpa & Hpb & Hma & Hmb).
    cbn [mfnet_batch] in E. unfold er_meanfieldupdate in E. rewrite Ea, Eb, Em in E. cbn [bindr] in E. injection E as <-.
    rewrite !mix_step_1, EK.
    match goal with |- context [er_with_mf n (?x, ?y)] => set (ah := x); set (bh := y) end.
    assert (Hah : 0 < ah).
    { assert (0 <= Rsum (mh_K h) (fun i => Rsum (mh_K h) (fun j => w_A w i j * e_kappa n))); [|unfold ah; lra].
      apply Rsum2_nonneg. intros i j Hi Hj. destruct (Hst i j Hi Hj) as [? ?]; cbn [wstats_of ws_A ws_W] in *. apply Rmult_le_pos; lra. }
    assert (Hbh : 0 < bh).
    { assert (0 <= Rsum (mh_K h) (fun i => Rsum (mh_K h) (fun j => w_A w i j * expected_W_given_A w 1 i j))); [|unfold bh; lra].
      apply Rsum2_nonneg. intros i j Hi Hj. destruct (Hst i j Hi Hj) as [? ?]; cbn [wstats_of ws_A ws_W] in *. apply Rmult_le_pos; lra. }
    split; [|split; [split; [exact Ha|exact Hp]|exact I]].
    rewrite (@net_obj_er h w n a b ma mb) by auto.
    rewrite (@net_obj_er h w (er_with_mf n (ah, bh)) a b ah bh) by (auto; cbn; auto).
    cbn [er_with_mf e_kappa e_p]. do 3 apply Rplus_le_compat_r. apply (gJ_max GF); auto.
Qed.
End U.
