(** * L_Vlb7: the update of the parents, and the whole coordinate-ascent step. *)
From Coq Require Import FunctionalExtensionality.
From Verif Require Import Prelude ExtReal Arrays Spec_Vlb M_Basis M_Parents M_Discrete M_Gibbs M_Dist M_Network M_MeanField M_Vlb
  L_Basis L_Discrete L_Parents L_Gibbs L_Network L_Vlb L_Vlb2 L_Vlb3 L_Vlb4 L_Vlb5 L_Vlb6 Props_Discrete Props_Parents Props_Gibbs Props_Network Props_MeanField.
Set Implicit Arguments.
Open Scope R_scope.

Lemma eps32_pos : 0 < eps32.
Proof. unfold eps32. apply Rinv_0_lt_compat, pow_lt. lra. Qed.
Lemma ntn_log_pos x : 0 < x -> ntn_log x = ln x.
Proof. intros H. unfold ntn_log. now rewrite elog_fin. Qed.
Lemma ln_shift x : 0 < x -> 0 <= ln (x + eps32) - ln x <= eps32 / x.
Proof.
  intros H. pose proof eps32_pos. split.
  - assert (ln x <= ln (x + eps32)) by (apply ln_le_mono; lra). lra.
  - rewrite <- ln_div by lra. assert (Hr : 0 < (x + eps32) / x) by (apply Rdiv_lt_0_compat; lra).
    pose proof (ln_le_sub1 Hr). replace ((x + eps32) / x - 1) with (eps32 / x) in H1 by (field; lra). lra.
Qed.
Lemma guard_u z S : 0 <= z -> 0 < S -> 0 <= z * ln (z / S + eps32) - z * ntn_log (z / S) <= eps32 * S.
Proof.
  intros Hz HS. pose proof eps32_pos. destruct Hz as [Hz|<-].
  - assert (Hu : 0 < z / S) by (apply Rdiv_lt_0_compat; auto). rewrite ntn_log_pos by auto. destruct (ln_shift Hu) as [L1 L2].
    replace (z * ln (z / S + eps32) - z * ln (z / S)) with (z * (ln (z / S + eps32) - ln (z / S))) by ring.
    split; [apply Rmult_le_pos; lra|]. apply Rle_trans with (z * (eps32 / (z / S))); [apply Rmult_le_compat_l; lra|]. right. field. lra.
  - rewrite !Rmult_0_l. split; [lra|]. rewrite Rminus_0_r. apply Rmult_le_pos; lra.
Qed.
Lemma guard_F z F : 0 <= z -> 0 <= F -> (F = 0 -> z = 0) -> 0 <= z * ln (F + eps32) - z * ntn_log F <= eps32 * (z / F).
Proof.
  intros Hz HF H0. pose proof eps32_pos. destruct HF as [HF|<-].
  - rewrite ntn_log_pos by auto. destruct (ln_shift HF) as [L1 L2].
    replace (z * ln (F + eps32) - z * ln F) with (z * (ln (F + eps32) - ln F)) by ring.
    split; [apply Rmult_le_pos; lra|]. apply Rle_trans with (z * (eps32 / F)); [apply Rmult_le_compat_l; lra|]. right. field. lra.
  - rewrite (H0 eq_refl). unfold Rdiv. rewrite !Rmult_0_l, Rmult_0_r. lra.
Qed.

(** Compiled against python bound of one data set. *)
Definition slack_F (p : parents) : R :=
  Rsum (pa_K p) (fun k => Rsum (pa_Tk p k) (fun r => Rsum (pa_K p) (fun k1 => Rsum (pa_B p) (fun b =>
     pa_EZ p k r (1 + (k1 * pa_B p + b))%nat / pa_F p (pa_row p k r) k1 b)))).
Definition slack_S (p : parents) : R :=
  INR (1 + pa_K p * pa_B p) * Rsum (pa_K p) (fun k => Rsum (pa_Tk p k) (fun r => IZR (pa_S p (pa_row p k r) k))).
Lemma cent_ent_k p k : fits p -> nonneg_F p -> counts_ok p -> (k < pa_K p)%nat ->
  ent_k p k - eps32 * (INR (1 + pa_K p * pa_B p) * Rsum (pa_Tk p k) (fun r => IZR (pa_S p (pa_row p k r) k))) <= cent_k p k
  <= ent_k p k + eps32 * Rsum (pa_Tk p k) (fun r => Rsum (pa_K p) (fun k1 => Rsum (pa_B p) (fun b =>
     pa_EZ p k r (1 + (k1 * pa_B p + b))%nat / pa_F p (pa_row p k r) k1 b))).
Proof.
  intros Hf HF (Hz & _ & H0) Hk. unfold cent_k, ent_k.
  rewrite <- !Rsum_plus.
  assert (G : forall r, (r < pa_Tk p k)%nat ->
    let e := - pa_EZ p k r 0%nat * ntn_log (pa_EZ p k r 0%nat / IZR (pa_Ss p k r))
      + Rsum (pa_K p * pa_B p) (fun i => pa_EZ p k r (S i) * ntn_log (pa_Fs p k r (i / pa_B p)%nat (i mod pa_B p)%nat))
      + Rsum (pa_K p * pa_B p) (fun i => - pa_EZ p k r (S i) * ntn_log (pa_EZ p k r (S i) / IZR (pa_Ss p k r))) in
    let c := - pa_EZ p k r 0%nat * ln (pa_EZ p k r 0%nat / IZR (pa_Ss p k r) + eps32)
      + Rsum (pa_K p) (fun k1 => Rsum (pa_B p) (fun b =>
        pa_EZ p k r (1 + (k1 * pa_B p + b))%nat * ln (pa_Fs p k r k1 b + eps32)
        + - pa_EZ p k r (1 + (k1 * pa_B p + b))%nat * ln (pa_EZ p k r (1 + (k1 * pa_B p + b))%nat / IZR (pa_Ss p k r) + eps32))) in
    e - eps32 * (INR (1 + pa_K p * pa_B p) * IZR (pa_S p (pa_row p k r) k)) <= c
    <= e + eps32 * Rsum (pa_K p) (fun k1 => Rsum (pa_B p) (fun b => pa_EZ p k r (1 + (k1 * pa_B p + b))%nat / pa_F p (pa_row p k r) k1 b))).
  { intros r Hr e c. destruct (@fits_Ss p k r Hf Hk Hr) as [Es Hs]. assert (Hs' : 0 < IZR (pa_Ss p k r)) by now apply IZR_lt.
    set (s := IZR (pa_Ss p k r)) in *. rewrite <- Es. fold s.
    destruct (@pa_row_in p k r Hr) as [Ht _].
    destruct (@guard_u (pa_EZ p k r 0%nat) s (Hz k r 0%nat Hk Hr ltac:(lia)) Hs') as [A1 A2].
    assert (Ee : e = - pa_EZ p k r 0%nat * ntn_log (pa_EZ p k r 0%nat / s)
       + Rsum (pa_K p) (fun k1 => Rsum (pa_B p) (fun b =>
          pa_EZ p k r (1 + (k1 * pa_B p + b))%nat * ntn_log (pa_Fs p k r k1 b)
          + - pa_EZ p k r (1 + (k1 * pa_B p + b))%nat * ntn_log (pa_EZ p k r (1 + (k1 * pa_B p + b))%nat / s)))).
    { unfold e. rewrite !Rsum_mul, Rplus_assoc. f_equal. rewrite <- Rsum_plus.
      apply Rsum_ext; intros k1 H1. rewrite <- Rsum_plus. apply Rsum_ext; intros b Hb. cbn [Nat.add]. now rewrite div_idx, mod_idx by auto. }
    assert (T : forall k1 b, (k1 < pa_K p)%nat -> (b < pa_B p)%nat ->
       let z := pa_EZ p k r (1 + (k1 * pa_B p + b))%nat in
       (z * ntn_log (pa_Fs p k r k1 b) + - z * ntn_log (z / s)) + - (eps32 * s)
        <= z * ln (pa_Fs p k r k1 b + eps32) + - z * ln (z / s + eps32)
        <= (z * ntn_log (pa_Fs p k r k1 b) + - z * ntn_log (z / s)) + eps32 * (z / pa_F p (pa_row p k r) k1 b)).
    { intros k1 b H1 Hb z. assert (Hzz : 0 <= z) by (apply Hz; auto; nia).
      destruct (@guard_u z s Hzz Hs') as [B1 B2].
      destruct (@guard_F z (pa_Fs p k r k1 b) Hzz (HF _ _ _ Ht H1 Hb) (fun E => H0 k r k1 b Hk Hr H1 Hb E)) as [C1 C2].
      unfold pa_Fs in *. split; lra. }
    rewrite Ee. unfold c. clear Ee e c. split.
    - replace (INR (1 + pa_K p * pa_B p)) with (1 + INR (pa_K p) * INR (pa_B p)) by (rewrite plus_INR, mult_INR; reflexivity).
      replace (eps32 * ((1 + INR (pa_K p) * INR (pa_B p)) * s)) with (eps32 * s + Rsum (pa_K p) (fun _ => Rsum (pa_B p) (fun _ => eps32 * s))).
      2:{ rewrite (@Rsum_ext (pa_K p) _ (fun _ => INR (pa_B p) * (eps32 * s))) by (intros; apply Rsum_const). rewrite Rsum_const. ring. }
      match goal with |- ?a + ?X - (?u + ?Y) <= ?b + ?Z => assert (Q : X + - Y <= Z) end.
      { rewrite <- Rsum_opp, <- Rsum_plus. apply Rsum_le; intros k1 H1. rewrite <- Rsum_opp, <- Rsum_plus. apply Rsum_le; intros b Hb. apply T; auto. }
      lra.
    - rewrite <- Rsum_scal.
      match goal with |- ?a + ?X <= ?b + ?Y + ?Z => assert (Q : X <= Y + Z) end.
      { rewrite <- Rsum_plus. apply Rsum_le; intros k1 H1. rewrite <- Rsum_scal, <- Rsum_plus. apply Rsum_le; intros b Hb. apply T; auto. }
      lra. }
  cbv zeta in G. split.
  - rewrite <- !Rsum_scal. unfold Rminus. rewrite <- Rsum_opp, <- Rsum_plus. apply Rsum_le. intros r Hr. apply G, Hr.
  - rewrite <- Rsum_scal, <- Rsum_plus. apply Rsum_le. intros r Hr. apply G, Hr.
Qed.
Lemma cent_ent p : fits p -> nonneg_F p -> counts_ok p -> ent p - eps32 * slack_S p <= cent p <= ent p + eps32 * slack_F p.
Proof.
  intros Hf HF Hc. unfold cent, ent, slack_S, slack_F. split.
  - rewrite <- !Rsum_scal. unfold Rminus. rewrite <- Rsum_opp, <- Rsum_plus. apply Rsum_le. intros k Hk. apply (cent_ent_k Hf HF Hc Hk).
  - rewrite <- Rsum_scal, <- Rsum_plus. apply Rsum_le. intros k Hk. apply (cent_ent_k Hf HF Hc Hk).
Qed.
Lemma vlb_cy_py p x : fits p -> nonneg_F p -> counts_ok p ->
  vlb_python p x - eps32 * slack_S p <= cy_vlb p x <= vlb_python p x + eps32 * slack_F p.
Proof.
  intros Hf HF Hc. assert (E : cy_vlb p x - vlb_python p x = cent p - ent p).
  { unfold cy_vlb, vlb_python, cent, ent. rewrite <- !Rsum_minus. apply Rsum_ext; intros k Hk. rewrite cy_vlb_k_split, vlb_python_k_split by auto. ring. }
  destruct (cent_ent Hf HF Hc). lra.
Qed.

(** What the update of the parents establishes. *)
Lemma update_counts_ok p e p' : pa_nonneg p (e_lam e) (e_W e) (e_g e) -> fits p -> mf_update_python p e = Ok p' ->
  p' = set_EZ p (pa_EZ p') /\ counts_ok p'.
Proof.
  intros Hn Hf E. pose proof (@mf_updated_facts p e p' Hn Hf E) as [Ep Hpos].
  split; [exact Ep|]. rewrite Ep. unfold mf_update_python in E. destruct (all_rows p _) in E; [|discriminate]. cbn [negb] in E. injection E as E.
  split; [exact Hpos|]. split.
  - intros k r Hk Hr. cbn [set_EZ pa_K pa_B pa_EZ pa_S]. change (pa_row (set_EZ p (pa_EZ p')) k r) with (pa_row p k r).
    destruct (@fits_Ss p k r Hf Hk Hr) as [Es Hs]. pose proof (@mf_norm_pos p e k r Hn Hk Hr) as HN.
    rewrite <- E. cbn [set_EZ pa_EZ]. rewrite Rsum_app. cbn [Rsum Nat.add]. rewrite Rsum_scal_r, Rsum_div, <- Es. unfold mf_norm in *.
    change (fun i : nat => pkb p e k r i) with (pkb p e k r) in *. field. lra.
  - intros k r k1 b Hk Hr H1 Hb HF. cbn [set_EZ pa_K pa_B pa_EZ pa_S pa_F] in *. change (pa_row (set_EZ p (pa_EZ p')) k r) with (pa_row p k r) in HF.
    rewrite <- E. cbn [set_EZ pa_EZ Nat.add]. unfold pkb, pa_Fs. rewrite div_idx, mod_idx by auto. rewrite HF. unfold Rdiv. ring.
Qed.

Lemma mf_in_exp_of psi m : mfnet_allow (mm_net m) = true -> mf_in_of psi m = exp_of (x_of psi m).
Proof. intros Ha. unfold mf_in_of, exp_of, x_of. cbn [x_ln_lam x_ln_W x_ln_g]. rewrite Ha. reflexivity. Qed.

(** Data sets on which the step is an ascent: unit bins, expected counts of the kind every update leaves behind. *)
Definition data_asc (d : parents) : Prop := pa_dt d = 1 /\ counts_ok d.
Lemma set_EZ_id p : set_EZ p (pa_EZ p) = p. Proof. now destruct p. Qed.
Lemma parents_ascent (x : mf_exp) data data' :
  (forall d, In d data -> nonneg_F d /\ fits d /\ counts_ok d) -> mf_parents (exp_of x) data = Ok data' ->
  total_py x data <= total_py x data' /\
  lsum (map slack_S data') = lsum (map slack_S data) /\
  (forall d', In d' data' -> counts_ok d' /\ exists d, In d data /\ d' = set_EZ d (pa_EZ d')).
Proof.
  revert data'. induction data as [|d data IH]; intros data' H E; cbn [mf_parents] in E.
  - injection E as <-. cbn. split; [lra|]. split; [reflexivity|]. intros d' [].
  - apply bindr_ok in E as (d1 & E1 & E). apply bindr_ok in E as (data1 & E2 & E). injection E as <-.
    destruct (H d (or_introl eq_refl)) as (HF & Hf & Hc). destruct (IH data1 (fun d Hi => H d (or_intror Hi)) E2) as (I1 & I2 & I3).
    assert (Hn : pa_nonneg d (e_lam (exp_of x)) (e_W (exp_of x)) (e_g (exp_of x))).
    { repeat split; cbn; intros; try (left; apply exp_pos); try apply exp_pos. now apply HF. }
    destruct (@update_counts_ok d (exp_of x) d1 Hn Hf E1) as [Ed Hc1].
    pose proof Hc as (C1 & C2 & C3). destruct (@C18_mean_field_optimal d x (pa_EZ d) Hf HF C1 C2 C3) as (d2 & E3 & HO).
    rewrite E1 in E3. injection E3 as <-. rewrite set_EZ_id in HO. unfold total_py in *. cbn [map lsum].
    split; [lra|]. split.
    + rewrite I2. f_equal. rewrite Ed. reflexivity.
    + intros d' [<-|Hin]; [split; [exact Hc1|]; exists d; split; [now left|exact Ed]|].
      destruct (I3 d' Hin) as (I4 & d0 & I5 & I6). split; [exact I4|]. exists d0. split; [now right|exact I6].
Qed.
Lemma total_cy_py x data : (forall d, In d data -> nonneg_F d /\ fits d /\ counts_ok d) ->
  total_py x data - eps32 * lsum (map slack_S data) <= total_cy x data <= total_py x data + eps32 * lsum (map slack_F data).
Proof.
  induction data as [|d data IH]; intros H; unfold total_py, total_cy; cbn [map lsum]; [lra|].
  destruct (H d (or_introl eq_refl)) as (HF & Hf & Hc). destruct (vlb_cy_py x Hf HF Hc). 
  destruct (IH (fun d Hi => H d (or_intror Hi))) as [I1 I2]. unfold total_py, total_cy in *. split; lra.
Qed.

Section S.
Variables lgam psi : R -> R.
Hypothesis GF : gamma_functions lgam psi.

Definition ascent_ok (m : mfmodel) : Prop :=
  mf_ok m /\ (0 < mh_B (mm_h m))%nat /\ net_ascends (mm_net m) /\ mm_data m <> [] /\ forall d, In d (mm_data m) -> data_asc d.
(** The bound with the python routine for the data sets. *)
Definition vlb_py (m : mfmodel) : R := vlb_R lgam psi m - total_cy (x_of psi m) (mm_data m) + total_py (x_of psi m) (mm_data m).

Lemma step_ascent m : ascent_ok m -> exists m', mf_batch_step lgam psi m = Ok m' /\ ascent_ok m' /\ vlb_py m <= vlb_py m' /\
  lsum (map slack_S (mm_data m')) = lsum (map slack_S (mm_data m)).
Proof.
  intros (Hm & HB & Hasc & Hne & Hd). pose proof Hasc as [Hgood _].
  destruct (@mf_step_ok lgam psi OpBatch m Hm Hne) as (m' & E & Hm' & Eh & El). cbn [mf_op_step] in E.
  exists m'. split; [exact E|]. unfold mf_batch_step in E. cbv zeta in E.
  assert (Ha : mfnet_allow (mm_net m) = true) by now apply net_good_allow.
  rewrite mf_in_exp_of in E by exact Ha.
  apply bindr_ok in E as (data' & Ep & E). apply bindr_ok in E as (b' & Eb & E). apply bindr_ok in E as (n & En & E).
  apply bindr_ok in E as (w' & Ew & E). apply bindr_ok in E as (no' & Eno & E).
  pose proof (ok_data Hm) as Hdat.
  assert (Hdd : forall d, In d (mm_data m) -> nonneg_F d /\ fits d /\ counts_ok d).
  { intros d Hin. destruct (Hdat d Hin) as (_ & _ & _ & _ & ? & ?). destruct (Hd d Hin). auto. }
  destruct (@parents_ascent (x_of psi m) _ _ Hdd Ep) as (P1 & P2 & P3).
  assert (Hupd : forall d', In d' data' -> upd_ok (mm_h m) d').
  { intros d' Hin. destruct (P3 d' Hin) as ((C1 & _) & d & Hin' & Ed). destruct (Hdat d Hin') as (EK & EB & HT & Hdt & HF & Hfit).
    split; [now rewrite Ed|]. split; [now rewrite Ed|]. split; [now rewrite Ed|]. split; [now rewrite Ed|exact C1]. }
  assert (Hdt1 : forall d', In d' data' -> pa_dt d' = 1).
  { intros d' Hin. destruct (P3 d' Hin) as (_ & d & Hin' & Ed). rewrite Ed. apply (Hd d Hin'). }
  assert (Hne' : data' <> []).
  { intros ->. injection E as <-. cbn in El. destruct (mm_data m); [now apply Hne|discriminate]. }
  destruct (@net_good_facts lgam psi _ _ (ok_net Hm) Hgood) as (En' & Hnf & _). rewrite En in En'. injection En' as ->.
  destruct (@mfnet_view_ok psi _ _ (ok_net Hm)) as (n2 & En2 & Hkap & _ & Hv). rewrite En in En2. injection En2 as <-.
  injection E as <-. cbn [mm_h mm_bias mm_gamma mm_w mm_net mm_data mm_off] in *.
  destruct (@net_step_ascent lgam psi GF (mm_h m) w' (mm_net m) no' (ok_net Hm) Hasc (ok_w Hm') Eno) as [N1 N2].
  split; [|split; [|exact P2]].
  - split; [exact Hm'|]. split; [exact HB|]. split; [exact N2|]. split; [exact Hne'|]. intros d' Hin. split; [now apply Hdt1|]. now apply P3.
  - set (m1 := {| mm_h := mm_h m; mm_bias := mm_bias m; mm_gamma := mm_gamma m; mm_w := mm_w m; mm_net := mm_net m; mm_data := data'; mm_off := mm_off m |}).
    set (m' := {| mm_h := mm_h m; mm_bias := b' |}).
    assert (S1 : vlb_py m <= vlb_py m1).
    { unfold vlb_py, vlb_R. cbv zeta. cbn [m1 mm_h mm_bias mm_gamma mm_w mm_net mm_data]. change (x_of psi m1) with (x_of psi m). lra. }
    assert (Hdim : forall d, In d data' -> pa_K d = mh_K (mm_h m) /\ pa_B d = mh_B (mm_h m)).
    { intros d Hin. destruct (Hupd d Hin) as (? & ? & _). auto. }
    assert (S2 : vlb_py m1 <= vlb_py m').
    { assert (Hcc : forall d, In d data' -> pa_K d = mh_K (mm_h m) /\ pa_B d = mh_B (mm_h m) /\ nonneg_F d /\ counts_ok d).
      { intros d Hin. destruct (Hdim d Hin) as [? ?]. destruct (P3 d Hin) as (C & d0 & Hin' & Ed). destruct (Hdat d0 Hin') as (_ & _ & _ & _ & HF & _).
        repeat split; auto; try apply C. rewrite Ed. exact HF. }
      assert (D : forall mm, mm_data mm = data' -> mm_h mm = mm_h m -> vlb_py mm = vlb_R lgam psi mm + (pool ent data' - pool cent data')).
      { intros mm E1 E2. unfold vlb_py. rewrite E1. rewrite (@total_cy_split (mh_K (mm_h m)) (mh_B (mm_h m))) by exact Hdim.
        rewrite (@total_py_split (mh_K (mm_h m)) (mh_B (mm_h m))) by exact Hcc. ring. }
      rewrite !D by reflexivity. apply Rplus_le_compat_r.
      rewrite !vlb_R_blocks; cbn [m1 m' mm_h mm_bias mm_gamma mm_w mm_net mm_data]; auto.
      2:{ apply net_good_allow, N2. }
      pose proof (@bias_step_max lgam psi GF (mm_h m) data' (ok_hyp Hm) Hne' Hupd (mm_bias m) b' Hdt1 Eb (mm_bias m) (ok_bias Hm)) as B1.
      pose proof (@ir_step_max lgam psi GF (mm_h m) data' (ok_hyp Hm) Hupd (mm_gamma m) (mm_gamma m) HB (ok_gamma Hm)) as B2.
      pose proof (@w_step_max lgam psi GF (mm_h m) data' (ok_hyp Hm) Hne' Hupd (view psi (mm_net m)) (mm_w m) w' Hnf (ok_w Hm) Hkap
         (fun i j Hi Hj => proj1 (Hv i j Hi Hj)) Ew (mm_w m) (ok_w Hm)) as B3.
      unfold net_obj in N1. lra. }
    lra.
Qed.
End S.
