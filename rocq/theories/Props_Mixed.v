(** * Props_Mixed: C91 (drawing from the variational posterior) and C92 (histories that mix Gibbs sampling, mean
    field and re-initialisation) for the gamma-mixture network model. *)
From Coq Require Import Permutation.
From Verif Require Import Prelude ExtReal Arrays Spec_Basis Spec_Discrete Spec_Parents Spec_Gibbs Spec_Network
  M_Basis M_Parents M_Discrete M_Gibbs M_Dist M_Network M_Sweep M_MeanField M_Standard M_Mixed
  L_Basis L_Discrete L_Parents L_Gibbs L_Network
  Props_Discrete Props_Parents Props_Gibbs Props_Network L_Sweep Props_Sweep Props_MeanField Props_Standard2.
Set Implicit Arguments.
Open Scope R_scope.

(** Contract of the draws of resample_from_mf: gammas positive, Dirichlets in the open simplex, betas in [0,1],
    np.random.choice returns a label of positive probability when given a probability vector. *)
Definition rm_contract (B C : nat) (d : rm_draws) : Prop :=
  (forall k, gamma_contract (rm_bias d k)) /\
  (forall i j, gamma_contract (rm_W0 d i j)) /\ gamma_contract (rm_W0s d) /\ (forall i j, gamma_contract (rm_W1 d i j)) /\
  (forall i j, dirichlet_contract B (rm_ir d i j)) /\
  (dirichlet_contract C (md_dir (rm_net d)) /\ (forall a b, beta_contract (md_beta (rm_net d) a b)) /\
   (forall a b, gamma_contract (md_gamma (rm_net d) a b)) /\
   (forall k p, simplex C p -> (md_choice (rm_net d) k p < C)%nat /\ 0 < p (md_choice (rm_net d) k p))) /\
  gamma_contract (rm_er d).

(** The domain of the whole object: Gibbs parameters, variational parameters, stochastic-step offset. *)
Record mixed_ok (x : mixed) : Prop := {
  mo_fixed : fixed_ok (mx_g x);
  mo_dom : domain (mx_g x);
  mo_mf : mf_ok (mf_of x);
  mo_mix : dm_mix (gi_m (mx_g x)) = true;
  mo_KB : (0 < dm_K (gi_m (mx_g x)))%nat /\ (0 < dm_B (gi_m (mx_g x)))%nat;
  mo_off : forall o, mx_off x = Some o -> exists d rest, dm_data (gi_m (mx_g x)) = d :: rest /\ (o < pa_T d)%nat }.

(** Calls with valid arguments.  add_data: counts below 2^32, non-negative filtered data; coordinate descent needs
    data; a stochastic step exactly one data set, a positive minibatch size and a step size in (0,1];
    initialize_from_gibbs positive weights; a standard model of the same size with positive weights. *)
Definition mop_ok (x : mixed) (o : mop) : Prop :=
  let K := dm_K (gi_m (mx_g x)) in let B := dm_B (gi_m (mx_g x)) in let C := net_C (gi_net (mx_g x)) in
  match o with
  | XAdd s f mb => gop_ok K B C (GAdd s f mb)
  | XSweep _ d => draws_contract K B C d
  | XBatch => dm_data (gi_m (mx_g x)) <> []
  | XSgd mb step => length (dm_data (gi_m (mx_g x))) = 1%nat /\ (0 < mb)%nat /\ 0 < step <= 1
  | XFromMf d => rm_contract B C d
  | XFromGibbs A W scale => 0 < scale /\ forall i j, (i < K)%nat -> (j < K)%nat -> 0 < W i j
  | XStd s => sm_K s = K /\ sm_B s = B /\ std_pos s
  end.

(* ---------------- the pieces ---------------- *)

Lemma sbm_from_mf_ok fp d f s : prior_pos s -> mf_valid s f -> sbm_valid s ->
  dirichlet_contract (sb_C s) (md_dir d) -> (forall a b, beta_contract (md_beta d a b)) ->
  (forall a b, gamma_contract (md_gamma d a b)) ->
  (forall k p, simplex (sb_C s) p -> (md_choice d k p < sb_C s)%nat /\ 0 < p (md_choice d k p)) ->
  sbm_valid (sbm_from_mf fp d f s).
Proof.
  intros HP (Hm & Hpi & Hpar) (_ & _ & Hpv) Cd Cb Cg Cc. split; [|split].
  - intros k Hk. cbn [sbm_from_mf sb_set sb_K sb_c sb_C] in *. apply Cc. apply Hm. exact Hk.
  - cbn [sbm_from_mf sb_set sb_m sb_C]. destruct (Cd (mf_pi f) Hpi) as [D1 D2]. split; [|exact D2].
    intros b Hb. left. auto.
  - intros a b Ha Hb. cbn [sbm_from_mf sb_set sb_C sb_p sb_v] in *. destruct (Hpar a b Ha Hb) as (T0 & T1 & Al & Be). split.
    + destruct fp; [apply Hpv; auto|apply Cb; auto].
    + apply Cg; [exact Al|]. apply Rdiv_lt_0_compat; lra.
Qed.

(** resample_from_mf stays in the domain. *)
Lemma from_mf_ok d x : mixed_ok x -> rm_contract (dm_B (gi_m (mx_g x))) (net_C (gi_net (mx_g x))) d ->
  fst (from_mf_st d x) = Ok tt /\ mixed_ok (snd (from_mf_st d x)).
Proof.
  intros Hx (Cb & C0 & C0s & C1 & Ci & (Cd & Cbt & Cg & Cc) & Ce). pose proof Hx as [(Fh & Fdt & Fb) HD HM Emx HKB Hoff].
  pose proof HM as [Mb Mg Mw Mn Mh Md Mo]. pose proof HD as [Dl DW Dg Dn Dd].
  unfold from_mf_st. cbn [mf_of mm_h hyp_of mh_K mh_B mm_bias mm_gamma mm_w mm_net mm_data] in *.
  set (m := gi_m (mx_g x)) in *. set (A := A_from_mf (rm_u d) (mx_w x)).
  assert (Hnet : exists no, net_from_mf d (mx_f x) (gi_net (mx_g x)) = Ok no /\ net_ok (dm_K m) no /\
                   mfnet_ok (dm_K m) (mfnet_of no (mx_f x))).
  { destruct (gi_net (mx_g x)) as [fp s|n]; cbn [net_ok mfnet_of mfnet_ok net_C net_from_mf] in *.
    - destruct Mn as (EK & HP & Hmv & Hsv). eexists. split; [reflexivity|].
      pose proof (@sbm_from_mf_ok fp (rm_net d) (mx_f x) s HP Hmv Hsv Cd Cbt Cg Cc) as Hv. cbn [net_ok mfnet_of mfnet_ok].
      split; (split; [exact EK|]); (split; [exact HP|]); [exact Hv|split; [exact Hmv|exact Hv]].
    - destruct Mn as (EK & Hp & Hk & a & b & ma & mb & Ea & Eb & Em & Ha & Hb & Hma & Hmb). rewrite Em.
      eexists. split; [reflexivity|]. cbn [net_ok mfnet_of mfnet_ok er_with_v e_K e_p e_v e_kappa e_alpha e_beta e_mf].
      assert (0 < rm_er d ma (1 / mb)) by (apply Ce; [exact Hma|apply Rdiv_lt_0_compat; lra]).
      destruct Dn as (_ & _ & _ & _ & Da & Db). split; [auto 10|]. split; [exact EK|]. split; [exact Hp|]. split; [exact Hk|].
      exists a, b, ma, mb. auto 10. }
  destruct Hnet as (no & -> & N1 & N2). cbn [fst snd]. split; [reflexivity|].
  assert (HW : forall i j, (i < dm_K m)%nat -> (j < dm_K m)%nat -> 0 < W_from_mf (mx_scalar x) d A (mx_w x) i j).
  { intros i j Hi Hj. destruct (Mw i j Hi Hj) as (W1 & W2 & W3 & W4 & _).
    destruct (Mw 0%nat 0%nat ltac:(lia) ltac:(lia)) as (W5 & W6 & _).
    assert (G1 : 0 < rm_W1 d i j (w_kappa1 (mx_w x) i j) (1 / w_v1 (mx_w x) i j)) by (apply C1; [auto|apply Rdiv_lt_0_compat; lra]).
    assert (G0 : 0 < (if mx_scalar x then rm_W0s d (w_kappa0 (mx_w x) 0%nat 0%nat) (1 / w_v0 (mx_w x) 0%nat 0%nat)
                                  else rm_W0 d i j (w_kappa0 (mx_w x) i j) (1 / w_v0 (mx_w x) i j))).
    { destruct (mx_scalar x); [apply C0s|apply C0]; auto; apply Rdiv_lt_0_compat; lra. }
    unfold W_from_mf. destruct (A i j); cbn [b2R]; lra. }
  assert (Hl : forall k, (k < dm_K m)%nat -> 0 < bias_from_mf (rm_bias d) (mx_bias x) k).
  { intros k Hk. destruct (Mb k Hk). apply Cb; [auto|apply Rdiv_lt_0_compat; lra]. }
  assert (Hg : forall i j, (i < dm_K m)%nat -> (j < dm_K m)%nat -> open_simplex (dm_B m) (g_from_mf (rm_ir d) (mx_gamma x) i j)).
  { intros i j Hi Hj. apply Ci. intros b Hb. apply Mg; auto. }
  constructor.
  - exact (conj Fh (conj Fdt Fb)).
  - constructor; [exact Hl|exact HW|exact Hg|exact N1|exact Dd].
  - constructor; [exact Mb|exact Mg|exact Mw|exact N2|exact Mh|exact Md|exact Mo].
  - exact Emx.
  - exact HKB.
  - exact Hoff.
Qed.

Lemma mean_p_range K no : net_ok K no -> 0 <= mean_p no <= 1.
Proof.
  destruct no as [fp s|n]; cbn [net_ok mean_p].
  - intros (_ & (HC & _) & (_ & _ & Hpv)). assert (H1 : 1 <= INR (sb_C s)) by (apply (le_INR 1); lia).
    assert (0 < INR (sb_C s) * INR (sb_C s)) by nra.
    assert (0 <= Rsum (sb_C s) (fun a => Rsum (sb_C s) (fun b => sb_p s a b)) <= INR (sb_C s) * INR (sb_C s)).
    { split; [apply Rsum2_nonneg; intros; apply Hpv; auto|].
      rewrite <- Rsum_const. apply Rsum_le. intros a Ha.
      rewrite <- (Rmult_1_r (INR (sb_C s))), <- Rsum_const. apply Rsum_le. intros b Hb. apply Hpv; auto. }
    split; [apply Rle_mult_inv_pos; lra|]. apply Rmult_le_reg_r with (INR (sb_C s) * INR (sb_C s)); [lra|].
    unfold Rdiv. rewrite Rmult_assoc, Rinv_l by lra. lra.
  - intros (_ & Hp & _). exact Hp.
Qed.

Lemma std_ok s x : mixed_ok x -> sm_K s = dm_K (gi_m (mx_g x)) -> sm_B s = dm_B (gi_m (mx_g x)) -> std_pos s ->
  exists x' s', init_with_std s x = Ok (x', s') /\ mixed_ok x'.
Proof.
  intros Hx EK EB Hs. pose proof Hx as [(Fh & Fdt & Fb) HD HM Emx (HK & HB) Hoff].
  pose proof HM as [Mb Mg Mw Mn Mh Md Mo]. pose proof HD as [Dl DW Dg Dn Dd].
  destruct (@C52_valid_parameters s _ _ (mean_p (gi_net (mx_g x))) EK EB HK HB (@mean_p_range _ _ Dn) Hs)
    as (ip & s' & E & V1 & V2 & V3 & _ & V4).
  unfold init_with_std. rewrite E. cbn [bindr fst snd]. do 2 eexists. split; [reflexivity|].
  destruct (V4 (h_nu0 (gi_h (mx_g x)))) as (Q1 & Q2 & Q3); [apply Fh|].
  cbn [mf_of mm_h hyp_of mh_K mh_B mm_bias mm_gamma mm_w mm_net mm_data] in *.
  assert (Hp : forall A i j, 0 < ip_W ip i j -> exists p, w_p (init_mf_weights (h_nu0 (gi_h (mx_g x))) ip) i j = Fin p /\ p_lo <= p <= p_hi /\ A = A :> Prop).
  { intros A i j _. eexists. split; [reflexivity|]. split; [|reflexivity]. unfold p_lo, p_hi.
    assert (0 < / 10 ^ 8 <= / 10). { split; [apply Rinv_0_lt_compat, pow_lt; lra|]. apply Rinv_le_contravar; lra. }
    destruct (b2R_01 (ip_A ip i j)) as [->| ->]; lra. }
  constructor.
  - exact (conj Fh (conj Fdt Fb)).
  - constructor.
    + intros k Hk. cbn in Hk |- *. rewrite V1. apply Hs; [lia|unfold sm_P; lia].
    + intros i j Hi Hj. apply V2; auto.
    + intros i j Hi Hj. destruct (V3 i j Hi Hj) as [S1 S2]. split; [|exact S1]. intros b Hb. specialize (S2 b Hb).
      change (0 < ip_g ip i j b). assert (1 <= INR (dm_B (gi_m (mx_g x)))) by (apply (le_INR 1); lia).
      assert (0 < / 10 ^ 2 / (1 + / 10 ^ 2 * INR (dm_B (gi_m (mx_g x))))) by (apply Rdiv_lt_0_compat; lra). lra.
    + exact Dn.
    + exact Dd.
  - constructor; cbn [mf_of mm_h hyp_of mh_K mh_B mm_bias mm_gamma mm_w mm_net mm_data mx_g mx_bias mx_gamma mx_w mx_f gi_m gi_net gi_h].
    + intros k _. apply Q1.
    + exact Q3.
    + intros i j Hi Hj. destruct (Q2 i j Hi Hj) as (_ & W0 & W1 & W2 & W3).
      destruct (Hp True i j ltac:(apply V2; auto)) as (p & Ep & Hr & _). eauto 10.
    + exact Mn.
    + exact Mh.
    + exact Md.
    + exact Mo.
  - exact Emx.
  - exact (conj HK HB).
  - exact Hoff.
Qed.

Lemma from_gibbs_ok A W scale x : mixed_ok x -> 0 < scale ->
  (forall i j, (i < dm_K (gi_m (mx_g x)))%nat -> (j < dm_K (gi_m (mx_g x)))%nat -> 0 < W i j) ->
  mixed_ok (init_from_gibbs A W scale x).
Proof.
  intros [HF HD HM Emx HKB Hoff] Hs HW. pose proof HM as [Mb Mg Mw Mn Mh Md Mo].
  constructor; [exact HF|exact HD| |exact Emx|exact HKB|exact Hoff].
  constructor; [exact Mb|exact Mg| |exact Mn|exact Mh|exact Md|exact Mo].
  intros i j Hi Hj. cbn in Hi, Hj. destruct HF as ((_ & _ & _ & Hk0 & Hn0) & _).
  cbn [mf_of mm_w init_from_gibbs mx_w w_from_gibbs w_kappa0 w_v0 w_kappa1 w_v1 w_p].
  split; [exact Hk0|]. split; [exact Hn0|]. split; [apply Rmult_lt_0_compat; auto|]. split; [exact Hs|].
  eexists. split; [reflexivity|]. unfold p_lo, p_hi.
  assert (0 < / 10 ^ 8 <= / 100). { split; [apply Rinv_0_lt_compat, pow_lt; lra|]. apply Rinv_le_contravar; lra. }
  destruct (b2R_01 (A i j)) as [->| ->]; lra.
Qed.

(** A Gibbs sweep replaces only the assignments inside the data sets. *)
Lemma resample_parents_inv use_gsl mult q data : forall i data', resample_parents use_gsl mult q i data = Ok data' ->
  Forall2 (fun d d' => exists Z', d' = set_Z d Z') data data'.
Proof.
  induction data as [|d data IH]; intros i data' E; cbn [resample_parents] in E; [injection E as <-; constructor|].
  apply bindr_ok in E as (d' & E1 & E). apply bindr_ok in E as (r & E2 & E). injection E as <-. constructor; [|eapply IH; eauto].
  unfold pa_resample, resample_Z_gsl, resample_Z_python in E1. destruct use_gsl.
  - destruct (negb _) in E1; [discriminate|]. injection E1 as <-. eauto.
  - destruct (negb _) in E1; [discriminate|]. destruct (negb _) in E1; [discriminate|]. injection E1 as <-. eauto.
Qed.
Lemma sweep_inv lgam rn d st st' : dm_mix (gi_m st) = true -> sweep lgam rn d st = Ok st' ->
  Forall2 (fun d d' => exists Z', d' = set_Z d Z') (dm_data (gi_m st)) (dm_data (gi_m st')) /\ gi_h st' = gi_h st /\
  (gi_net st' = gi_net st \/ exists d' A W, gi_net st' = net_resample lgam d' (sd_er d) A W (gi_net st)).
Proof.
  intros Em E. unfold sweep in E. rewrite Em in E. unfold mix_sweep in E. apply bindr_ok in E as (data & E1 & E).
  injection E as <-. cbn [gi_m gi_h gi_net]. split; [|split; [reflexivity|]].
  - eapply resample_parents_inv. exact E1.
  - destruct rn; [right|left; reflexivity]. do 3 eexists. reflexivity.
Qed.
Lemma mfnet_ok_resample lgam K dn de A W no f : mfnet_ok K (mfnet_of no f) ->
  net_ok K (net_resample lgam dn de A W no) ->
  mfnet_ok K (mfnet_of (net_resample lgam dn de A W no) f).
Proof.
  destruct no as [fp s|n]; cbn [net_resample mfnet_of mfnet_ok net_ok].
  - intros (EK & HP & (M1 & M2 & M3) & Hv) (EK' & HP' & Hv'). split; [exact EK'|]. split; [exact HP'|]. split; [|exact Hv'].
    destruct (sbm_resample_dims lgam fp dn A W s) as (E1 & E2 & _). unfold mf_valid. rewrite E1, E2. auto.
  - intros (EK & Hp & Hk & a & b & ma & mb & Ea & Eb & Em & H) _. unfold er_resample. rewrite Ea, Eb.
    destruct (_ && _)%bool; cbn [er_v_request er_with_v e_K e_p e_kappa e_alpha e_beta e_mf];
      (split; [exact EK|]; split; [exact Hp|]; split; [exact Hk|]; exists a, b, ma, mb; auto 10).
Qed.

Lemma sweep_mixed_ok lgam rn d x : mixed_ok x ->
  draws_contract (dm_K (gi_m (mx_g x))) (dm_B (gi_m (mx_g x))) (net_C (gi_net (mx_g x))) d ->
  exists g', sweep lgam rn d (mx_g x) = Ok g' /\ mixed_ok (with_gibbs x g') /\
    forall p, In p (dm_data (gi_m g')) -> consistent p.
Proof.
  intros Hx Hc. pose proof Hx as [HF HD HM Emx (HK & HB) Hoff].
  destruct (@sweep_step_gen lgam rn d (mx_g x) HF HD ltac:(congruence) Hc) as (g' & E & D' & _ & Sh & El & Hcn).
  exists g'. split; [exact E|]. split; [|exact Hcn].
  destruct (@sweep_inv _ _ _ _ _ Emx E) as (Hf & Eh & Hn). destruct Sh as (S1 & S2 & S3 & S4 & S5 & S6 & S7 & S8 & S9).
  pose proof HM as [Mb Mg Mw Mn Mh Md Mo].
  cbn [mf_of mm_h hyp_of mh_K mh_B mm_bias mm_gamma mm_w mm_net mm_data mm_off mh_alpha mh_beta mh_gamma mh_kappa0 mh_nu0] in *.
  assert (Ehyp : hyp_of g' = hyp_of (mx_g x)) by (unfold hyp_of; rewrite S1, S2, Eh; reflexivity).
  assert (Hdata : forall p, In p (dm_data (gi_m g')) -> mfdata_ok (hyp_of (mx_g x)) p).
  { intros p Hp. destruct (@Forall2_in_r _ _ _ _ _ _ Hf Hp) as (p0 & Hin & Z' & ->). exact (Md p0 Hin). }
  assert (Ho : forall o, mx_off x = Some o -> exists d rest, dm_data (gi_m g') = d :: rest /\ (o < pa_T d)%nat).
  { intros o Eo. destruct (Hoff o Eo) as (p & rest & Ep & Hlt). rewrite Ep in Hf. inversion Hf as [|? p' ? rest' (Z' & ->)]; subst.
    do 2 eexists. split; [reflexivity|exact Hlt]. }
  constructor; cbn [with_gibbs mx_g mx_off].
  - destruct HF as (Fa & Fb & Fc). unfold fixed_ok. rewrite S2, S3, S4, S5, Eh. auto.
  - exact D'.
  - constructor; cbn [mf_of with_gibbs mm_h mm_bias mm_gamma mm_w mm_net mm_data mm_off mx_g mx_bias mx_gamma mx_w mx_f mx_off]; rewrite ?Ehyp.
    + exact Mb.
    + exact Mg.
    + exact Mw.
    + cbn [hyp_of mh_K]. destruct Hn as [->|(dn & A & W & Hn)]; [exact Mn|]. rewrite Hn. apply mfnet_ok_resample; [exact Mn|].
      rewrite <- Hn, <- S1. apply (dom_net D').
    + exact Mh.
    + exact Hdata.
    + intros o p Eo Ep. destruct (Ho o Eo) as (p' & rest & Ep' & Hlt). rewrite Ep in Ep'. injection Ep' as <- _. exact Hlt.
  - congruence.
  - rewrite S1, S2. auto.
  - exact Ho.
Qed.

Lemma offsets_pos fuel T n : (0 < n)%nat -> forall off o, In o (offsets fuel T n off) -> (o < T)%nat.
Proof.
  intros Hn. induction fuel as [|fuel IH]; intros off o H; cbn [offsets] in H; [destruct H|].
  destruct (Nat.ltb_spec off T); [|destruct H]. destruct H as [<-|H]; [auto|]. eapply IH; eauto.
Qed.
Lemma add_mixed_ok lgam s f mb x : mixed_ok x ->
  gop_ok (dm_K (gi_m (mx_g x))) (dm_B (gi_m (mx_g x))) (net_C (gi_net (mx_g x))) (GAdd s f mb) ->
  mixed_ok (with_gibbs x (snd (gstep lgam (GAdd s f mb) (mx_g x)))).
Proof.
  intros Hx Hok. pose proof Hx as [HF HD HM Emx (HK & HB) Hoff].
  destruct (@add_domain lgam s f mb (mx_g x) _ _ _ Hok HF HD) as (D' & (S1 & S2 & S3 & S4 & S5 & S6 & S7 & S8 & S9)).
  assert (Hd : gi_net (snd (gstep lgam (GAdd s f mb) (mx_g x))) = gi_net (mx_g x) /\
     exists ps, dm_data (gi_m (snd (gstep lgam (GAdd s f mb) (mx_g x)))) = dm_data (gi_m (mx_g x)) ++ ps /\
       forall p, In p ps -> (0 < pa_T p)%nat).
  { cbn [gstep]. rewrite add_data_st_ok. destruct (add_data (gi_m (mx_g x)) s f mb) as [m'|e] eqn:E.
    2:{ split; [reflexivity|]. exists []. split; [now rewrite app_nil_r|intros ? []]. }
    apply add_data_inv in E as (T & F & ps & _ & HT & _ & _ & _ & Eb & ->). split; [reflexivity|].
    exists ps. split; [reflexivity|]. intros p Hp. unfold batches in Eb. destruct mb as [n|].
    - destruct (Z.eqb_spec n 0); [discriminate|]. destruct (Z.ltb_spec n 0); injection Eb as <-; [destruct Hp|].
      apply in_map_iff in Hp as (o & <- & Ho). apply offsets_pos in Ho; [|lia]. cbn. lia.
    - injection Eb as <-. destruct Hp as [<-|[]]. exact HT. }
  set (g' := snd (gstep lgam (GAdd s f mb) (mx_g x))) in *. destruct Hd as (En & ps & Ed & HT). clearbody g'.
  pose proof HM as [Mb Mg Mw Mn Mh Md Mo].
  cbn [mf_of mm_h hyp_of mh_K mh_B mm_bias mm_gamma mm_w mm_net mm_data mm_off mh_alpha mh_beta mh_gamma mh_kappa0 mh_nu0] in *.
  assert (Ehyp : hyp_of g' = hyp_of (mx_g x)) by (unfold hyp_of; rewrite S1, S2, S7; reflexivity).
  assert (Ho : forall o, mx_off x = Some o -> exists d rest, dm_data (gi_m g') = d :: rest /\ (o < pa_T d)%nat).
  { intros o Eo. destruct (Hoff o Eo) as (p & rest & Ep & Hlt). rewrite Ed, Ep. do 2 eexists. split; [reflexivity|exact Hlt]. }
  constructor; cbn [with_gibbs mx_g mx_off].
  - destruct HF as (Fa & Fb & Fc). unfold fixed_ok. rewrite S2, S3, S4, S5, S7. auto.
  - exact D'.
  - constructor; cbn [mf_of with_gibbs mm_h mm_bias mm_gamma mm_w mm_net mm_data mm_off mx_g mx_bias mx_gamma mx_w mx_f mx_off]; rewrite ?Ehyp.
    + exact Mb.
    + exact Mg.
    + exact Mw.
    + rewrite En. exact Mn.
    + exact Mh.
    + rewrite Ed. intros p Hp. apply in_app_or in Hp as [Hp|Hp]; [apply Md; auto|].
      assert (Hp' : In p (dm_data (gi_m g'))) by (rewrite Ed; apply in_or_app; auto).
      destruct (dom_data D' p Hp') as (P1 & P2 & P3 & P4 & P5 & _).
      split; [cbn; congruence|]. split; [cbn; congruence|]. split; [auto|]. split; [|auto].
      rewrite P3, S4. apply HF.
    + intros o p Eo Ep. destruct (Ho o Eo) as (p' & rest & Ep' & Hlt). rewrite Ep in Ep'. injection Ep' as <- _. exact Hlt.
  - congruence.
  - rewrite S1, S2. auto.
  - exact Ho.
Qed.

(** Mean-field steps keep the data (except expected parents), the Gibbs parameters and the network's own fields. *)
Lemma mf_parents_inv e data : forall data', mf_parents e data = Ok data' ->
  Forall2 (fun d d' => d' = set_EZ d (pa_EZ d')) data data'.
Proof.
  induction data as [|d data IH]; intros data' E; cbn [mf_parents] in E; [injection E as <-; constructor|].
  apply bindr_ok in E as (d' & E1 & E). apply bindr_ok in E as (r & E2 & E). injection E as <-. constructor; [|auto].
  unfold mf_update_python in E1. destruct (negb _) in E1; [discriminate|]. injection E1 as <-. reflexivity.
Qed.
(** The fields of a network a mean-field step does not touch. *)
Definition same_net (a b : mfnet) : Prop :=
  match a, b with
  | MfSbm fp s _, MfSbm fp' s' _ => fp = fp' /\ s = s'
  | MfEr n, MfEr n' => exists z, n' = er_with_mf n z
  | _, _ => False
  end.
Lemma mfnet_batch_same lgam psi w a b : mfnet_batch lgam psi w a = Ok b -> same_net a b.
Proof.
  destruct a as [[|] s f|n]; cbn [mfnet_batch]; intros E.
  - apply bindr_ok in E as (f' & _ & E). injection E as <-. split; reflexivity.
  - injection E as <-. split; reflexivity.
  - apply bindr_ok in E as (n' & E1 & E). injection E as <-. unfold er_meanfieldupdate in E1.
    destruct (e_alpha n); [|discriminate]. destruct (e_beta n); [|discriminate]. destruct (e_mf n) as [[? ?]|]; [|discriminate].
    injection E1 as <-. eexists. reflexivity.
Qed.
Lemma mfnet_sgd_same lgam psi frac step w a b : mfnet_sgd lgam psi frac step w a = Ok b -> same_net a b.
Proof.
  destruct a as [[|] s f|n]; cbn [mfnet_sgd]; intros E.
  - apply bindr_ok in E as (f' & _ & E). injection E as <-. split; reflexivity.
  - injection E as <-. split; reflexivity.
  - apply bindr_ok in E as (n' & E1 & E). injection E as <-. unfold er_meanfieldupdate in E1.
    destruct (e_alpha n); [|discriminate]. destruct (e_beta n); [|discriminate]. destruct (e_mf n) as [[? ?]|]; [|discriminate].
    injection E1 as <-. eexists. reflexivity.
Qed.
Lemma mf_op_inv lgam psi o m m' : mf_op_step lgam psi o m = Ok m' ->
  same_net (mm_net m) (mm_net m') /\ Forall2 (fun d d' => d' = set_EZ d (pa_EZ d')) (mm_data m) (mm_data m') /\
  (forall off, mm_off m' = Some off -> (forall off, mm_off m = Some off -> exists d rest, mm_data m = d :: rest /\ (off < pa_T d)%nat) ->
     (forall d, In d (mm_data m) -> (0 < pa_T d)%nat) ->
     exists d rest, mm_data m' = d :: rest /\ (off < pa_T d)%nat).
Proof.
  destruct o as [|mb step]; cbn [mf_op_step]; intros E.
  - unfold mf_batch_step in E. apply bindr_ok in E as (data & E1 & E). apply bindr_ok in E as (b & _ & E).
    apply bindr_ok in E as (n & _ & E). apply bindr_ok in E as (w & _ & E). apply bindr_ok in E as (no & En & E).
    injection E as <-. cbn [mm_net mm_data mm_off]. apply mf_parents_inv in E1. apply mfnet_batch_same in En.
    split; [exact En|]. split; [exact E1|]. intros off Eo H _. destruct (H off Eo) as (d & rest & Ed & Hlt). rewrite Ed in E1.
    inversion E1 as [|? d' ? rest' Hd]; subst. do 2 eexists. split; [reflexivity|]. rewrite Hd. exact Hlt.
  - unfold mf_sgd_step in E. destruct (mm_data m) as [|d [|? ?]] eqn:Ed; try discriminate. cbv zeta in E.
    apply bindr_ok in E as (p & _ & E). apply bindr_ok in E as (b & _ & E).
    apply bindr_ok in E as (n & _ & E). apply bindr_ok in E as (w & _ & E). apply bindr_ok in E as (no & En & E).
    injection E as <-. cbn [mm_net mm_data mm_off]. rewrite ?Ed. apply mfnet_sgd_same in En. split; [exact En|].
    split. { constructor; [|constructor]. destruct d; reflexivity. }
    intros off Eo _ HT. injection Eo as <-. exists d, []. split; [reflexivity|].
    unfold next_offset. specialize (HT d (or_introl eq_refl)). destruct (mm_off m) as [o|]; [|auto].
    destruct (Nat.leb_spec (pa_T d) (o + mb)); auto.
Qed.
Lemma same_net_ok K no f no' : same_net (mfnet_of no f) no' -> net_ok K no ->
  net_ok K (match no' with MfSbm fp s _ => NetSbm fp s | MfEr n => NetEr n end) /\
  (forall f0, mfnet_of (match no' with MfSbm fp s _ => NetSbm fp s | MfEr n => NetEr n end)
      (match no' with MfSbm _ _ f => f | MfEr _ => f0 end) = no') /\
  net_C (match no' with MfSbm fp s _ => NetSbm fp s | MfEr n => NetEr n end) = net_C no.
Proof.
  destruct no as [fp s|n], no' as [fp' s' f'|n']; cbn [mfnet_of same_net]; try tauto.
  - intros (-> & ->) H. auto.
  - intros (z & ->) H. split; [exact H|]. auto.
Qed.
Lemma mf_mixed_ok lgam psi o x : mixed_ok x -> mfop_ok (mf_of x) o ->
  exists m', mf_op_step lgam psi o (mf_of x) = Ok m' /\ mixed_ok (put_mf x m').
Proof.
  intros Hx Ho. pose proof Hx as [HF HD HM Emx HKB Hoff].
  destruct (@mf_step_ok lgam psi o (mf_of x) HM Ho) as (m' & E & Hm' & Eh & El). exists m'. split; [exact E|].
  destruct (@mf_op_inv _ _ _ _ _ E) as (Hn & Hf & Hof). cbn [mf_of mm_net mm_data mm_off mm_h] in Hn, Hf, Hof, Eh, El.
  destruct (@same_net_ok _ _ _ _ Hn (dom_net HD)) as (N1 & N2 & N3).
  assert (HT : forall d, In d (dm_data (gi_m (mx_g x))) -> (0 < pa_T d)%nat) by (intros d Hd; apply (ok_data HM d Hd)).
  constructor.
  - exact HF.
  - destruct HD as [Dl DW Dg Dn Dd]. constructor; [exact Dl|exact DW|exact Dg|exact N1|].
    intros p Hp. destruct (@Forall2_in_r _ _ _ _ _ _ Hf Hp) as (p0 & Hin & ->).
    destruct (Dd p0 Hin) as (? & ? & ? & ? & ? & ? & ?). auto 10.
  - assert (Em : mf_of (put_mf x m') = m').
    { destruct m' as [h b g w no data off]. cbn [mf_of put_mf mx_g mx_bias mx_gamma mx_w mx_f mx_off gi_m gi_net gi_h mm_bias mm_gamma mm_w mm_net mm_data mm_off mm_h] in *.
      unfold mf_of, put_mf. cbn [mx_g mx_bias mx_gamma mx_w mx_f mx_off gi_m gi_net gi_h mm_bias mm_gamma mm_w mm_net mm_data mm_off mm_h].
      f_equal; [symmetry; exact Eh|apply N2]. }
    rewrite Em. exact Hm'.
  - exact Emx.
  - exact HKB.
  - intros off Eo. apply (Hof off Eo Hoff HT).
Qed.

(** A freshly built model is in the domain. *)
Lemma construct_mixed_ok lgam K B dt L bas h no d dirs :
  hypers_ok B h -> net_ok K no -> mfnet_ok K (mfnet_of no (mx_f (construct_mixed lgam K B dt L bas h no d dirs))) ->
  draws_contract K B (net_C no) d -> 0 < dt -> (0 < K)%nat -> (0 < B)%nat ->
  (forall l b, (l < L)%nat -> (b < B)%nat -> 0 <= bas l b) ->
  mixed_ok (construct_mixed lgam K B dt L bas h no d dirs).
Proof.
  intros Hh Hn Hmn Hd Hdt HK HB Hbas.
  destruct (@construct_ok lgam true K B dt L bas h no d Hh Hn Hd Hdt Hbas) as (F0 & D0 & _ & EK & EB & EN & EM & ED).
  destruct (@net_view_ok _ _ Hn) as (Hk & Hv). pose proof Hh as (Ha & Hb & Hg & Hk0 & Hn0).
  constructor.
  - exact F0.
  - exact D0.
  - refine (@C38_initial K B (h_alpha h) (h_beta h) (h_gamma h) (h_kappa0 h) (h_nu0 h) _ (net_view no) [] Ha Hb Hg Hk0 Hn0 Hmn Hk _ _).
    + intros i j Hi Hj. apply Hv; auto.
    + intros ? [].
  - exact EM.
  - split; [exact HK|exact HB].
  - discriminate.
Qed.

(** One step of a mixed history. *)
Lemma mstep_ok lgam psi o x : mixed_ok x -> mop_ok x o ->
  mixed_ok (snd (mstep lgam psi o x)) /\
  ((forall s f mb, o <> XAdd s f mb) -> fst (mstep lgam psi o x) = Ok tt).
Proof.
  intros Hx Ho. destruct o as [s f mb|rn d| |mb step|d|A W scale|s]; cbn [mop_ok] in Ho.
  - split; [|intros H; now destruct (H s f mb)]. cbn [mstep].
    pose proof (@add_mixed_ok lgam s f mb x Hx Ho) as H. destruct (gstep lgam (GAdd s f mb) (mx_g x)). exact H.
  - destruct (@sweep_mixed_ok lgam rn d x Hx Ho) as (g' & E & H & _). cbn [mstep gstep]. rewrite E. auto.
  - destruct (@mf_mixed_ok lgam psi OpBatch x Hx Ho) as (m' & E & H). cbn [mstep lift_mf]. cbn [mf_op_step] in E. rewrite E. auto.
  - destruct (@mf_mixed_ok lgam psi (OpSgd mb step) x Hx Ho) as (m' & E & H). cbn [mstep]. cbn [mf_op_step] in E. rewrite E. auto.
  - destruct (@from_mf_ok d x Hx Ho). auto.
  - split; [|reflexivity]. destruct Ho. now apply from_gibbs_ok.
  - destruct Ho as (EK & EB & Hs). destruct (@std_ok s x Hx EK EB Hs) as (x' & s' & E & H). cbn [mstep]. rewrite E. auto.
Qed.

(* ------------------------------------------------------------------ *)
(** ** C92 *)

(** States reached from [x0] by any finite sequence of calls with valid arguments. *)
Inductive reach (lgam psi : R -> R) (x0 : mixed) : mixed -> Prop :=
| reach_0 : reach lgam psi x0 x0
| reach_step x o : reach lgam psi x0 x -> mop_ok x o -> reach lgam psi x0 (snd (mstep lgam psi o x)).

(** Build a gamma-mixture model and interleave add_data, Gibbs sweeps, coordinate-descent and stochastic mean-field
    steps, draws from the variational posterior, initialize_from_gibbs and initialize_with_standard_model in any order
    and number: every Gibbs parameter and every variational parameter stays in its domain, and no further call with
    valid arguments raises. *)
Theorem C92_mixed_histories :
  forall lgam psi K B dt L bas h no d0 dirs x,
  hypers_ok B h -> net_ok K no -> draws_contract K B (net_C no) d0 -> 0 < dt -> (0 < K)%nat -> (0 < B)%nat ->
  (forall l b, (l < L)%nat -> (b < B)%nat -> 0 <= bas l b) ->
  (* the network supports mean field: a block model with a valid initial label distribution, or an Erdos-Renyi
     network with a gamma prior on its scale *)
  mfnet_ok K (mfnet_of no (mx_f (construct_mixed lgam K B dt L bas h no d0 dirs))) ->
  reach lgam psi (construct_mixed lgam K B dt L bas h no d0 dirs) x ->
  (forall k, (k < K)%nat -> 0 < dm_lam (gi_m (mx_g x)) k /\ 0 < mb_alpha (mx_bias x) k /\ 0 < mb_beta (mx_bias x) k) /\
  (forall i j, (i < K)%nat -> (j < K)%nat ->
     0 < dm_W (gi_m (mx_g x)) i j /\ open_simplex B (dm_g (gi_m (mx_g x)) i j) /\
     0 < w_kappa0 (mx_w x) i j /\ 0 < w_v0 (mx_w x) i j /\ 0 < w_kappa1 (mx_w x) i j /\ 0 < w_v1 (mx_w x) i j /\
     (exists p, w_p (mx_w x) i j = Fin p /\ 0 < p < 1) /\
     forall b, (b < B)%nat -> 0 < mx_gamma x i j b) /\
  net_ok K (gi_net (mx_g x)) /\ mfnet_ok K (mfnet_of (gi_net (mx_g x)) (mx_f x)) /\
  (forall o, mop_ok x o -> (forall s f mb, o <> XAdd s f mb) -> fst (mstep lgam psi o x) = Ok tt).
Proof.
  intros lgam psi K B dt L bas h no d0 dirs x Hh Hn Hd Hdt HK HB Hbas Hmn Hr.
  set (x0 := construct_mixed lgam K B dt L bas h no d0 dirs) in *.
  assert (H0 : mixed_ok x0) by (apply construct_mixed_ok; auto).
  assert (Hinv : mixed_ok x /\ dm_K (gi_m (mx_g x)) = K /\ dm_B (gi_m (mx_g x)) = B).
  { induction Hr as [|x o Hr (IH & EK & EB) Ho]; [split; [exact H0|split; reflexivity]|].
    split; [apply (@mstep_ok lgam psi o x IH Ho)|].
    destruct o as [s f mb|rn d| |mb step|d|A W scale|s]; cbn [mop_ok] in Ho.
    - cbn [mstep]. destruct (@add_domain lgam s f mb (mx_g x) _ _ _ Ho (mo_fixed IH) (mo_dom IH)) as (_ & (S1 & S2 & _)).
      destruct (gstep lgam (GAdd s f mb) (mx_g x)). cbn [snd] in *. cbn. split; congruence.
    - destruct (@sweep_step_gen lgam rn d (mx_g x) (mo_fixed IH) (mo_dom IH) ltac:(rewrite (mo_mix IH); congruence) Ho)
        as (g' & E & _ & _ & (S1 & S2 & _) & _). cbn [mstep gstep]. rewrite E. cbn. split; congruence.
    - cbn [mstep lift_mf]. destruct (mf_batch_step lgam psi (mf_of x)); cbn; auto.
    - cbn [mstep]. destruct (mf_sgd_step lgam psi mb step (mf_of x)); cbn; auto.
    - cbn [mstep]. unfold from_mf_st. destruct (net_from_mf _ _ _); cbn; auto.
    - cbn. auto.
    - destruct Ho as (E1 & E2 & Hs). destruct (@std_ok s x IH E1 E2 Hs) as (x' & s' & E & H). cbn [mstep]. rewrite E. cbn [snd].
      unfold init_with_std in E. apply bindr_ok in E as (r & _ & E). injection E as <- _. cbn. auto. }
  destruct Hinv as (Hx & EK & EB). pose proof Hx as [HF HD HM Emx HKB Hoff]. pose proof HM as [Mb Mg Mw Mn Mh Md Mo].
  cbn [mf_of mm_h hyp_of mh_K mh_B mm_bias mm_gamma mm_w mm_net mm_data] in *. rewrite EK, ?EB in *.
  destruct HD as [Dl DW Dg Dn Dd]. rewrite EK, ?EB in *.
  split; [intros k Hk; destruct (Mb k Hk); auto|]. split; [|split; [exact Dn|split; [exact Mn|]]].
  - intros i j Hi Hj. destruct (Mw i j Hi Hj) as (W1 & W2 & W3 & W4 & p & Ep & Hp). destruct p_lo_bounds as (Q1 & Q2 & Q3).
    split; [auto|]. split; [auto|]. do 4 (split; [assumption|]). split; [exists p; split; [exact Ep|lra]|]. auto.
  - intros o Ho Hne. apply (@mstep_ok lgam psi o x Hx Ho). exact Hne.
Qed.
Print Assumptions C92_mixed_histories.

(** Hypotheses are met by a two-process model with data, sweeps and mean-field steps. *)
Definition ex92_net : netobj :=
  NetEr {| e_K := 2; e_p := 1/2; e_kappa := 1; e_alpha := Some 1; e_beta := Some 1; e_v := 1; e_allow := false; e_mf := Some (1, 1) |}.
Definition ex92 (lgam : R -> R) : mixed :=
  construct_mixed lgam 2 1 1 2 (fun _ _ => 1) ex_hyp ex92_net (ex_draws 2 1 (ex_mult 3)) (fun _ _ => 0).
Lemma ex92_ok lgam : mixed_ok (ex92 lgam).
Proof.
  apply construct_mixed_ok; try lra; try lia.
  - apply ex_hyp_ok.
  - repeat split; cbn; try lra; intros ? [= <-]; lra.
  - split; [reflexivity|]. cbn. split; [lra|]. split; [lra|]. exists 1, 1, 1, 1. repeat split; lra.
  - apply ex_draws_ok; [lia|]. exact (@ex_mult_ok 3%nat).
  - intros; lra.
Qed.
Definition ex_rm (u : R) : rm_draws :=
  {| rm_bias := fun _ _ _ => 1; rm_u := fun _ _ => u; rm_W0 := fun _ _ _ _ => 1; rm_W0s := fun _ _ => 1; rm_W1 := fun _ _ _ _ => 1;
     rm_ir := fun _ _ _ _ => 1;
     rm_net := {| md_dir := fun _ _ => 1; md_beta := fun _ _ _ _ => 1/2; md_gamma := fun _ _ _ _ => 1; md_choice := fun _ _ => 0%nat |};
     rm_er := fun _ _ => 1 |}.
Lemma ex_rm_ok u : rm_contract 1 1 (ex_rm u).
Proof.
  split; [intros k a s _ _; cbn; lra|]. split; [intros i j a s _ _; cbn; lra|]. split; [intros a s _ _; cbn; lra|].
  split; [intros i j a s _ _; cbn; lra|]. split; [intros i j al _; split; [intros; cbn; lra|cbn; lra]|].
  split; [|intros a s _ _; cbn; lra].
  split; [intros al _; split; [intros; cbn; lra|cbn; lra]|]. split; [intros a b x y _ _; cbn; lra|].
  split; [intros a b x y _ _; cbn; lra|]. intros k p [_ Hp]. cbn in *. split; [lia|lra].
Qed.
Example C92_nonvacuous : forall lgam psi,
  reach lgam psi (ex92 lgam) (snd (mstep lgam psi (XAdd (sval_of 3 2 (fun _ _ => 1%Z)) None None)
    (snd (mstep lgam psi (XFromMf (ex_rm (1/2))) (snd (mstep lgam psi (XFromGibbs (fun _ _ => false) (fun _ _ => 1) 100) (ex92 lgam))))))).
Proof.
  intros lgam psi. apply reach_step; [apply reach_step; [apply reach_step; [apply reach_0|]|]|].
  - split; [lra|]. intros; lra.
  - apply ex_rm_ok.
  - split; [intros; cbn; lia|]. intros ? [=].
Qed.

(* ------------------------------------------------------------------ *)
(** ** C91 *)

(** resample_from_mf draws every parameter from its variational factor: background rate k from
    Gamma(mf_alpha, rate mf_beta), edges are Bernoulli(mf_p) (true exactly when the uniform draw is below mf_p),
    the weight from the Gamma of the component its edge selects, impulse responses from Dirichlet(mf_gamma).  The means
    of the requested laws (shape times scale; normalised concentration) are the expectations the model reports. *)
Theorem C91_parameters_from_posterior :
  forall d x, mixed_ok x -> mx_scalar x = false ->
  let K := dm_K (gi_m (mx_g x)) in let B := dm_B (gi_m (mx_g x)) in
  let m' := gi_m (mx_g (snd (from_mf_st d x))) in
  (forall k, (k < K)%nat -> exists shape scale, dm_lam m' k = rm_bias d k shape scale /\
     shape = mb_alpha (mx_bias x) k /\ / scale = mb_beta (mx_bias x) k /\ shape * scale = expected_lambda0 (mx_bias x) k) /\
  (forall i j, (i < K)%nat -> (j < K)%nat -> exists p, w_p (mx_w x) i j = Fin p /\
     (dm_A m' i j = true <-> rm_u d i j < p) /\
     (dm_A m' i j = true -> exists shape scale, dm_W m' i j = rm_W1 d i j shape scale /\
        shape = w_kappa1 (mx_w x) i j /\ / scale = w_v1 (mx_w x) i j /\ shape * scale = expected_W_given_A (mx_w x) 1 i j) /\
     (dm_A m' i j = false -> exists shape scale, dm_W m' i j = rm_W0 d i j shape scale /\
        shape = w_kappa0 (mx_w x) i j /\ / scale = w_v0 (mx_w x) i j /\ shape * scale = expected_W_given_A (mx_w x) 0 i j)) /\
  (forall i j, exists conc, dm_g m' i j = rm_ir d i j conc /\
     forall b, conc b = mx_gamma x i j b /\ conc b / Rsum B conc = expected_g B (mx_gamma x) i j b) /\
  dm_data m' = dm_data (gi_m (mx_g x)).
Proof.
  intros d x Hx Hs K B m'. pose proof (mo_mf Hx) as [Mb Mg Mw _ _ _ _]. cbn [mf_of mm_h hyp_of mh_K mh_B mm_bias mm_gamma mm_w] in *.
  fold K B in Mb, Mg, Mw.
  assert (Em : m' = with_g (with_W (with_A (with_lam (gi_m (mx_g x)) (bias_from_mf (rm_bias d) (mx_bias x))) (A_from_mf (rm_u d) (mx_w x)))
     (W_from_mf (mx_scalar x) d (A_from_mf (rm_u d) (mx_w x)) (mx_w x))) (g_from_mf (rm_ir d) (mx_gamma x))).
  { unfold m', from_mf_st. destruct (net_from_mf _ _ _); reflexivity. }
  clearbody m'. subst m'. cbn [with_g with_W with_A with_lam dm_lam dm_A dm_W dm_g dm_data].
  assert (Hinv : forall v, v <> 0 -> / (1 / v) = v) by (intros; field; auto).
  split; [|split; [|split; [|reflexivity]]].
  - intros k Hk. destruct (Mb k Hk). exists (mb_alpha (mx_bias x) k), (1 / mb_beta (mx_bias x) k). split; [reflexivity|].
    split; [reflexivity|]. split; [apply Hinv; lra|]. unfold expected_lambda0. field. lra.
  - intros i j Hi Hj. destruct (Mw i j Hi Hj) as (W1 & W2 & W3 & W4 & p & Ep & Hp). exists p. split; [exact Ep|].
    rewrite Hs. unfold W_from_mf, A_from_mf. rewrite Ep. cbn [elt].
    split; [apply Rltb_true|]. split; intros HA; rewrite HA; cbn [b2R].
    + exists (w_kappa1 (mx_w x) i j), (1 / w_v1 (mx_w x) i j). split; [ring|]. split; [reflexivity|]. split; [apply Hinv; lra|].
      unfold expected_W_given_A. field. lra.
    + exists (w_kappa0 (mx_w x) i j), (1 / w_v0 (mx_w x) i j). split; [ring|]. split; [reflexivity|]. split; [apply Hinv; lra|].
      unfold expected_W_given_A. field. lra.
  - intros i j. eexists. split; [reflexivity|]. intros b. split; reflexivity.
Qed.
Print Assumptions C91_parameters_from_posterior.

(** The network: block weights from Dirichlet(mf_pi), every label from its row of mf_m, scales from their gamma factors,
    sparsities from their beta factors (kept by the fixed-sparsity model); an Erdos-Renyi scale from its gamma factor. *)
Theorem C91_network_from_posterior :
  forall d x, mixed_ok x ->
  fst (from_mf_st d x) = Ok tt /\
  match gi_net (mx_g x), gi_net (mx_g (snd (from_mf_st d x))) with
  | NetSbm fp s, NetSbm fp' s' =>
      fp' = fp /\ sb_m s' = md_dir (rm_net d) (mf_pi (mx_f x)) /\
      (forall k, sb_c s' k = md_choice (rm_net d) k (mf_m (mx_f x) k)) /\
      (forall a b, (a < sb_C s)%nat -> (b < sb_C s)%nat -> exists shape scale, sb_v s' a b = md_gamma (rm_net d) a b shape scale /\
         shape = mf_alpha (mx_f x) a b /\ / scale = mf_beta (mx_f x) a b) /\
      (fp = true -> sb_p s' = sb_p s) /\
      (fp = false -> forall a b, sb_p s' a b = md_beta (rm_net d) a b (mf_tau1 (mx_f x) a b) (mf_tau0 (mx_f x) a b))
  | NetEr n, NetEr n' => e_p n' = e_p n /\ exists shape scale, e_v n' = rm_er d shape scale /\
      e_mf n = Some (shape, / scale) /\ er_expected_v n = Ok (shape * scale)
  | _, _ => False
  end.
Proof.
  intros d x Hx. pose proof (ok_net (mo_mf Hx)) as Mn. cbn [mf_of mm_net mm_h hyp_of mh_K] in Mn. unfold from_mf_st.
  destruct (gi_net (mx_g x)) as [fp s|n]; cbn [mfnet_of mfnet_ok net_from_mf] in *.
  - split; [reflexivity|]. cbn [snd mx_g gi_net]. split; [reflexivity|]. split; [reflexivity|]. split; [reflexivity|].
    split; [|split].
    + intros a b Ha Hb. destruct Mn as (_ & _ & (_ & _ & Hp) & _). destruct (Hp a b Ha Hb) as (_ & _ & _ & Hbe).
      do 2 eexists. split; [reflexivity|]. split; [reflexivity|]. field. lra.
    + intros ->. reflexivity.
    + intros ->. reflexivity.
  - destruct Mn as (EK & Hp & Hk & a & b & ma & mb & Ea & Eb & Em & Ha & Hb & Hma & Hmb). rewrite Em. cbn [fst snd mx_g gi_net er_with_v e_p e_v].
    split; [reflexivity|]. split; [reflexivity|]. exists ma, (1 / mb). split; [reflexivity|].
    split. { do 2 f_equal. field. lra. }
    unfold er_expected_v. rewrite Em. f_equal. field. lra.
Qed.
Print Assumptions C91_network_from_posterior.

(** The coordinates are drawn independently: for any target weights there are draws producing them, as long as
    mf_kappa_0, mf_v_0 are arrays. *)
Theorem C91_weights_independent :
  forall x (T : mat), mx_scalar x = false -> (forall i j, 0 < T i j) ->
  exists d, rm_contract 1 1 d /\ forall i j, dm_W (gi_m (mx_g (snd (from_mf_st d x)))) i j = T i j.
Proof.
  intros x T Hs HT.
  set (d := {| rm_bias := fun _ _ _ => 1; rm_u := fun _ _ => 1/2; rm_W0 := fun i j _ _ => T i j; rm_W0s := fun _ _ => 1;
     rm_W1 := fun i j _ _ => T i j; rm_ir := fun _ _ _ _ => 1; rm_net := rm_net (ex_rm 0); rm_er := fun _ _ => 1 |}).
  exists d. split.
  - destruct (ex_rm_ok 0) as (H1 & H2 & H3 & H4 & H5 & H6 & H7). split; [exact H1|]. split; [intros i j a s _ _; apply HT|].
    split; [exact H3|]. split; [intros i j a s _ _; apply HT|]. split; [exact H5|]. split; [exact H6|exact H7].
  - intros i j. unfold from_mf_st.
    assert (E : W_from_mf (mx_scalar x) d (A_from_mf (rm_u d) (mx_w x)) (mx_w x) i j = T i j).
    { unfold W_from_mf. rewrite Hs. cbn [rm_W0 rm_W1 d]. destruct (A_from_mf _ _ i j); cbn [b2R]; ring. }
    destruct (net_from_mf _ _ _); exact E.
Qed.
Print Assumptions C91_weights_independent.
(** ... but after initialize_from_gibbs the parameters of the absent-edge component are scalars, NumPy draws a single
    number, and all absent edges get the very same weight. *)
Theorem C91_shared_draw_refuted :
  forall A W scale d x i j i' j', let m' := gi_m (mx_g (snd (from_mf_st d (init_from_gibbs A W scale x)))) in
  dm_A m' i j = false -> dm_A m' i' j' = false -> dm_W m' i j = dm_W m' i' j'.
Proof.
  intros A W scale d x i j i' j' m'.
  assert (E : dm_A m' = A_from_mf (rm_u d) (w_from_gibbs (h_kappa0 (gi_h (mx_g x))) (h_nu0 (gi_h (mx_g x))) A W scale) /\
    dm_W m' = W_from_mf true d (dm_A m') (w_from_gibbs (h_kappa0 (gi_h (mx_g x))) (h_nu0 (gi_h (mx_g x))) A W scale)).
  { unfold m', from_mf_st. destruct (net_from_mf _ _ _); split; reflexivity. }
  clearbody m'. destruct E as [_ E2]. intros H1 H2. rewrite E2. unfold W_from_mf. rewrite H1, H2. cbn [b2R]. ring.
Qed.
Print Assumptions C91_shared_draw_refuted.
(** With self-connections disallowed a draw can contain self edges, and always gives self-connections positive weight
    although the model reports expected weight zero. *)
Theorem C91_self_connections_refuted :
  forall d x k, mixed_ok x -> net_allow (gi_net (mx_g x)) = false -> (k < dm_K (gi_m (mx_g x)))%nat ->
  rm_contract (dm_B (gi_m (mx_g x))) (net_C (gi_net (mx_g x))) d ->
  let m' := gi_m (mx_g (snd (from_mf_st d x))) in
  expected_W (net_allow (gi_net (mx_g x))) (mx_w x) k k = 0 /\ 0 < dm_W m' k k /\
  (rm_u d k k < / 10 ^ 8 -> dm_A m' k k = true).
Proof.
  intros d x k Hx Ha Hk Hc m'. destruct (@from_mf_ok d x Hx Hc) as (_ & Hx').
  assert (EK : dm_K m' = dm_K (gi_m (mx_g x))) by (unfold m', from_mf_st; destruct (net_from_mf _ _ _); reflexivity).
  assert (EA : dm_A m' = A_from_mf (rm_u d) (mx_w x)) by (unfold m', from_mf_st; destruct (net_from_mf _ _ _); reflexivity).
  split; [|split].
  - rewrite Ha. unfold expected_W, fill_diagonal. cbn [negb]. now rewrite Nat.eqb_refl.
  - apply (dom_W (mo_dom Hx')); fold m'; rewrite EK; exact Hk.
  - intros Hu. rewrite EA. unfold A_from_mf. destruct (ok_w (mo_mf Hx) Hk Hk) as (_ & _ & _ & _ & p & Ep & Hp).
    cbn [mf_of mm_w] in Ep. rewrite Ep. cbn [elt]. apply Rltb_true. unfold p_lo in Hp. lra.
Qed.
Print Assumptions C91_self_connections_refuted.
(** An Erdos-Renyi network without a gamma prior on its scale (the default of the gamma-mixture class):
    resample_from_mf raises AttributeError, after replacing the rates, edges, weights and impulse responses. *)
Theorem C91_default_network_refuted :
  forall d x n, gi_net (mx_g x) = NetEr n -> e_mf n = None ->
  fst (from_mf_st d x) = Raise AttributeError /\
  let m' := gi_m (mx_g (snd (from_mf_st d x))) in
  dm_lam m' = bias_from_mf (rm_bias d) (mx_bias x) /\ dm_A m' = A_from_mf (rm_u d) (mx_w x).
Proof. intros d x n En Em. unfold from_mf_st. rewrite En. cbn [net_from_mf]. rewrite Em. auto. Qed.
Print Assumptions C91_default_network_refuted.
(** A network the user fixed (labels, sparsities and scales all given; Gibbs updates leave it alone) is overwritten. *)
Theorem C91_fixed_network_refuted :
  exists s f d, sb_fixed s = true /\ mf_valid s f /\
  (forall lgam dg A W, sb_v (sbm_resample lgam false dg A W s) = sb_v s) /\
  sb_v (sbm_from_mf false d f s) 0%nat 0%nat <> sb_v s 0%nat 0%nat.
Proof.
  set (s := {| sb_K := 1; sb_C := 1; sb_pi := fun _ => 1; sb_tau0 := 1; sb_tau1 := 1; sb_kappa := 1; sb_alpha := 1; sb_beta := 1;
    sb_allow := true; sb_m := fun _ => 1; sb_c := fun _ => 0%nat; sb_p := fun _ _ => 1/2; sb_v := fun _ _ => 5; sb_fixed := true |}).
  exists s, (mf_init s (fun _ _ => 1)), (rm_net (ex_rm 0)). split; [reflexivity|]. split; [|split].
  - split; [intros k Hk; split; [intros; cbn; lra|cbn; lra]|]. split; [intros; cbn; lra|]. intros; cbn; lra.
  - intros. reflexivity.
  - cbn. lra.
Qed.
Print Assumptions C91_fixed_network_refuted.
Example C91_nonvacuous : forall lgam, mixed_ok (ex92 lgam) /\ mx_scalar (ex92 lgam) = false /\
  net_allow (gi_net (mx_g (ex92 lgam))) = false /\ rm_contract 1 1 (ex_rm (/ 10 ^ 9)) /\ rm_u (ex_rm (/ 10 ^ 9)) 0%nat 0%nat < / 10 ^ 8.
Proof.
  intros lgam. split; [apply ex92_ok|]. split; [reflexivity|]. split; [reflexivity|]. split; [apply ex_rm_ok|]. cbn [rm_u ex_rm].
  apply Rinv_lt_contravar; [apply Rmult_lt_0_compat; apply pow_lt; lra|]. apply Rlt_pow; [lra|lia].
Qed.
