(** * Props_Continuous5: C45, histories of the continuous-time Gibbs sampler. *)
From Coq Require Import Permutation FunctionalExtensionality.
From Verif Require Import Prelude ExtReal Arrays Spec_Gibbs Spec_Continuous M_Basis M_Parents M_Discrete M_Gibbs M_Dist M_Network M_Sweep
  L_Gibbs L_Sweep Props_Gibbs Props_Network Props_Sweep M_Continuous L_Continuous Props_Continuous Props_Continuous2 Props_Continuous3 Props_Continuous4.
Set Implicit Arguments.
Open Scope R_scope.

(** Valid hyperparameters. *)
Definition ct_hypers_ok (m : ctmodel) : Prop :=
  0 < cm_alpha m /\ 0 < cm_beta m /\ 0 < cm_lmbda0 m /\ 0 < cm_alpha0 m /\ 0 < cm_beta0 m.
(** Draws in the support of the laws requested, threads and workers scheduled in some order. *)
Definition ct_draws_ok (K C : nat) (dr : ct_draws) : Prop :=
  (forall i n, unit_interval (td_u dr i n)) /\ (forall d, Permutation (td_norder dr d) (seq 0 (cd_N d))) /\
  (forall k, gamma_contract (td_bias dr k)) /\ (forall a b, gamma_contract (td_g dr a b)) /\
  ((forall a b, beta_contract (gd_beta (td_net dr) a b)) /\ (forall a b, gamma_contract (gd_gamma (td_net dr) a b)) /\
   (forall k lp, (gd_pick (td_net dr) k lp < C)%nat) /\ dirichlet_contract C (gd_dir (td_net dr))) /\
  gamma_contract (td_er dr) /\ (forall a b, gamma_contract (td_W dr a b)) /\ (forall a b, unit_interval (td_uA dr a b)) /\
  Permutation (td_order dr) (seq 0 K).
(** Every event's parent is the background (-1) or an earlier event within the window. *)
Definition parents_valid (D : R) (d : ctdata) : Prop :=
  forall n, (n < cd_N d)%nat -> cd_Z d n = (-1)%Z \/
    exists p, cd_Z d n = Z.of_nat p /\ (p < n)%nat /\ eps <= cd_S d n - cd_S d p <= D - eps.
(** What holds of a model at rest. *)
Record ct_inv (m : ctmodel) : Prop := {
  iv_hyp : ct_hypers_ok m;
  iv_net : net_ok (cm_K m) (cm_net m);
  iv_lam : forall k, (k < cm_K m)%nat -> 0 < cm_lam m k;
  iv_W : forall a b, (a < cm_K m)%nat -> (b < cm_K m)%nat -> 0 < cm_W m a b;
  iv_tau : forall a b, (a < cm_K m)%nat -> (b < cm_K m)%nat -> 0 < cm_tau m a b;
  iv_self : net_allow (cm_net m) = false -> forall k, (k < cm_K m)%nat -> cm_A m k k = false;
  iv_data : forall d, In d (cm_data m) -> data_ok (cm_K m) d /\ 0 <= cd_T d /\ stats_ok m d /\ parents_valid (cm_dtmax m) d }.

Lemma inv_params m : ct_inv m -> params_ok m.
Proof. intros H. split; [apply (iv_lam H)|]. split; [intros a b Ha Hb; apply Rlt_le, (iv_W H); auto|apply (iv_tau H)]. Qed.

(** The events of the data sets, which no sampling step may touch. *)
Definition events (d : ctdata) : nat * vec * (nat -> nat) * R := (cd_N d, cd_S d, cd_C d, cd_T d).

Lemma stats_ok_ext m m' d : cm_K m = cm_K m' -> cm_dtmax m = cm_dtmax m' -> stats_ok m d -> stats_ok m' d.
Proof.
  intros EK ED [A B C D E F].
  assert (X : forall n, xdelay m d n = xdelay m' d n) by (intros n; unfold xdelay; now rewrite ED).
  assert (XE : xdelay m d = xdelay m' d) by (extensionality n; apply X).
  constructor; intros; rewrite <- ?XE; auto. rewrite <- EK in *. apply F. exact H.
Qed.
Lemma resample_all_ok m dr C : ct_draws_ok (cm_K m) C dr -> params_ok m ->
  forall data i, (forall d, In d data -> data_ok (cm_K m) d /\ 0 <= cd_T d) ->
  exists data', ct_resample_all m dr i data = Ok data' /\ map events data' = map events data /\
    forall d, In d data' -> data_ok (cm_K m) d /\ 0 <= cd_T d /\ stats_ok m d /\ parents_valid (cm_dtmax m) d.
Proof.
  intros (Hu & Ho & _) Hp. induction data as [|d data IH]; intros i Hd.
  - exists []. split; [reflexivity|]. split; [reflexivity|intros d []].
  - destruct (Hd d (or_introl eq_refl)) as [Hd1 HT].
    destruct (@C59_parent_update m (td_norder dr d) (td_u dr i) d Hp Hd1 (Ho d)) as (d' & E & (EN & ES & EC & ET) & Hst & Hz); [intros; apply Hu|].
    destruct (IH (S i)) as (rest & Er & Ev & Hr); [intros; apply Hd; now right|].
    exists (d' :: rest). cbn [ct_resample_all]. rewrite E. cbn [bindr]. rewrite Er. cbn [bindr].
    split; [reflexivity|]. split; [cbn [map]; rewrite Ev; unfold events at 1; rewrite EN, ES, EC, ET; reflexivity|].
    intros x [<-|Hin]; [|auto]. split; [|split; [rewrite ET; exact HT|split; [exact Hst|]]].
    + unfold data_ok. rewrite EN, ES, EC, ET. exact Hd1.
    + intros n Hn. rewrite EN in Hn. destruct (Hz n Hn) as ((j & Hj & Ej & _) & _ & Hc).
      destruct j as [|p]; [left; lia|]. right. exists p. split; [lia|]. destruct (Hc p ltac:(lia)) as (A & B & _). split; [lia|]. rewrite ES. exact B.
Qed.

Lemma stats_nonneg m d a b k : stats_ok m d ->
  0 <= cd_bkgd d k /\ 0 <= cd_weight d a b /\ 0 <= cd_imp d 0%nat a b /\ 0 <= cd_imp d 2%nat a b.
Proof.
  intros H. split; [rewrite (st_bkgd H); apply count_nonneg|]. split; [rewrite (st_weight H); apply count_nonneg|].
  split; [rewrite (st_n H); apply count_nonneg|]. destruct (stats_delays a b H) as (_ & _ & ->). apply css_nonneg.
Qed.
Lemma lam_pos dr C m data k : ct_draws_ok (cm_K m) C dr -> 0 < cm_alpha m -> 0 < cm_beta m ->
  (forall d, In d data -> 0 <= cd_T d /\ stats_ok m d) -> 0 < ct_bias_resample (td_bias dr) m data k.
Proof.
  intros (_ & _ & Hg & _) Ha Hb Hd. unfold ct_bias_resample, ct_bias_request, ct_bias_ss.
  assert (G : forall st : R * R, 0 <= fst st -> 0 <= snd st ->
     let r := fold_left (fun (_ : R * R) d => (cs_bkgd d k, cs_T d)) (map cd_stat data) st in 0 <= fst r /\ 0 <= snd r).
  { clear - Hd. induction data as [|d data IH]; intros st H0 H1; [cbn; auto|]. cbn [map fold_left].
    apply IH; [intros; apply Hd; now right| |]; cbn; destruct (Hd d (or_introl eq_refl)) as [HT Hst]; [|exact HT].
    apply (stats_nonneg 0 0 k Hst). }
  specialize (G (0, 0) (Rle_refl 0) (Rle_refl 0)). cbv zeta in G. destruct (fold_left _ _ _) as [s0 s1]. cbn in G. apply Hg; [lra|].
  apply Rdiv_lt_0_compat; lra.
Qed.
Lemma tau_pos dr C m data a b : ct_draws_ok (cm_K m) C dr -> 0 < cm_lmbda0 m -> 0 < cm_alpha0 m -> 0 < cm_beta0 m ->
  (forall d, In d data -> stats_ok m d) -> 0 < snd (ct_imp_resample (td_g dr) (td_nrm dr) m data a b).
Proof.
  intros (_ & _ & _ & Hg & _) Hl Ha Hb Hd. unfold ct_imp_resample, ct_imp_request, nig_post, sample_nig. cbn [snd].
  assert (H0 : 0 <= nig_stats data 0 a b).
  { unfold nig_stats. rewrite pool_lsum. apply Rplus_le_le_0_compat; [lra|]. apply lsum_map_nonneg. intros d Hin. apply (stats_nonneg a b 0 (Hd d Hin)). }
  assert (H2 : 0 <= nig_stats data 2 a b).
  { unfold nig_stats. rewrite pool_lsum. apply Rplus_le_le_0_compat; [lra|]. apply lsum_map_nonneg. intros d Hin. apply (stats_nonneg a b 0 (Hd d Hin)). }
  set (n := nig_stats data 0 a b) in *. set (x := if Reqb n 0 then 0 else _). pose proof (pow2_ge_0 (x - cm_mu0 m)) as Hx.
  apply Hg; [lra|]. apply Rdiv_lt_0_compat; [lra|].
  assert (0 <= 1 / 2 * cm_lmbda0 m * n * (x - cm_mu0 m) ^ 2 / (cm_lmbda0 m + n)); [|lra].
  apply Rmult_le_pos; [|left; apply Rinv_0_lt_compat; lra]. apply Rmult_le_pos; [|exact Hx]. apply Rmult_le_pos; [lra|exact H0].
Qed.
Lemma W_pos dr C m A data a b : ct_draws_ok (cm_K m) C dr -> net_ok (cm_K m) (cm_net m) ->
  (a < cm_K m)%nat -> (b < cm_K m)%nat -> (forall d, In d data -> stats_ok m d) ->
  0 < ct_W_resample (td_W dr) (net_view (cm_net m)) A data a b.
Proof.
  intros (_ & _ & _ & _ & _ & _ & Hg & _) Hn Ha Hb Hd. destruct (@net_view_ok _ _ Hn) as (Hk & Hv). destruct (Hv a b Ha Hb) as (_ & HV & _).
  unfold ct_W_resample, ct_W_request. apply Hg.
  - assert (0 <= pool (fun d => cd_weight d a b) data); [|lra]. rewrite pool_lsum. apply lsum_map_nonneg. intros d Hin. apply (stats_nonneg a b 0 (Hd d Hin)).
  - apply Rdiv_lt_0_compat; [lra|]. assert (0 <= pool (fun d => IZR (cd_Ns d a)) data).
    { rewrite pool_lsum. apply lsum_map_nonneg. intros d _. unfold cd_Ns. rewrite Ns_count. apply count_nonneg. }
    pose proof (b2R_range (A a b)). nra.
Qed.

(** The weight step of a sweep keeps the invariant. *)
Lemma weights_inv m dr data : ct_draws_ok (cm_K m) (net_C (cm_net m)) dr -> ct_hypers_ok m -> net_ok (cm_K m) (cm_net m) ->
  (forall k, (k < cm_K m)%nat -> 0 < cm_lam m k) -> (forall a b, (a < cm_K m)%nat -> (b < cm_K m)%nat -> 0 < cm_tau m a b) ->
  cm_data m = data ->
  (forall d, In d data -> data_ok (cm_K m) d /\ 0 <= cd_T d /\ stats_ok m d /\ parents_valid (cm_dtmax m) d) ->
  ct_inv (ct_weights_resample (td_order dr) (td_norder dr) (td_W dr) (td_uA dr) m data).
Proof.
  intros Hdr Hh Hn Hl Ht Ed Hd. pose proof Hdr as (_ & Hno & _ & _ & _ & _ & _ & HuA & Hor).
  set (m' := ct_weights_resample _ _ _ _ m data).
  assert (HW : forall a b, (a < cm_K m)%nat -> (b < cm_K m)%nat -> 0 < cm_W m' a b).
  { intros a b Ha Hb. apply (@W_pos dr (net_C (cm_net m)) m); auto. intros d Hin. apply Hd; auto. }
  constructor; try assumption.
  - intros Hs k Hk. change (cm_net m') with (cm_net m) in Hs. change (cm_K m') with (cm_K m) in Hk.
    destruct (@C76_edges_from_posterior (td_order dr) (td_norder dr) (td_W dr) (td_uA dr) m data Hn Hl Ht) as (_ & P); auto.
    + intros d Hin. split; [apply Hd; auto|apply Hno].
    + intros a b Ha Hb. apply Rlt_le, HW; auto.
    + fold m' in P. destruct (P k k (fun i j => if Nat.ltb i k then cm_A m' i j else cm_A m i j) Hk Hk) as (_ & Q); [reflexivity|].
      destruct (cm_A m' k k); [|reflexivity]. exfalso. destruct Q as [Q _]. specialize (Q eq_refl).
      destruct (@net_view_ok _ _ Hn) as (_ & Hv). destruct (Hv k k Hk Hk) as (_ & _ & Hz). rewrite (Hz Hs eq_refl) in Q.
      destruct (HuA k k). unfold edge_posterior in Q. rewrite !Rmult_0_l in Q. unfold Rdiv in Q. rewrite Rmult_0_l in Q. lra.
  - intros d Hin. change (cm_data m') with (cm_data m) in Hin. rewrite Ed in Hin. destruct (Hd d Hin) as (A & B & C & D).
    split; [exact A|]. split; [exact B|]. split; [|exact D]. revert C. apply stats_ok_ext; reflexivity.
Qed.

(** A sweep from such a state succeeds, stays in it, and leaves the observed events and the hyperparameters alone. *)
Theorem C45_sweep :
  forall lgam dr m, ct_inv m -> ct_draws_ok (cm_K m) (net_C (cm_net m)) dr ->
    exists m', ct_sweep lgam dr m = Ok m' /\ ct_inv m' /\ map events (cm_data m') = map events (cm_data m) /\
      cm_K m' = cm_K m /\ cm_dtmax m' = cm_dtmax m /\ net_C (cm_net m') = net_C (cm_net m) /\ net_allow (cm_net m') = net_allow (cm_net m).
Proof.
  intros lgam dr m Hi Hdr. pose proof (inv_params Hi) as Hp. pose proof (iv_hyp Hi) as (H1 & H2 & H3 & H4 & H5).
  destruct (@resample_all_ok m dr _ Hdr Hp (cm_data m) 0) as (data & E & Ev & Hd).
  { intros d Hin. destruct (iv_data Hi d Hin) as (A & B & _). auto. }
  unfold ct_sweep. rewrite E. cbn [bindr]. cbv zeta.
  pose proof Hdr as (_ & _ & _ & _ & (Hb & Hg & Hpk & Hdi) & Her & _).
  pose (sd := {| sd_mult := fun _ _ _ _ _ _ => 0%Z; sd_bias := td_bias dr; sd_ir := fun _ _ _ _ => 0;
     sd_net := td_net dr; sd_er := td_er dr; sd_W := td_W dr; sd_u := td_uA dr; sd_order := td_order dr |}).
  destruct (@net_resample_ok lgam (cm_K m) (cm_net m) sd (cm_A m) (cm_W m)) as (Hn' & Ha' & Hc'); auto.
  { intros i j Hii Hjj. apply Rlt_le, (iv_W Hi); auto. }
  { apply (iv_net Hi). }
  cbn [sd sd_net sd_er] in Hn', Ha', Hc'.
  set (m3 := cm_set _ _ _ _ _ _ _ _). 
  assert (HI : ct_inv (ct_weights_resample (td_order dr) (td_norder dr) (td_W dr) (td_uA dr) m3 data)).
  { apply weights_inv.
    - change (cm_K m3) with (cm_K m). cbn [m3 cm_set cm_net cm_A cm_W cm_with_data]. rewrite Hc'. exact Hdr.
    - exact (iv_hyp Hi).
    - exact Hn'.
    - intros k Hk. cbn [m3 cm_set cm_lam cm_with_data]. apply (@lam_pos dr _ (cm_with_data m data) data k Hdr H1 H2).
      intros d Hin. destruct (Hd d Hin) as (_ & B & C & _). split; [exact B|]. revert C. apply stats_ok_ext; reflexivity.
    - intros a b Ha Hbb. cbn [m3 cm_set cm_tau cm_with_data].
      match goal with |- 0 < snd (ct_imp_resample _ _ ?mm data a b) => apply (@tau_pos dr _ mm data a b Hdr H3 H4 H5) end.
      intros d Hin. destruct (Hd d Hin) as (_ & _ & C & _). revert C. apply stats_ok_ext; reflexivity.
    - reflexivity.
    - intros d Hin. destruct (Hd d Hin) as (A & B & C & D). split; [exact A|]. split; [exact B|]. split; [|exact D].
      revert C. apply stats_ok_ext; reflexivity. }
  eexists. split; [reflexivity|]. split; [exact HI|]. split; [exact Ev|]. split; [reflexivity|]. split; [reflexivity|].
  split; [exact Hc'|exact Ha'].
Qed.

Theorem C45_construct :
  forall K dt_max alpha beta mu0 lmbda0 alpha0 beta0 par no dr,
    0 < alpha -> 0 < beta -> 0 < lmbda0 -> 0 < alpha0 -> 0 < beta0 -> net_ok K no -> ct_draws_ok K (net_C no) dr ->
    ct_inv (ct_construct K dt_max alpha beta mu0 lmbda0 alpha0 beta0 par no dr).
Proof.
  intros K dt_max alpha beta mu0 lmbda0 alpha0 beta0 par no dr H1 H2 H3 H4 H5 Hn Hdr. unfold ct_construct. cbv zeta.
  apply weights_inv; try assumption.
  - split; [exact H1|]. split; [exact H2|]. split; [exact H3|]. split; [exact H4|exact H5].
  - intros k Hk. cbn [cm_set cm_lam]. apply (@lam_pos dr (net_C no)); auto. intros d [].
  - intros a b Ha Hb. cbn [cm_set cm_tau snd sample_nig]. pose proof Hdr as (_ & _ & _ & Hg & _). apply Hg; [lra|].
    apply Rdiv_lt_0_compat; lra.
  - reflexivity.
  - intros d [].
Qed.

(** Operations of a history: data with a non-negative observation time, sweeps with draws in their support. *)
Definition ctop_ok (K C : nat) (o : ctop) : Prop :=
  match o with CTAdd _ _ T _ => 0 <= T | CTHeldout _ _ _ _ _ => True | CTSweep dr => ct_draws_ok K C dr end.
Definition ct_run (lgam : R -> R) (hist : list ctop) (m : ctmodel) : ctmodel := fold_left (fun m o => snd (ct_step lgam o m)) hist m.

(** Each step: sweeps never fail and keep the events; data are appended exactly when acceptable and refused otherwise; held-out
    evaluation changes nothing. *)
Theorem C45_step :
  forall lgam o m, ct_inv m -> ctop_ok (cm_K m) (net_C (cm_net m)) o ->
    let m' := snd (ct_step lgam o m) in
    ct_inv m' /\ cm_K m' = cm_K m /\ cm_dtmax m' = cm_dtmax m /\ net_C (cm_net m') = net_C (cm_net m) /\ net_allow (cm_net m') = net_allow (cm_net m) /\
    match o with
    | CTAdd S_ C_ T f =>
        (acceptable (cm_K m) S_ C_ T f -> fst (ct_step lgam o m) = Ok tt /\
           exists d, m' = cm_with_data m (cm_data m ++ [d]) /\ tv_dims S_ = [cd_N d] /\ cd_T d = T /\
             forall n, (n < cd_N d)%nat -> cd_S d n = tv_at S_ n /\ Z.of_nat (cd_C d n) = iv_at C_ n) /\
        (~ acceptable (cm_K m) S_ C_ T f -> (exists e, fst (ct_step lgam o m) = Raise e) /\ m' = m)
    | CTHeldout _ _ _ _ _ => m' = m
    | CTSweep _ => fst (ct_step lgam o m) = Ok tt /\ map events (cm_data m') = map events (cm_data m)
    end.
Proof.
  intros lgam o m Hi Ho. destruct o as [S_ C_ T f|ord S_ C_ T f|dr]; cbn [ct_step ctop_ok] in *.
  - destruct (@C78_add_data_accepts m S_ C_ T f) as [Hacc Hrej].
    destruct (ct_add_data m S_ C_ T f) as [m1|e] eqn:E.
    + destruct (Classical_Prop.classic (acceptable (cm_K m) S_ C_ T f)) as [A|A].
      2:{ exfalso. destruct (Hrej A) as (e & X). discriminate. }
      destruct (Hacc A) as (d & X & Hdim & Hdo & HT & Hn & Hst). injection X as ->. cbn [fst snd].
      split; [|split; [reflexivity|split; [reflexivity|split; [reflexivity|split; [reflexivity|]]]]].
      * destruct Hi as [I1 I2 I3 I4 I5 I6 I7]. constructor; try assumption.
        intros x Hin. cbn [cm_with_data cm_set cm_data] in Hin. apply in_app_or in Hin as [Hin|[<-|[]]].
        -- destruct (I7 x Hin) as (X1 & X2 & X3 & X4). split; [exact X1|]. split; [exact X2|]. split; [|exact X4]. revert X3. apply stats_ok_ext; reflexivity.
        -- split; [exact Hdo|]. split; [lra|]. split; [revert Hst; apply stats_ok_ext; reflexivity|]. intros n Hlt. left. now apply Hn.
      * split; [|intros Y; contradiction]. intros _. split; [reflexivity|]. exists d. split; [reflexivity|]. split; [exact Hdim|]. split; [exact HT|].
        intros n Hlt. destruct (Hn n Hlt) as (X1 & X2 & _). auto.
    + cbn [fst snd]. split; [exact Hi|]. do 4 (split; [reflexivity|]). split; [|intros _; split; [eauto|reflexivity]].
      intros A. destruct (Hacc A) as (d & X & _). discriminate.
  - pose proof (@C43_continuous_heldout ord m S_ C_ T f) as (E & _). destruct (ct_heldout ord m S_ C_ T f) as [r m1]. cbn [snd] in E. subst m1.
    destruct r; cbn [snd]; (split; [exact Hi|]; do 4 (split; [reflexivity|]); reflexivity).
  - destruct (@C45_sweep lgam dr m Hi Ho) as (m' & E & Hi' & Ev & A & B & C & D). rewrite E. cbn [fst snd].
    split; [exact Hi'|]. split; [exact A|]. split; [exact B|]. split; [exact C|]. split; [exact D|]. split; [reflexivity|exact Ev].
Qed.

(** Any history from construction. *)
Theorem C45_continuous_history :
  forall lgam K dt_max alpha beta mu0 lmbda0 alpha0 beta0 par no dr hist,
    0 < alpha -> 0 < beta -> 0 < lmbda0 -> 0 < alpha0 -> 0 < beta0 -> net_ok K no -> ct_draws_ok K (net_C no) dr ->
    (forall o, In o hist -> ctop_ok K (net_C no) o) ->
    let m := ct_run lgam hist (ct_construct K dt_max alpha beta mu0 lmbda0 alpha0 beta0 par no dr) in
    cm_K m = K /\ cm_dtmax m = dt_max /\
    (forall k, (k < K)%nat -> 0 < cm_lam m k) /\
    (forall a b, (a < K)%nat -> (b < K)%nat -> 0 < cm_W m a b /\ 0 < cm_tau m a b) /\
    (net_allow no = false -> forall k, (k < K)%nat -> cm_A m k k = false) /\
    (forall d, In d (cm_data m) -> valid_events K (cd_N d) (cd_S d) (cd_C d) (cd_T d) /\ parents_valid dt_max d /\ stats_ok m d) /\
    (forall dr', ct_draws_ok K (net_C no) dr' -> exists m', ct_sweep lgam dr' m = Ok m').
Proof.
  intros lgam K dt_max alpha beta mu0 lmbda0 alpha0 beta0 par no dr hist H1 H2 H3 H4 H5 Hn Hdr Hh m.
  assert (G : forall hist m0, ct_inv m0 -> cm_K m0 = K -> cm_dtmax m0 = dt_max -> net_C (cm_net m0) = net_C no -> net_allow (cm_net m0) = net_allow no ->
     (forall o, In o hist -> ctop_ok K (net_C no) o) ->
     let m := ct_run lgam hist m0 in ct_inv m /\ cm_K m = K /\ cm_dtmax m = dt_max /\ net_C (cm_net m) = net_C no /\ net_allow (cm_net m) = net_allow no).
  { clear. induction hist as [|o hist IH]; intros m0 Hi EK ED EC EA Hh; [cbn; auto|]. cbn [ct_run fold_left].
    destruct (@C45_step lgam o m0 Hi) as (Hi' & K' & D' & C' & A' & _).
    { rewrite EK, EC. apply Hh. now left. }
    apply IH; [exact Hi'|congruence|congruence|congruence|congruence|]. intros; apply Hh; now right. }
  destruct (G hist (ct_construct K dt_max alpha beta mu0 lmbda0 alpha0 beta0 par no dr)) as (Hi & EK & ED & EC & EA); auto.
  { apply C45_construct; assumption. }
  fold m in Hi, EK, ED, EC, EA. rewrite <- EK in *. 
  split; [reflexivity|]. split; [exact ED|]. split; [exact (iv_lam Hi)|]. split; [intros a b Ha Hb; split; [apply (iv_W Hi)|apply (iv_tau Hi)]; auto|].
  split; [rewrite <- EA; exact (iv_self Hi)|]. split.
  - intros d Hin. destruct (iv_data Hi d Hin) as (A & _ & C & D). rewrite <- ED. auto.
  - intros dr' Hdr'. rewrite <- EC in Hdr'. destruct (@C45_sweep lgam dr' m Hi Hdr') as (m' & E & _). eauto.
Qed.

(** Non-vacuity: draws that meet the contract, and a history with data and sweeps. *)
Definition ex_ct_draws (K : nat) : ct_draws :=
  {| td_u := fun _ _ => 1/2; td_norder := fun d => seq 0 (cd_N d); td_bias := fun _ _ _ => 1; td_g := fun _ _ _ _ => 1; td_nrm := fun _ _ _ _ => 0;
     td_net := {| gd_beta := fun _ _ _ _ => 1/2; gd_gamma := fun _ _ _ _ => 1; gd_pick := fun _ _ => 0%nat; gd_dir := fun _ _ => 1 |};
     td_er := fun _ _ => 1; td_W := fun _ _ _ _ => 1; td_uA := fun _ _ => 1/4; td_order := seq 0 K |}.
Lemma ex_ct_draws_ok K : ct_draws_ok K 1 (ex_ct_draws K).
Proof.
  unfold ct_draws_ok, unit_interval, gamma_contract, beta_contract, dirichlet_contract. cbn.
  split; [intros; lra|]. split; [intros; apply Permutation_refl|]. split; [intros; lra|]. split; [intros; lra|].
  split; [|split; [intros; lra|split; [intros; lra|split; [intros; lra|apply Permutation_refl]]]].
  split; [intros; lra|]. split; [intros; lra|]. split; [intros; lia|]. intros al _. split; cbn; intros; lra.
Qed.
Example C45_nonvacuous :
  let hist := [CTAdd {| tv_isarray := true; tv_dims := [2%nat]; tv_isfloat := true; tv_at := fun n => INR n |}
                     {| iv_isarray := true; iv_dims := [2%nat]; iv_isint := true; iv_at := fun _ => 0%Z |} 3 true;
               CTSweep (ex_ct_draws 1); CTSweep (ex_ct_draws 1)] in
  net_ok 1 ex_net_ct /\ ct_draws_ok 1 (net_C ex_net_ct) (ex_ct_draws 1) /\ (forall o, In o hist -> ctop_ok 1 (net_C ex_net_ct) o) /\
  acceptable 1 {| tv_isarray := true; tv_dims := [2%nat]; tv_isfloat := true; tv_at := fun n => INR n |}
               {| iv_isarray := true; iv_dims := [2%nat]; iv_isint := true; iv_at := fun _ => 0%Z |} 3 true.
Proof.
  cbv zeta. split; [exact ex_net_ct_ok|]. split; [apply ex_ct_draws_ok|]. split.
  - intros o [<-|[<-|[<-|[]]]]; cbn [ctop_ok]; [lra| |]; apply ex_ct_draws_ok.
  - repeat split; auto. exists 2%nat. cbn. split; [reflexivity|]. split; [reflexivity|]. split; [reflexivity|]. split.
    + intros [|[|n]] Hn; cbn; try lra; lia.
    + split; [|intros; lia]. intros i j Hij Hj. apply le_INR. exact Hij.
Qed.

Print Assumptions C45_sweep.
Print Assumptions C45_construct.
Print Assumptions C45_step.
Print Assumptions C45_continuous_history.
