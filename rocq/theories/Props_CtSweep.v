(** * Props_CtSweep: property C82: one continuous-time sweep conditions every draw on the current values. *)
From Coq Require Import Permutation FunctionalExtensionality.
From Verif Require Import Prelude ExtReal Arrays Spec_Gibbs Spec_Continuous M_Basis M_Parents M_Discrete M_Gibbs M_Dist M_Network M_Sweep
  L_Gibbs L_Sweep Props_Gibbs Props_Network Props_Sweep M_Continuous L_Continuous Props_Continuous Props_Continuous2 Props_Continuous3 Props_Continuous4
  Props_Continuous5.
Set Implicit Arguments.
Open Scope R_scope.

Lemma ct_resample_all_nth m dr data : forall i data', ct_resample_all m dr i data = Ok data' ->
  length data' = length data /\
  forall j d d', nth_error data j = Some d -> nth_error data' j = Some d' ->
    ct_parents_resample m (td_norder dr d) (td_u dr (i + j)%nat) d = Ok d'.
Proof.
  induction data as [|p data IH]; intros i data' E; cbn [ct_resample_all] in E.
  - injection E as <-. split; [reflexivity|]. intros [|j]; discriminate.
  - apply bindr_ok in E as (p1 & E1 & E). apply bindr_ok in E as (rest & E2 & E). injection E as <-.
    destruct (IH _ _ E2) as [El Hn]. split; [cbn; congruence|]. intros [|j] x y; cbn [nth_error]; intros Hx Hy.
    + injection Hx as <-. injection Hy as <-. now rewrite Nat.add_0_r.
    + rewrite <- Nat.add_succ_comm. eauto.
Qed.

(** Background events of process k in a data set. *)
Definition n_background (d : ctdata) (k : nat) : R := count (cd_N d) (fun n => (Z.eqb (cd_Z d n) (-1) && Nat.eqb (cd_C d n) k)%bool).

(** One sweep of the continuous-time model, read off its result m':
    - every event's parent is redrawn with the parameters in force BEFORE the sweep;
    - the background rates are drawn given the NEW parents (of the last data set only: the finding of C23);
    - the impulse parameters are drawn given the delays to the NEW parents (parameters as in C65);
    - the network is drawn from the old A and W;
    - the weights given the new parents, the NEW network, the old A;
    - the edges one after the other, given the new background rates, impulse parameters and weights, with prior
      probabilities from the NEW network. *)
Theorem C82_continuous_sweep :
  forall lgam dr m m', ct_inv m -> ct_draws_ok (cm_K m) (net_C (cm_net m)) dr -> ct_sweep lgam dr m = Ok m' ->
  let data := cm_data m' in let n' := net_view (cm_net m') in
  (length data = length (cm_data m) /\
   forall j d d', nth_error (cm_data m) j = Some d -> nth_error data j = Some d' ->
     (cd_N d' = cd_N d /\ cd_S d' = cd_S d /\ cd_C d' = cd_C d /\ cd_T d' = cd_T d) /\
     forall n i, (n < cd_N d)%nat -> (i <= n)%nat -> (cd_Z d' n = (Z.of_nat i - 1)%Z <-> selects (pparent m d n) i (td_u dr j n))) /\
  (forall k, (data = [] -> cm_lam m' k = td_bias dr k (cm_alpha m) (1 / cm_beta m)) /\
     (forall pre d, data = pre ++ [d] -> cm_lam m' k = td_bias dr k (cm_alpha m + n_background d k) (1 / (cm_beta m + cd_T d)))) /\
  (forall a b, exists mu l al be,
     post_params (cm_mu0 m) (cm_lmbda0 m) (cm_alpha0 m) (cm_beta0 m) (all_delays m a b data) = (mu, l, al, be) /\
     cm_tau m' a b = td_g dr a b al (1 / (be - between m a b data / 2)) /\
     cm_mu m' a b = td_nrm dr a b mu (sqrt (1 / (l * cm_tau m' a b)))) /\
  cm_net m' = net_resample lgam (td_net dr) (td_er dr) (cm_A m) (cm_W m) (cm_net m) /\
  (forall a b, (a < cm_K m)%nat -> (b < cm_K m)%nat ->
     exists sh sc, cm_W m' a b = td_W dr a b sh sc /\ 0 < sh /\ 0 < sc /\
     same_law (fun w => 0 < w) (fun w => gamma_lpdf lgam sh (/ sc) w)
        (fun w => gamma_lpdf lgam (n_kappa n') (n_V n' a b) w +
           if cm_A m a b then lsum (map (fun d => pois_loglik (n_children d a b) (n_of d a) w) data) else 0)) /\
  (forall a b (M : bmat), (a < cm_K m)%nat -> (b < cm_K m)%nat ->
     (forall i, (i < cm_K m)%nat -> M i b = if Nat.ltb i a then cm_A m' i b else cm_A m i b) ->
     let L x := lsum (map (hawkes_loglik (ct_with_A m' (upd2 M a b x))) data) in
     (cm_A m' a b = true <-> td_uA dr a b < edge_posterior (n_P n' a b) (L false) (L true))).
Proof.
  intros lgam dr m m' Hi Hdr E data n'. pose proof (inv_params Hi) as Hp. pose proof (iv_hyp Hi) as (H1 & H2 & H3 & H4 & H5).
  destruct (@C45_sweep lgam dr m Hi Hdr) as (m2 & E2 & Hi' & _ & EK' & ED' & EC' & _). assert (m2 = m') as -> by congruence. clear E2.
  unfold ct_sweep in E. apply bindr_ok in E as (data1 & E1 & E).
  set (no := net_resample lgam (td_net dr) (td_er dr) (cm_A m) (cm_W m) (cm_net m)).
  set (mb := cm_with_data m data1).
  set (mi := cm_set mb (ct_bias_resample (td_bias dr) mb data1) (cm_A m) (cm_W m) (cm_mu m) (cm_tau m) (cm_net m) data1).
  set (mt := ct_imp_resample (td_g dr) (td_nrm dr) mi data1).
  set (mn := cm_set mi (ct_bias_resample (td_bias dr) mb data1) (cm_A m) (cm_W m) (fun a b => fst (mt a b)) (fun a b => snd (mt a b)) no data1).
  assert (Em : m' = ct_weights_resample (td_order dr) (td_norder dr) (td_W dr) (td_uA dr) mn data1) by (now injection E as <-).
  clear E.
  assert (Edata : data = data1) by (unfold data; rewrite Em; reflexivity).
  assert (Eno : cm_net m' = no) by (rewrite Em; reflexivity).
  assert (Elam : cm_lam m' = ct_bias_resample (td_bias dr) mb data1) by (rewrite Em; reflexivity).
  assert (Emu : cm_mu m' = fun a b => fst (mt a b)) by (rewrite Em; reflexivity).
  assert (Etau : cm_tau m' = fun a b => snd (mt a b)) by (rewrite Em; reflexivity).
  assert (EW : cm_W m' = ct_W_resample (td_W dr) (net_view no) (cm_A m) data1) by (rewrite Em; reflexivity).
  destruct (@resample_all_ok m dr _ Hdr Hp (cm_data m) 0) as (data2 & E2 & Ev & Hd).
  { intros d Hin. destruct (iv_data Hi d Hin) as (A & B & _). auto. }
  assert (data2 = data1) as -> by congruence. clear E2.
  destruct (@ct_resample_all_nth _ _ _ _ _ E1) as (Len & Hnth).
  pose proof Hdr as (Hu & Ho & _ & _ & _ & _ & _ & HuA & Hor).
  assert (Hst : forall mm d, cm_K mm = cm_K m -> cm_dtmax mm = cm_dtmax m -> In d data1 -> stats_ok mm d).
  { intros mm d EKm EDm Hin. destruct (Hd d Hin) as (_ & _ & C & _). revert C. apply stats_ok_ext; auto. }
  rewrite Edata. unfold n'. rewrite Eno.
  assert (Hno : net_ok (cm_K m) no) by (rewrite <- Eno, <- EK'; exact (iv_net Hi')).
  destruct (@net_view_ok _ _ Hno) as (Hk & Hv).
  split; [split; [exact Len|]|split; [|split; [|split; [reflexivity|split]]]].
  - intros j d d' Hj Hj'. assert (Hin : In d (cm_data m)) by (eapply nth_error_In; eauto).
    destruct (@C59_parent_update m (td_norder dr d) (td_u dr (0 + j)%nat) d Hp (proj1 (iv_data Hi d Hin)) (Ho d)) as (d2 & E2 & Eev & _ & Hz); [intros; apply Hu|].
    pose proof (Hnth j d d' Hj Hj') as E3. assert (d2 = d') as -> by congruence. split; [exact Eev|].
    intros n i Hn Hin'. destruct (Hz n Hn) as (_ & Q & _). exact (Q i Hin').
  - intros k. rewrite Elam. unfold ct_bias_resample. split.
    + intros ->. cbn. now rewrite !Rplus_0_r.
    + intros pre d Ed. rewrite Ed, map_app. cbn [map]. rewrite C23_only_last_data_set.
      assert (Hin : In d data1) by (rewrite Ed; apply in_or_app; right; now left).
      unfold ct_bias_request, ct_bias_ss. cbn [fold_left cd_stat cs_bkgd cs_T].
      rewrite (st_bkgd (Hst m d eq_refl eq_refl Hin) k). reflexivity.
  - intros a b. rewrite Emu, Etau. unfold mt, ct_imp_resample.
    rewrite (@C65_actual_request mi data1 a b); [|intros d Hin; apply Hst; auto|exact H3].
    change (cm_mu0 mi) with (cm_mu0 m). change (cm_lmbda0 mi) with (cm_lmbda0 m). change (cm_alpha0 mi) with (cm_alpha0 m).
    change (cm_beta0 mi) with (cm_beta0 m).
    assert (Ead : all_delays mi a b data1 = all_delays m a b data1) by reflexivity.
    assert (Ebt : between mi a b data1 = between m a b data1) by reflexivity.
    rewrite Ead, Ebt. destruct (post_params _ _ _ _ _) as [[[mu l] al] be]. exists mu, l, al, be. cbn [sample_nig fst snd]. auto.
  - intros a b Ha Hb. rewrite EW.
    destruct (@C77_weight_posterior lgam (td_W dr) m (net_view no) (cm_A m) data1 a b Hk) as (sh & sc & X1 & X2 & X3 & _ & X5).
    + now apply Hv.
    + intros d Hin. now apply Hst.
    + intros HA d' Hin. apply In_nth_error in Hin as (j & Hj').
      destruct (nth_error (cm_data m) j) as [d|] eqn:Hj.
      2:{ apply nth_error_None in Hj. assert (nth_error data1 j = None) by (apply nth_error_None; lia). congruence. }
      assert (Hin : In d (cm_data m)) by (eapply nth_error_In; eauto).
      apply (@C77_no_children_without_edge m (td_norder dr d) (td_u dr (0 + j)%nat) d d' Hp (proj1 (iv_data Hi d Hin)) (Ho d)); auto.
    + exists sh, sc. auto.
  - intros a b M Ha Hb HM.
    destruct (@C76_edges_from_posterior (td_order dr) (td_norder dr) (td_W dr) (td_uA dr) mn data1) as (_ & P).
    + exact Hno.
    + intros k Hk'. assert (X := iv_lam Hi'). rewrite EK', Elam in X. now apply X.
    + intros i j Hii Hjj. assert (X := iv_tau Hi'). rewrite EK', Etau in X. now apply X.
    + intros d Hin. split; [apply Hd; auto|apply Ho].
    + auto.
    + exact Hor.
    + rewrite <- Em. change (cm_K mn) with (cm_K m). assert (X := iv_W Hi'). rewrite EK' in X. intros i j Hii Hjj. apply Rlt_le. auto.
    + rewrite <- Em in P. destruct (P a b M Ha Hb) as (_ & Q); [exact HM|]. exact Q.
Qed.
Print Assumptions C82_continuous_sweep.

(** Hypotheses met: a freshly built model, two events added and one sweep made. *)
Example C82_nonvacuous : forall lgam,
  let hist := [CTAdd {| tv_isarray := true; tv_dims := [2%nat]; tv_isfloat := true; tv_at := fun n => INR n |}
                     {| iv_isarray := true; iv_dims := [2%nat]; iv_isint := true; iv_at := fun _ => 0%Z |} 3 true;
               CTSweep (ex_ct_draws 1)] in
  let m := ct_run lgam hist (ct_construct 1 2 1 1 0 1 1 1 true ex_net_ct (ex_ct_draws 1)) in
  ct_inv m /\ ct_draws_ok (cm_K m) (net_C (cm_net m)) (ex_ct_draws 1) /\ length (cm_data m) = 1%nat /\
  exists m', ct_sweep lgam (ex_ct_draws 1) m = Ok m'.
Proof.
  intros lgam hist m. set (m0 := ct_construct 1 2 1 1 0 1 1 1 true ex_net_ct (ex_ct_draws 1)) in *.
  assert (I0 : ct_inv m0) by (apply C45_construct; try lra; [exact ex_net_ct_ok|apply ex_ct_draws_ok]).
  unfold m, ct_run, hist. cbn [fold_left].
  match goal with |- context [CTAdd ?a ?b ?c ?d] => set (o1 := CTAdd a b c d) end.
  set (m1 := snd (ct_step lgam o1 m0)).
  destruct (@C45_step lgam o1 m0 I0) as (I1 & K1 & _ & C1 & _ & Hacc & _). { cbn [o1 ctop_ok]. lra. }
  fold m1 in I1, K1, C1.
  destruct Hacc as (_ & d & Ed & _). { exact (proj2 (proj2 (proj2 C45_nonvacuous))). }
  assert (L1 : length (cm_data m1) = 1%nat) by (unfold m1; rewrite Ed; reflexivity).
  destruct (@C45_step lgam (CTSweep (ex_ct_draws 1)) m1 I1) as (I2 & K2 & _ & C2 & _ & _ & Ev).
  { cbn [ctop_ok]. rewrite K1, C1. apply ex_ct_draws_ok. }
  set (m2 := snd (ct_step lgam (CTSweep (ex_ct_draws 1)) m1)) in *.
  assert (D2 : ct_draws_ok (cm_K m2) (net_C (cm_net m2)) (ex_ct_draws 1)) by (rewrite K2, K1, C2, C1; apply ex_ct_draws_ok).
  split; [exact I2|]. split; [exact D2|]. split.
  - rewrite <- (map_length events), Ev, map_length. exact L1.
  - destruct (@C45_sweep lgam (ex_ct_draws 1) m2 I2 D2) as (m3 & E & _). eauto.
Qed.
