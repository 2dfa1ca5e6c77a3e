(** * Props_Sweep2: property C81: within one Gibbs sweep every block is drawn conditionally on the
    current values of the others. *)
From Coq Require Import Permutation.
From Verif Require Import Prelude ExtReal Arrays Spec_Basis Spec_Discrete Spec_Parents Spec_Gibbs Spec_Network
  M_Basis M_Parents M_Discrete M_Gibbs M_Dist M_Network M_Sweep L_Basis L_Discrete L_Parents L_Gibbs L_Network
  Props_Discrete Props_Parents Props_Gibbs Props_Network L_Sweep Props_Sweep.
Set Implicit Arguments.
Open Scope R_scope.

Lemma resample_parents_nth use_gsl mult q data : forall i data', resample_parents use_gsl mult q i data = Ok data' ->
  length data' = length data /\
  forall j p p', nth_error data j = Some p -> nth_error data' j = Some p' -> pa_resample use_gsl (mult (i + j)%nat) p q = Ok p'.
Proof.
  induction data as [|p data IH]; intros i data' E; cbn [resample_parents] in E.
  - injection E as <-. split; [reflexivity|]. intros [|j]; discriminate.
  - apply bindr_ok in E as (p1 & E1 & E). apply bindr_ok in E as (rest & E2 & E). injection E as <-.
    destruct (IH _ _ E2) as [El Hn]. split; [cbn; congruence|]. intros [|j] x y; cbn [nth_error]; intros Hx Hy.
    + injection Hx as <-. injection Hy as <-. now rewrite Nat.add_0_r.
    + rewrite <- Nat.add_succ_comm. eauto.
Qed.

(** The parents drawn in the sweep: data set j is reassigned from its previous contents with the parameters in
    force BEFORE the sweep (C14, C16 and C19 say what that draw is). *)
Definition parents_given (d : sweep_draws) (st : gibbs) (data' : list parents) : Prop :=
  length data' = length (dm_data (gi_m st)) /\
  forall j p p', nth_error (dm_data (gi_m st)) j = Some p -> nth_error data' j = Some p' ->
    pa_resample (h_gsl (gi_h st)) (sd_mult d j) p
      {| q_lam := dm_lam (gi_m st); q_W := net_weight (gi_m st); q_g := dm_g (gi_m st) |} = Ok p'.
(** The background rate of process k is drawn from its posterior given the events that [data] attributes to the
    background. *)
Definition bias_given (lgam : R -> R) (d : sweep_draws) (h : hypers) (data : list parents) (k : nat) (lam : R) : Prop :=
  exists a s, lam = sd_bias d k a s /\ 0 < a /\ 0 < s /\
  same_law (fun x => 0 < x) (fun x => gamma_lpdf lgam a (/ s) x)
    (fun x => gamma_lpdf lgam (h_alpha h) (h_beta h) x
      + lsum (map (fun p => Rsum (pa_T p) (fun t => pois_loglik (IZR (attributed p t k 0)) (pa_dt p) x)) data)).
(** The impulse response of a pair is drawn from its posterior given the bases of the events that [data] attributes
    to that pair. *)
Definition impulse_given (lgam : R -> R) (d : sweep_draws) (h : hypers) (B : nat) (data : list parents) (k1 k2 : nat)
    (g : vec) : Prop :=
  exists al, (forall b, g b = sd_ir d k1 k2 al b) /\ (forall b, (b < B)%nat -> 0 < al b) /\
  same_law (open_simplex B) (dirichlet_lpdf lgam B al)
    (fun x => dirichlet_lpdf lgam B (h_gamma h) x + lsum (map (fun p => basis_loglik p k1 k2 x) data)).
(** A spike-and-slab weight is drawn from its posterior given the edge indicator [a], the network's law for the
    weights and the events that [data] attributes to the pair. *)
Definition weight_given (lgam : R -> R) (d : sweep_draws) (n : net) (a : bool) (data : list parents) (k1 k2 : nat)
    (w : R) : Prop :=
  exists sh sc, w = sd_W d k1 k2 sh sc /\ 0 < sh /\ 0 < sc /\
  same_law (fun w => 0 < w) (fun w => gamma_lpdf lgam sh (/ sc) w)
    (fun w => gamma_lpdf lgam (n_kappa n) (n_V n k1 k2) w
      + if a then lsum (map (fun p => pois_loglik (IZR (children p k1 k2)) (IZR (n_events (pa_T p) (pa_S p) k1)) w) data)
        else 0).

Lemma params_of_net m : params_of m = {| q_lam := dm_lam m; q_W := net_weight m; q_g := dm_g m |}.
Proof.
  unfold params_of. f_equal. apply FunctionalExtensionality.functional_extensionality. intros k1.
  apply FunctionalExtensionality.functional_extensionality. intros k2. apply W_effective_net.
Qed.

Section Common.
Variables (lgam : R -> R) (d : sweep_draws) (st : gibbs) (data : list parents).
Let m := gi_m st.
Let h := gi_h st.
Hypothesis Hfix : fixed_ok st.
Hypothesis Hdom : domain st.
Hypothesis Hc : draws_contract (dm_K m) (dm_B m) (net_C (gi_net st)) d.
Hypothesis Ep : resample_parents (h_gsl h) (sd_mult d) (params_of m) 0 (dm_data m) = Ok data.

Lemma sw_reassigned : Forall2 (reassigned (params_of m)) (dm_data m) data.
Proof.
  assert (Hnn := nonneg_of_domain Hfix Hdom). pose proof Hdom as [Hl HW Hg Hn Hd]. destruct Hc as (Cm & _).
  destruct (@resample_parents_ok (h_gsl h) (sd_mult d) (params_of m) (dm_data m) 0) as (data' & Ep' & Hre).
  { intros p Hin. destruct (Hd p Hin) as (EK & EB & _ & HF & Hfit & _). split; [|split; [exact Hfit|]].
    - destruct Hnn as (N1 & N2 & N3 & _). rewrite <- EK in N1, N2, N3. rewrite <- EB in N3.
      split; [exact N1|]. split; [|split; [exact N3|exact HF]].
      intros k1 k2 H1 H2. cbn [params_of q_W]. rewrite W_effective_net. apply net_weight_nonneg; [|unfold m; lia|unfold m; lia].
      intros i j Hi Hj. left. auto.
    - rewrite EK, EB. exact Cm. }
  congruence.
Qed.
Lemma sw_data p : In p data -> pa_K p = dm_K m /\ pa_B p = dm_B m /\ pa_dt p = dm_dt m /\
     nonneg_F p /\ fits p /\ nonneg_Z p /\ consistent p.
Proof.
  intros Hin. destruct (@Forall2_in_r _ _ _ _ _ _ sw_reassigned Hin) as (p0 & Hin0 & (Z' & ->) & Hz & Hcn & _).
  destruct (dom_data Hdom _ Hin0) as (EK & EB & Edt & HF & Hfit & _). fold m in EK, EB, Edt. auto 10.
Qed.
Lemma sw_events p k : In p data -> (k < dm_K m)%nat -> (0 <= n_events (pa_T p) (pa_S p) k)%Z.
Proof.
  intros Hin Hk. destruct (@sw_data _ Hin) as (EK & _ & _ & _ & Hf & _). apply Zsum_nonneg. intros t Ht. apply Hf; auto. lia.
Qed.
Lemma sw_parents : parents_given d st data.
Proof.
  destruct (@resample_parents_nth _ _ _ _ _ _ Ep) as [El Hn]. split; [exact El|]. intros j p p' H1 H2.
  rewrite <- params_of_net. exact (Hn j p p' H1 H2).
Qed.
Lemma sw_bias k : bias_given lgam d h data k (bias_resample (sd_bias d) (h_alpha h) (h_beta h) data k).
Proof.
  destruct Hfix as ((Ha & Hb & _) & Hdt & _). apply C20_background_posterior; auto.
  intros p Hin. destruct (@sw_data _ Hin) as (_ & _ & Edt & _ & _ & Hz & _). rewrite Edt. auto.
Qed.
Lemma sw_impulse k1 k2 : impulse_given lgam d h (dm_B m) data k1 k2 (ir_resample (sd_ir d) (h_gamma h) data k1 k2).
Proof.
  destruct Hfix as ((_ & _ & Hg & _) & _).
  destruct (@C22_impulse_posterior lgam (sd_ir d) (dm_B m) (h_gamma h) data k1 k2) as (al & E & Hp & Hs & _).
  - exact Hg.
  - intros p Hin. destruct (@sw_data _ Hin) as (_ & EB & _ & _ & _ & Hz & _). auto.
  - exists al. auto.
Qed.
Lemma sw_no_children k1 k2 p : (k1 < dm_K m)%nat -> (k2 < dm_K m)%nat -> dm_mix m = false -> dm_A m k1 k2 = false ->
  In p data -> children p k1 k2 = 0%Z.
Proof.
  intros H1 H2 Hm HA Hin. destruct (@Forall2_in_r _ _ _ _ _ _ sw_reassigned Hin) as (p0 & Hin0 & (Z' & ->) & _ & _ & H4).
  destruct (dom_data Hdom _ Hin0) as (EK & EB & _). fold m in EK, EB. unfold children.
  apply Zsum_0; intros t Ht. apply Zsum_0; intros b Hb. cbn [set_Z pa_T pa_B] in *. apply H4; auto; try lia.
  cbn [params_of q_W]. rewrite W_effective_net. unfold net_weight. rewrite Hm. unfold edge_weight. rewrite HA. ring.
Qed.
End Common.

(** C81 for the spike-and-slab model: parents from the old parameters; background rates, impulse responses from the
    NEW parents; the network from the old A and W; weights from the new parents, the NEW network and the old A;
    the edges, one after the other, given everything new (data likelihood with the new background rates, impulse
    responses and weights, prior probabilities from the new network). *)
Theorem C81_spike_and_slab_sweep :
  forall lgam rn d st st',
  fixed_ok st -> domain st -> no_self st -> dm_mix (gi_m st) = false ->
  draws_contract (dm_K (gi_m st)) (dm_B (gi_m st)) (net_C (gi_net st)) d ->
  sweep lgam rn d st = Ok st' ->
  let m := gi_m st in let m' := gi_m st' in let n' := net_view (gi_net st') in
  parents_given d st (dm_data m') /\
  (forall k, bias_given lgam d (gi_h st) (dm_data m') k (dm_lam m' k)) /\
  (forall k1 k2, impulse_given lgam d (gi_h st) (dm_B m) (dm_data m') k1 k2 (dm_g m' k1 k2)) /\
  gi_net st' = net_resample lgam (sd_net d) (sd_er d) (dm_A m) (dm_W m) (gi_net st) /\
  (forall k1 k2, (k1 < dm_K m)%nat -> (k2 < dm_K m)%nat ->
     weight_given lgam d n' (dm_A m k1 k2) (dm_data m') k1 k2 (dm_W m' k1 k2)) /\
  (forall k1 k2 (M : bmat), (k1 < dm_K m)%nat -> (k2 < dm_K m)%nat ->
     (forall i, (i < dm_K m)%nat -> M i k2 = if Nat.ltb i k1 then dm_A m' i k2 else dm_A m i k2) ->
     exists L0 L1,
       log_likelihood (with_A m' (upd2 M k1 k2 false)) All = Ok (Fin L0) /\
       log_likelihood (with_A m' (upd2 M k1 k2 true)) All = Ok (Fin L1) /\
       (dm_A m' k1 k2 = true <-> sd_u d k1 k2 < edge_posterior (n_P n' k1 k2) L0 L1)).
Proof.
  intros lgam rn d st st' Hfix Hdom Hns Hmix Hc E m m' n'.
  destruct (@sweep_step lgam rn d st Hfix Hdom Hns Hc) as (st2 & E2 & D2 & _ & (Y1 & Y2 & Y3 & Y4 & Y5 & Y6 & Y7 & _) & _).
  assert (st2 = st') as -> by congruence. clear E2.
  assert (Hfix' : fixed_ok st').
  { unfold fixed_ok. rewrite Y1 || idtac. rewrite Y2, Y3, Y4, Y5, Y7. exact Hfix. }
  unfold sweep in E. rewrite Hmix in E. unfold ss_sweep in E.
  apply bindr_ok in E as (data & Ep & E).
  set (no := net_resample lgam (sd_net d) (sd_er d) (dm_A (gi_m st)) (dm_W (gi_m st)) (gi_net st)).
  assert (Eno : gi_net st' = no) by (now injection E as <-).
  assert (Edata : dm_data m' = data) by (unfold m'; now injection E as <-).
  assert (Elam : dm_lam m' = bias_resample (sd_bias d) (h_alpha (gi_h st)) (h_beta (gi_h st)) data)
    by (unfold m'; now injection E as <-).
  assert (Eg : dm_g m' = ir_resample (sd_ir d) (h_gamma (gi_h st)) data) by (unfold m'; now injection E as <-).
  assert (EW : dm_W m' = ss_W_resample (sd_W d) (net_view no) (dm_A m) data) by (unfold m'; now injection E as <-).
  assert (EA : dm_A m' = if h_parallel (gi_h st) then resample_A_parallel (sd_order d) (with_A m' (dm_A m)) (net_view no) (sd_u d) data
                         else resample_A_serial (with_A m' (dm_A m)) (net_view no) (sd_u d) data)
    by (unfold m'; injection E as <-; destruct (h_parallel (gi_h st)); reflexivity).
  clear E. rewrite Edata, Elam, Eg.
  split; [eapply sw_parents; eauto|]. split; [intros; eapply sw_bias; eauto|].
  split; [intros; eapply sw_impulse; eauto|]. split; [exact Eno|].
  assert (Hn' : net_ok (dm_K m) no).
  { assert (X := dom_net D2). rewrite Eno, Y1 in X. exact X. }
  destruct (@net_view_ok _ _ Hn') as (Hk & Hv).
  unfold n'. rewrite Eno. split.
  - intros k1 k2 H1 H2. rewrite EW.
    destruct (@C21_weight_posterior lgam (sd_W d) (net_view no) (dm_A m) data k1 k2 Hk) as (a & s & X1 & X2 & X3 & _ & X5).
    + now apply Hv.
    + intros p Hin. split; [eapply (@sw_data d st data Hfix Hdom Hc Ep p Hin)|eapply (@sw_events d st data Hfix Hdom Hc Ep p k1 Hin H1)].
    + intros HA p Hin. exact (@sw_no_children d st data Hfix Hdom Hc Ep k1 k2 p H1 H2 Hmix HA Hin).
    + exists a, s. auto.
  - intros k1 k2 M H1 H2 HM. set (mm := with_A m' (dm_A m)) in EA.
    assert (EK : dm_K mm = dm_K m) by exact Y1.
    destruct (@C25_edges_from_posterior (h_parallel (gi_h st)) (sd_order d) mm (net_view no) (sd_u d)) with (k1 := k1) (k2 := k2) (M := M)
      as (L0 & L1 & X1 & X2 & X3).
    + change (dm_mix m' = false). unfold m'. congruence.
    + exact (nonneg_of_domain Hfix' D2).
    + intros p Hin. destruct (dom_data D2 p Hin) as (? & ? & ? & ? & _). auto.
    + intros i j Hi Hj. rewrite EK in Hi, Hj. split; [|now apply Hv]. destruct Hc as (_ & _ & _ & _ & _ & _ & Cu & _). apply Cu.
    + rewrite EK. destruct Hc as (_ & _ & _ & _ & _ & _ & _ & Co). exact Co.
    + now rewrite EK.
    + now rewrite EK.
    + change (dm_data mm) with (dm_data m'). rewrite Edata, <- EA, EK. exact HM.
    + change (dm_data mm) with (dm_data m') in X3. rewrite Edata, <- EA in X3. exists L0, L1. auto.
Qed.
Print Assumptions C81_spike_and_slab_sweep.

(** C81 for the gamma-mixture model: here the weights come before the network, which is drawn from the NEW A and W
    (or left alone when resample_network is False). *)
Theorem C81_mixture_sweep :
  forall lgam rn d st st',
  fixed_ok st -> domain st -> no_self st -> dm_mix (gi_m st) = true ->
  draws_contract (dm_K (gi_m st)) (dm_B (gi_m st)) (net_C (gi_net st)) d ->
  sweep lgam rn d st = Ok st' ->
  let m := gi_m st in let m' := gi_m st' in let n := net_view (gi_net st) in let h := gi_h st in
  parents_given d st (dm_data m') /\
  (forall k, bias_given lgam d h (dm_data m') k (dm_lam m' k)) /\
  (forall k1 k2, impulse_given lgam d h (dm_B m) (dm_data m') k1 k2 (dm_g m' k1 k2)) /\
  (forall k1 k2, (k1 < dm_K m)%nat -> (k2 < dm_K m)%nat ->
     exists (M : bool -> R) a s,
     (dm_A m' k1 k2 = true <-> sd_u d k1 k2 < edge_posterior (n_P n k1 k2) (M false) (M true)) /\
     dm_W m' k1 k2 = Rmax (/ 10 ^ 32) (sd_W d k1 k2 a s) /\ 0 < a /\ 0 < s /\
     forall w, 0 < w -> mix_joint lgam (h_kappa0 h) (h_nu0 h) n (dm_data m') k1 k2 (dm_A m' k1 k2) w
                        = M (dm_A m' k1 k2) + gamma_lpdf lgam a (/ s) w) /\
  gi_net st' = (if rn then net_resample lgam (sd_net d) (sd_er d) (dm_A m') (dm_W m') (gi_net st) else gi_net st).
Proof.
  intros lgam rn d st st' Hfix Hdom Hns Hmix Hc E m m' n h.
  unfold sweep in E. rewrite Hmix in E. unfold mix_sweep in E.
  apply bindr_ok in E as (data & Ep & E).
  assert (Edata : dm_data m' = data) by (unfold m'; now injection E as <-).
  assert (Elam : dm_lam m' = bias_resample (sd_bias d) (h_alpha (gi_h st)) (h_beta (gi_h st)) data)
    by (unfold m'; now injection E as <-).
  assert (Eg : dm_g m' = ir_resample (sd_ir d) (h_gamma (gi_h st)) data) by (unfold m'; now injection E as <-).
  assert (Em : exists m1, dm_data m1 = data /\ m' = mix_resample lgam (h_kappa0 h) (h_nu0 h) (sd_W d) (sd_u d) n m1).
  { unfold m'. injection E as <-. eexists. split; [|reflexivity]. reflexivity. }
  assert (Eno : gi_net st' = (if rn then net_resample lgam (sd_net d) (sd_er d) (dm_A m') (dm_W m') (gi_net st) else gi_net st))
    by (unfold m'; now injection E as <-).
  clear E. rewrite Edata, Elam, Eg.
  split; [eapply sw_parents; eauto|]. split; [intros; eapply sw_bias; eauto|].
  split; [intros; eapply sw_impulse; eauto|]. split; [|exact Eno].
  destruct (@net_view_ok _ _ (dom_net Hdom)) as (Hk & Hv).
  intros k1 k2 H1 H2. destruct Em as (m1 & Ed1 & ->). rewrite <- Ed1.
  apply C24_weight_model_update.
  - pose proof Hfix as ((_ & _ & _ & Hk0 & Hn0) & _). split; [exact Hk0|]. split; [exact Hn0|]. split; [exact Hk|].
    split; [now apply Hv|]. rewrite Ed1. intros p Hin. split; [eapply (@sw_data d st data Hfix Hdom Hc Ep p Hin)|eapply (@sw_events d st data Hfix Hdom Hc Ep p k1 Hin H1)].
  - destruct Hc as (_ & _ & _ & _ & _ & _ & Cu & _). apply Cu.
  - now apply Hv.
Qed.
Print Assumptions C81_mixture_sweep.

(** The block model's own step: p and v given the old labels; labels given the NEW p and v; m given the NEW labels.
    A network whose values were all supplied is never touched; with fixed sparsity p is kept. *)
Theorem C81_network_sweep :
  forall lgam fixed_p d A W s,
  let s' := sbm_resample lgam fixed_p d A W s in
  (sb_fixed s = true -> s' = s) /\
  (sb_fixed s = false ->
   (forall c1 c2, sb_p s' c1 c2 = if fixed_p then sb_p s c1 c2
       else gd_beta d c1 c2 (sb_tau1 s + block_sum (sb_K s) (sb_c s) c1 c2 (fun i j => b2R (A i j)))
                            (sb_tau0 s + block_sum (sb_K s) (sb_c s) c1 c2 (fun i j => 1 - b2R (A i j)))) /\
   (forall c1 c2, sb_v s' c1 c2 =
       gd_gamma d c1 c2 (sb_alpha s + block_sum (sb_K s) (sb_c s) c1 c2 (fun i j => b2R (A i j)) * sb_kappa s)
                        (1 / (sb_beta s + block_sum (sb_K s) (sb_c s) c1 c2 (fun i j => if A i j then W i j else 0)))) /\
   sb_c s' = resample_c lgam (gd_pick d) (sb_set s (sb_m s) (sb_c s) (sb_p s') (sb_v s')) A W /\
   sb_m s' = gd_dir d (fun b => sb_pi s b + Rsum (sb_K s) (fun k => if (sb_c s' k =? b)%nat then 1 else 0))).
Proof.
  intros lgam fixed_p d A W s s'. unfold s', sbm_resample. destruct (sb_fixed s); [split; [reflexivity|discriminate]|].
  split; [discriminate|]. intros _. destruct fixed_p; cbn [sb_set sb_p sb_v sb_c sb_m p_request v_request];
    (split; [reflexivity|]; split; [reflexivity|]; split; reflexivity).
Qed.
Print Assumptions C81_network_sweep.

(** After construction, one add_data and one sweep, both models meet the hypotheses, with a data set stored. *)
Example C81_nonvacuous : forall lgam mix bas, (forall l b, 0 <= bas l b) ->
  let st := grun lgam ex_hist27 (construct lgam mix 1 1 1 2 bas ex_hyp (ex_er 1) (ex_draws 1 1 ex_last)) in
  fixed_ok st /\ domain st /\ no_self st /\ dm_mix (gi_m st) = mix /\ length (dm_data (gi_m st)) = 1%nat /\
  draws_contract (dm_K (gi_m st)) (dm_B (gi_m st)) (net_C (gi_net st)) (ex_draws 1 1 ex_last).
Proof.
  intros lgam mix bas Hb st.
  destruct (@construct_ok lgam mix 1 1 1 2 bas ex_hyp (ex_er 1) (ex_draws 1 1 ex_last) (ex_hyp_ok 1) (ex_er_ok 1)
     (@ex_draws_ok 1 1 ex_last ltac:(lia) ex_last_ok) ltac:(lra) ltac:(auto))
     as (F0 & D0 & N0 & EK & EB & EN & EM & ED).
  destruct (@grun_ok lgam ex_hist27 _ 1 1 1 F0 D0 N0 EK EB ltac:(now rewrite EN) ex_hist27_ok)
    as (F1 & D1 & N1 & (Y1 & Y2 & Y3 & Y4 & Y5 & Y6 & Y7 & Y8 & Y9)). fold st in F1, D1, N1, Y1, Y2, Y6, Y9.
  split; [exact F1|]. split; [exact D1|]. split; [exact N1|]. split; [congruence|]. split.
  - unfold st, ex_hist27. cbn [grun]. set (st0 := construct _ _ _ _ _ _ _ _ _ _) in *.
    destruct (@add_step lgam _ _ None st0 1 1 1 (ex_hist27_ok (or_introl eq_refl)) F0 D0 N0) as (D2 & N2 & (Z1 & Z2 & _ & _ & _ & _ & Z7 & _ & Z9)).
    match goal with |- context [gstep lgam (GSweep true _) ?x] => set (st1 := x) in * end.
    assert (F2 : fixed_ok st1) by (unfold st1; clear -F0; revert F0; unfold st0; destruct mix; intros F0; exact F0).
    destruct (@sweep_step lgam true (ex_draws 1 1 ex_last) st1 F2 D2 N2) as (st2 & E2 & _ & _ & _ & El & _).
    { rewrite Z1, Z2, Z9, EK, EB, EN. apply (@ex_draws_ok 1 1 ex_last); [lia|apply ex_last_ok]. }
    cbn [gstep]. rewrite E2. cbn [snd]. rewrite El.
    assert (E1 : dm_data (gi_m st1) = dm_data (gi_m st0) ++ [mk_parents 1 1 1 2 (fun _ _ => 1%Z) (fun t _ _ => if Nat.eqb t 0 then 0 else 1)])
      by (unfold st1, st0; destruct mix; reflexivity).
    rewrite E1, app_length, ED. reflexivity.
  - rewrite Y1, Y2, Y9, EK, EB, EN. apply ex_draws_ok; [lia|apply ex_last_ok].
Qed.
