(** * Props_Sweep: properties C27 and C44: whole histories of construction, add_data and
    Gibbs sweeps of the discrete-time network models. *)
From Coq Require Import Permutation.
From Verif Require Import Prelude ExtReal Arrays Spec_Basis Spec_Discrete Spec_Parents Spec_Gibbs Spec_Network
  M_Basis M_Parents M_Discrete M_Gibbs M_Dist M_Network M_Sweep L_Basis L_Discrete L_Parents L_Gibbs L_Network
  Props_Discrete Props_Parents Props_Gibbs Props_Network L_Sweep.
Set Implicit Arguments.
Open Scope R_scope.

(** A data set that has never been resampled: no event has a parent yet. *)
Definition unassigned (d : parents) : Prop := forall t k c, attributed d t k c = 0%Z.

(** The parameter domain. *)
Record domain (st : gibbs) : Prop := {
  dom_lam : forall k, (k < dm_K (gi_m st))%nat -> 0 < dm_lam (gi_m st) k;
  dom_W : forall k1 k2, (k1 < dm_K (gi_m st))%nat -> (k2 < dm_K (gi_m st))%nat -> 0 < dm_W (gi_m st) k1 k2;
  dom_g : forall k1 k2, (k1 < dm_K (gi_m st))%nat -> (k2 < dm_K (gi_m st))%nat ->
            open_simplex (dm_B (gi_m st)) (dm_g (gi_m st) k1 k2);
  dom_net : net_ok (dm_K (gi_m st)) (gi_net st);
  dom_data : forall d, In d (dm_data (gi_m st)) ->
     pa_K d = dm_K (gi_m st) /\ pa_B d = dm_B (gi_m st) /\ pa_dt d = dm_dt (gi_m st) /\
     nonneg_F d /\ fits d /\ nonneg_Z d /\ (unassigned d \/ consistent d) }.
(** What never changes: hyperparameters, bin width, basis. *)
Definition fixed_ok (st : gibbs) : Prop :=
  hypers_ok (dm_B (gi_m st)) (gi_h st) /\ 0 < dm_dt (gi_m st) /\
  (forall l b, (l < dm_L (gi_m st))%nat -> (b < dm_B (gi_m st))%nat -> 0 <= dm_bas (gi_m st) l b).
(** With self-connections disallowed there is no self edge, and no event has a parent in its own process. *)
Definition no_self (st : gibbs) : Prop :=
  net_allow (gi_net st) = false ->
  (forall k, (k < dm_K (gi_m st))%nat -> dm_A (gi_m st) k k = false) /\
  (dm_mix (gi_m st) = false -> forall d t k b, In d (dm_data (gi_m st)) -> (t < pa_T d)%nat -> (k < pa_K d)%nat ->
     (b < pa_B d)%nat -> attributed d t k (1 + (k * pa_B d + b)) = 0%Z).
Definition same_shape (st st' : gibbs) : Prop :=
  dm_K (gi_m st') = dm_K (gi_m st) /\ dm_B (gi_m st') = dm_B (gi_m st) /\ dm_L (gi_m st') = dm_L (gi_m st) /\
  dm_dt (gi_m st') = dm_dt (gi_m st) /\ dm_bas (gi_m st') = dm_bas (gi_m st) /\ dm_mix (gi_m st') = dm_mix (gi_m st) /\
  gi_h st' = gi_h st /\ net_allow (gi_net st') = net_allow (gi_net st) /\ net_C (gi_net st') = net_C (gi_net st).

(** Operations with valid arguments: counts that fit in 32 bits, non-negative filtered data when given,
    generators that respect their contracts. *)
Definition gop_ok (K B C : nat) (o : gop) : Prop :=
  match o with
  | GAdd s f _ => (forall t k, (sv_at s t k < 2 ^ 32)%Z) /\
                  (forall fv, f = Some fv -> forall t k b, 0 <= fv_at fv t k b)
  | GSweep _ d => draws_contract K B C d
  end.

(* ---------------- statistics are non-negative ---------------- *)
Lemma ir_ss_nonneg d k1 k2 b : nonneg_Z d -> (0 <= ir_ss d k1 k2 b)%Z.
Proof.
  intros H. destruct (C15_statistics_meaning d k2) as (_ & H2 & _). rewrite H2. apply Zsum_nonneg. intros; apply H.
Qed.
Lemma weight_ss0_nonneg d k1 k2 : nonneg_Z d -> (0 <= weight_ss0 d k1 k2)%Z.
Proof. intros H. rewrite weight_ss0_children. now apply children_nonneg. Qed.
Lemma weight_ss1_nonneg d k1 k2 : fits d -> (k1 < pa_K d)%nat -> (0 <= weight_ss1 d k1 k2)%Z.
Proof. intros H Hk. unfold weight_ss1. rewrite pa_Ns_sum. apply Zsum_nonneg. intros t Ht. apply H; auto. Qed.
Lemma pool_nonneg {A} (f : A -> R) l : (forall x, In x l -> 0 <= f x) -> 0 <= pool f l.
Proof. intros H. rewrite pool_lsum. now apply lsum_map_nonneg. Qed.

Section Step.
Variables (K B : nat) (dt : R) (h : hypers) (data : list parents).
Hypothesis Hh : hypers_ok B h.
Hypothesis Hdt : 0 < dt.
Hypothesis Hdata : forall d, In d data -> pa_K d = K /\ pa_B d = B /\ pa_dt d = dt /\ fits d /\ nonneg_Z d.

Lemma bias_resample_pos g k : (forall k, gamma_contract (g k)) -> 0 < bias_resample g (h_alpha h) (h_beta h) data k.
Proof.
  intros Hg. unfold bias_resample, bias_request. destruct Hh as (Ha & Hb & _). apply Hg.
  - assert (0 <= pool (fun d => IZR (bkgd_ss0 d k)) data); [|lra].
    apply pool_nonneg. intros d Hd. apply IZR_le, bkgd_ss0_nonneg. apply Hdata; auto.
  - apply Rdiv_lt_0_compat; [lra|]. assert (0 <= pool (fun d => bkgd_ss1 d k) data); [|lra].
    apply pool_nonneg. intros d Hd. unfold bkgd_ss1. destruct (@Hdata d Hd) as (_ & _ & -> & _).
    apply Rmult_le_pos; [apply pos_INR|lra].
Qed.
Lemma ir_resample_simplex dr k1 k2 : (forall k1 k2, dirichlet_contract B (dr k1 k2)) ->
  open_simplex B (ir_resample dr (h_gamma h) data k1 k2).
Proof.
  intros Hd. change (ir_resample dr (h_gamma h) data k1 k2) with (dr k1 k2 (ir_request (h_gamma h) data k1 k2)).
  apply Hd. intros b Hb. unfold ir_request. destruct Hh as (_ & _ & Hg & _). specialize (Hg b Hb).
  assert (0 <= pool (fun d => IZR (ir_ss d k1 k2 b)) data); [|lra].
  apply pool_nonneg. intros d Hin. apply IZR_le, ir_ss_nonneg. apply Hdata; auto.
Qed.
Lemma stats_nonneg k1 k2 : (k1 < K)%nat ->
  0 <= pool (fun d => IZR (weight_ss0 d k1 k2)) data /\ 0 <= pool (fun d => IZR (weight_ss1 d k1 k2)) data.
Proof.
  intros Hk. split; apply pool_nonneg; intros d Hd; destruct (@Hdata d Hd) as (EK & _ & _ & Hf & Hz); apply IZR_le.
  - now apply weight_ss0_nonneg.
  - apply weight_ss1_nonneg; auto. lia.
Qed.
Lemma ss_W_pos g no A k1 k2 : (forall a b, gamma_contract (g a b)) -> net_ok K no -> (k1 < K)%nat -> (k2 < K)%nat ->
  0 < ss_W_resample g (net_view no) A data k1 k2.
Proof.
  intros Hg Hn H1 H2. destruct (@net_view_ok _ _ Hn) as (Hk & Hv). destruct (Hv k1 k2 H1 H2) as (_ & HV & _).
  destruct (stats_nonneg k2 H1) as [S0 S1]. unfold ss_W_resample, ss_W_request. apply Hg.
  - lra.
  - apply Rdiv_lt_0_compat; [lra|]. pose proof (b2R_range (A k1 k2)). nra.
Qed.
Lemma mix_W_pos g no A k1 k2 : (forall a b, gamma_contract (g a b)) -> net_ok K no -> (k1 < K)%nat -> (k2 < K)%nat ->
  0 < mix_W_resample g (h_kappa0 h) (h_nu0 h) (net_view no) A data k1 k2.
Proof.
  intros Hg Hn H1 H2. unfold mix_W_resample. destruct (mix_W_request _ _ _ _ _ _ _).
  unfold clip_lo. assert (0 < / 10 ^ 32). { apply Rinv_0_lt_compat, pow_lt. lra. }
  eapply Rlt_le_trans; [exact H|apply Rmax_l].
Qed.
End Step.

Lemma Forall2_in_r {A B} (P : A -> B -> Prop) l l' y : Forall2 P l l' -> In y l' -> exists x, In x l /\ P x y.
Proof.
  induction 1 as [|a b l l' Hab H IH]; intros Hin; [destruct Hin|]. destruct Hin as [<-|Hin].
  - exists a. split; [now left|auto].
  - destruct (IH Hin) as (x & Hx & HP). exists x. split; [now right|auto].
Qed.

Lemma Forall2_len {A B} (P : A -> B -> Prop) l l' : Forall2 P l l' -> length l = length l'.
Proof. induction 1; cbn; congruence. Qed.

Lemma set_Z_facts d Z' : pa_T (set_Z d Z') = pa_T d /\ pa_K (set_Z d Z') = pa_K d /\ pa_B (set_Z d Z') = pa_B d /\
  pa_dt (set_Z d Z') = pa_dt d /\ pa_S (set_Z d Z') = pa_S d /\ pa_F (set_Z d Z') = pa_F d.
Proof. repeat split; reflexivity. Qed.

Lemma nonneg_of_domain st : fixed_ok st -> domain st -> nonneg_params (gi_m st).
Proof.
  intros (Hh & Hdt & Hb) [Hl HW Hg Hn Hd]. split; [exact Hl|]. split.
  - intros k1 k2 H1 H2. left. auto.
  - split; [|exact Hb]. intros k1 k2 b H1 H2 H3. destruct (Hg k1 k2 H1 H2) as [Hp _]. left. auto.
Qed.

(** One sweep never raises, stays in the domain, assigns every event a parent, and removes forbidden
    self-connections; if there were none before, no event has a parent over one either. *)
Lemma sweep_step_any lgam rn d st :
  fixed_ok st -> domain st ->
  draws_contract (dm_K (gi_m st)) (dm_B (gi_m st)) (net_C (gi_net st)) d ->
  exists st', sweep lgam rn d st = Ok st' /\ domain st' /\
    ((dm_mix (gi_m st) = false -> net_allow (gi_net st) = false -> forall k, (k < dm_K (gi_m st))%nat -> dm_A (gi_m st) k k = false) -> no_self st') /\
    (net_allow (gi_net st) = false -> forall k, (k < dm_K (gi_m st))%nat -> dm_A (gi_m st') k k = false) /\
    same_shape st st' /\
    Forall2 (fun p p' => exists Z', p' = set_Z p Z') (dm_data (gi_m st)) (dm_data (gi_m st')) /\
    (forall p, In p (dm_data (gi_m st')) -> consistent p).
Proof.
  intros Hfix Hdom Hc. assert (Hnn := nonneg_of_domain Hfix Hdom).
  destruct Hfix as (Hh & Hdt & Hbas). pose proof Hdom as [Hl HW Hg Hn Hd].
  destruct Hc as (Cm & Cb & Ci & (Cn1 & Cn2 & Cn3 & Cn4) & Ce & CW & Cu & Co).
  set (m := gi_m st) in *. set (h := gi_h st) in *.
  destruct (@resample_parents_ok (h_gsl h) (sd_mult d) (params_of m) (dm_data m) 0) as (data & Ep & Hre).
  { intros p Hin. destruct (Hd p Hin) as (EK & EB & _ & HF & Hfit & _). split; [|split; [exact Hfit|]].
    - destruct Hnn as (N1 & N2 & N3 & _). rewrite <- EK in N1, N2, N3. rewrite <- EB in N3.
      split; [exact N1|]. split; [|split; [exact N3|exact HF]].
      intros k1 k2 H1 H2. cbn [params_of q_W]. rewrite W_effective_net. apply net_weight_nonneg; [|lia|lia].
      intros i j Hi Hj. left. auto.
    - rewrite EK, EB. exact Cm. }
  assert (Hdata : forall p, In p data -> pa_K p = dm_K m /\ pa_B p = dm_B m /\ pa_dt p = dm_dt m /\
     nonneg_F p /\ fits p /\ nonneg_Z p /\ consistent p).
  { intros p Hin. destruct (@Forall2_in_r _ _ _ _ _ _ Hre Hin) as (p0 & Hin0 & (Z' & ->) & Hz & Hcn & _).
    destruct (Hd p0 Hin0) as (EK & EB & Edt & HF & Hfit & _). auto 10. }
  assert (Hdata5 : forall p, In p data -> pa_K p = dm_K m /\ pa_B p = dm_B m /\ pa_dt p = dm_dt m /\ fits p /\ nonneg_Z p).
  { intros p Hin. destruct (Hdata p Hin) as (? & ? & ? & ? & ? & ? & ?). auto 10. }
  assert (Hlen : length data = length (dm_data m)) by (symmetry; exact (@Forall2_len _ _ _ _ _ Hre)).
  assert (Hgood : forall m', dm_K m' = dm_K m -> dm_B m' = dm_B m -> dm_dt m' = dm_dt m -> good_data m' data).
  { intros m' E1 E2 E3 p Hin. destruct (Hdata p Hin) as (? & ? & ? & ? & _). rewrite E1, E2, E3. auto. }
  set (lam := bias_resample (sd_bias d) (h_alpha h) (h_beta h) data).
  set (g := ir_resample (sd_ir d) (h_gamma h) data).
  assert (Hlam : forall k, 0 < lam k) by (intros; unfold lam; eapply bias_resample_pos; eauto).
  assert (Hg' : forall k1 k2, open_simplex (dm_B m) (g k1 k2)).
  { intros. unfold g. eapply ir_resample_simplex with (K := dm_K m) (dt := dm_dt m); eauto. }
  assert (Hkept : Forall2 (fun p p' => exists Z', p' = set_Z p Z') (dm_data m) data).
  { clear - Hre. induction Hre as [|x y l l' Hxy H IH]; constructor; [apply Hxy|exact IH]. }
  assert (Hself : (dm_mix m = false -> net_allow (gi_net st) = false -> forall k, (k < dm_K m)%nat -> dm_A m k k = false) ->
     net_allow (gi_net st) = false -> dm_mix m = false ->
     forall p t k b, In p data -> (t < pa_T p)%nat -> (k < pa_K p)%nat -> (b < pa_B p)%nat ->
     attributed p t k (1 + (k * pa_B p + b)) = 0%Z).
  { intros Hns Hna Hmx p t k b Hin Ht Hk Hb. destruct (@Forall2_in_r _ _ _ _ _ _ Hre Hin) as (p0 & Hin0 & (Z' & ->) & _ & _ & H4).
    destruct (Hd p0 Hin0) as (EK & EB & _). cbn [set_Z pa_T pa_K pa_B] in Ht, Hk, Hb.
    rewrite EB in *. cbn [set_Z pa_B]. rewrite EB. apply H4; try lia.
    cbn [params_of q_W]. rewrite W_effective_net. unfold net_weight. rewrite Hmx. unfold edge_weight.
    rewrite (Hns Hmx Hna) by lia. ring. }
  unfold sweep. fold m. destruct (dm_mix m) eqn:Emix.
  - (* mixture *)
    unfold mix_sweep. fold m h. rewrite Ep. cbn [bindr]. eexists. split; [reflexivity|].
    set (m1 := with_g (with_lam (with_data m data) lam) g).
    set (A' := mix_resample_A lgam (h_kappa0 h) (h_nu0 h) (net_view (gi_net st)) (sd_u d) (dm_data m1)).
    set (m2 := mix_resample lgam (h_kappa0 h) (h_nu0 h) (sd_W d) (sd_u d) (net_view (gi_net st)) m1).
    set (no := if rn then net_resample lgam (sd_net d) (sd_er d) (dm_A m2) (dm_W m2) (gi_net st) else gi_net st).
    assert (HW2 : forall k1 k2, (k1 < dm_K m)%nat -> (k2 < dm_K m)%nat -> 0 < dm_W m2 k1 k2).
    { intros. apply (@mix_W_pos (dm_K m) h data (sd_W d) (gi_net st) A' k1 k2); auto. }
    assert (Hno : net_ok (dm_K m) no /\ net_allow no = net_allow (gi_net st) /\ net_C no = net_C (gi_net st)).
    { unfold no. destruct rn; [|auto]. apply net_resample_ok; auto. intros i j Hi Hj. left. auto. }
    destruct Hno as (N1 & N2 & N3).
    split; [|apply and_assoc; split; [|split; [|split; [exact Hkept|intros p Hp; apply (Hdata p Hp)]]]].
    + constructor; cbn [gi_m gi_net].
      * intros k _. apply Hlam.
      * exact HW2.
      * intros k1 k2 _ _. apply Hg'.
      * exact N1.
      * intros p Hp. destruct (Hdata p Hp) as (? & ? & ? & ? & ? & ? & ?). auto 10.
    + assert (H : net_allow (gi_net st) = false -> forall k, (k < dm_K m)%nat -> A' k k = false); [|
        split; [intros _ Hna; split; [apply H; rewrite <- N2; exact Hna|cbn; congruence]|exact H]].
      intros Hna k Hk.
      assert (Hv := @net_view_ok _ _ Hn). destruct Hv as (_ & Hv).
      refine (proj1 (@C28_deterministic_edges (sd_order d) m (net_view (gi_net st)) (sd_u d) data lgam (h_kappa0 h) (h_nu0 h) k k _ _ _ _ Hk Hk) _ _ _).
      * exact Hnn.
      * apply Hgood; auto.
      * intros i j Hi Hj. split; [apply Cu|]. apply Hv; auto.
      * exact Co.
      * apply Hv; auto.
      * rewrite Emix. now left.
    + unfold same_shape. cbn [gi_m gi_net gi_h]. repeat split; auto.
  - (* spike and slab *)
    unfold ss_sweep. fold m h. rewrite Ep. cbn [bindr]. eexists. split; [reflexivity|].
    set (m1 := with_g (with_lam (with_data m data) lam) g).
    set (no := net_resample lgam (sd_net d) (sd_er d) (dm_A m1) (dm_W m1) (gi_net st)).
    assert (Hno : net_ok (dm_K m) no /\ net_allow no = net_allow (gi_net st) /\ net_C no = net_C (gi_net st)).
    { apply net_resample_ok; auto. intros i j Hi Hj. left. apply HW; auto. }
    destruct Hno as (N1 & N2 & N3).
    set (W' := ss_W_resample (sd_W d) (net_view no) (dm_A m1) (dm_data m1)).
    assert (HW2 : forall k1 k2, (k1 < dm_K m)%nat -> (k2 < dm_K m)%nat -> 0 < W' k1 k2).
    { intros. unfold W'. eapply (@ss_W_pos (dm_K m) (dm_B m) (dm_dt m) data); eauto. }
    split; [|apply and_assoc; split; [|split; [|split; [exact Hkept|intros p Hp; apply (Hdata p Hp)]]]].
    + constructor; cbn [gi_m gi_net].
      * intros k _. apply Hlam.
      * exact HW2.
      * intros k1 k2 _ _. apply Hg'.
      * exact N1.
      * intros p Hp. destruct (Hdata p Hp) as (? & ? & ? & ? & ? & ? & ?). auto 10.
    + set (m3 := with_W m1 W').
      assert (H : net_allow (gi_net st) = false -> forall k, (k < dm_K m)%nat ->
            dm_A (ss_resample (h_parallel h) (sd_order d) (sd_W d) (sd_u d) (net_view no) m1) k k = false); [|
        split; [intros Hns Hna; change (net_allow no = false) in Hna; rewrite N2 in Hna; split; [apply H; exact Hna|intros _; apply Hself; auto]|exact H]].
      intros Hna k Hk. destruct (@net_view_ok _ _ N1) as (_ & Hv). unfold ss_resample. fold W'. fold m3. cbn [with_A dm_A].
      change (dm_data m3) with data. cbn in Hk.
      refine (proj1 (@C28_deterministic_edges (sd_order d) m3 (net_view no) (sd_u d) data lgam (h_kappa0 h) (h_nu0 h) k k _ _ _ _ Hk Hk) _ _ _).
      * destruct Hnn as (_ & _ & _ & N). split; [intros i _; apply Hlam|]. split; [intros i j Hi Hj; left; apply HW2; auto|].
        split; [|exact N]. intros i j b _ _ Hb. left. apply (Hg' i j). exact Hb.
      * apply Hgood; auto.
      * intros i j Hi Hj. split; [apply Cu|]. apply Hv; auto.
      * exact Co.
      * apply Hv; [exact Hk|exact Hk|congruence|reflexivity].
      * change (dm_mix m3) with (dm_mix m). rewrite Emix. destruct (h_parallel h); [right; left|left]; reflexivity.
    + unfold same_shape. cbn [gi_m gi_net gi_h]. repeat split; auto.
Qed.

Lemma sweep_step_gen lgam rn d st :
  fixed_ok st -> domain st -> (dm_mix (gi_m st) = false -> no_self st) ->
  draws_contract (dm_K (gi_m st)) (dm_B (gi_m st)) (net_C (gi_net st)) d ->
  exists st', sweep lgam rn d st = Ok st' /\ domain st' /\ no_self st' /\ same_shape st st' /\
    length (dm_data (gi_m st')) = length (dm_data (gi_m st)) /\
    (forall p, In p (dm_data (gi_m st')) -> consistent p).
Proof.
  intros Hf Hd Hns Hc. destruct (@sweep_step_any lgam rn d st Hf Hd Hc) as (st' & E & H1 & H2 & _ & H3 & H4 & H5).
  exists st'. split; [exact E|]. split; [exact H1|]. split; [|split; [exact H3|split; [symmetry; exact (@Forall2_len _ _ _ _ _ H4)|exact H5]]].
  apply H2. intros Hmx Hna. exact (proj1 (Hns Hmx Hna)).
Qed.

Lemma sweep_step lgam rn d st :
  fixed_ok st -> domain st -> no_self st ->
  draws_contract (dm_K (gi_m st)) (dm_B (gi_m st)) (net_C (gi_net st)) d ->
  exists st', sweep lgam rn d st = Ok st' /\ domain st' /\ no_self st' /\ same_shape st st' /\
    length (dm_data (gi_m st')) = length (dm_data (gi_m st)) /\
    (forall p, In p (dm_data (gi_m st')) -> consistent p).
Proof. intros Hf Hd Hns Hc. apply sweep_step_gen; auto. Qed.

Lemma mk_parents_unassigned K B dt T S_ F : unassigned (mk_parents K B dt T S_ F).
Proof. intros t k c. unfold attributed. apply Zsum_0. intros r _. cbn. now destruct (Nat.eqb _ _). Qed.

(** add_data (accepted or rejected): the model is unchanged, or new unassigned data sets are appended. *)
Lemma add_new lgam s f mb st K B C :
  gop_ok K B C (GAdd s f mb) -> fixed_ok st ->
  snd (gstep lgam (GAdd s f mb) st) = st \/
  exists ps, snd (gstep lgam (GAdd s f mb) st) = with_model st (with_data (gi_m st) (dm_data (gi_m st) ++ ps)) /\
    forall p, In p ps -> pa_K p = dm_K (gi_m st) /\ pa_B p = dm_B (gi_m st) /\ pa_dt p = dm_dt (gi_m st) /\ nonneg_F p /\ fits p /\
      (unassigned p /\ forall k r c, pa_Z p k r c = 0%Z).
Proof.
  intros (Hlt & Hfv) (Hh & Hdt & Hbas). cbn [gstep]. rewrite add_data_st_ok.
  destruct (add_data (gi_m st) s f mb) as [m'|e] eqn:E.
  2:{ left. now destruct st. }
  apply add_data_inv in E as (T & F & ps & Es & HT & HK & Hc & EF & Eb & ->). cbn [snd].
  set (m := gi_m st) in *.
  assert (HF : forall t k b, (t < T)%nat -> (k < dm_K m)%nat -> (b < dm_B m)%nat -> 0 <= F t k b).
  { intros t k b Ht Hk Hb. destruct f as [fv|]; cbn [get_F] in EF.
    - destruct (_ && _)%bool; [|discriminate]. injection EF as <-. apply (Hfv fv eq_refl).
    - rewrite (@convolve_causal _ _ _ _ _ _ _ EF) by auto.
      apply causal_conv_nonneg; [auto|]. intros s' Hs'. apply Hc; [lia|auto]. }
  right. exists ps. split; [reflexivity|].
  intros p Hin. destruct mb as [n|]; cbn [batches] in Eb.
  - destruct (Z.eqb_spec n 0); [discriminate|]. destruct (Z.ltb_spec n 0).
    { injection Eb as <-. destruct Hin. }
    injection Eb as <-. apply in_map_iff in Hin as (o & <- & _). cbn [mk_parents pa_K pa_B pa_dt].
    split; [auto|]. split; [auto|]. split; [auto|]. split; [|split; [|split; [apply mk_parents_unassigned|reflexivity]]].
    + intros t k b Ht Hk Hb'. cbn in *. unfold slice3. apply HF; auto. lia.
    + intros t k Ht Hk. cbn in Ht, Hk |- *. unfold slice2. split; [apply Hc; auto; lia|apply Hlt].
  - injection Eb as <-. destruct Hin as [<-|[]]. cbn [mk_parents pa_K pa_B pa_dt].
    split; [auto|]. split; [auto|]. split; [auto|]. split; [|split; [|split; [apply mk_parents_unassigned|reflexivity]]].
    + intros t k b Ht Hk Hb'. cbn in *. auto.
    + intros t k Ht Hk. cbn in Ht, Hk |- *. split; [apply Hc; auto|apply Hlt].
Qed.
Lemma add_step_gen lgam s f mb st K B C :
  gop_ok K B C (GAdd s f mb) -> fixed_ok st -> domain st ->
  domain (snd (gstep lgam (GAdd s f mb) st)) /\ (no_self st -> no_self (snd (gstep lgam (GAdd s f mb) st))) /\
  same_shape st (snd (gstep lgam (GAdd s f mb) st)).
Proof.
  intros Ho Hfx Hdom. destruct (@add_new lgam s f mb st K B C Ho Hfx) as [->|(ps & -> & Hps)].
  { split; [exact Hdom|]. split; [auto|]. repeat split. }
  set (m := gi_m st) in *.
  destruct Hdom as [Hl HW Hg Hn Hd]. split; [|split].
  - constructor; [exact Hl|exact HW|exact Hg|exact Hn|]. cbn [with_model gi_m with_data dm_data dm_K dm_B dm_dt].
    intros p Hin. apply in_app_or in Hin as [Hin|Hin]; [apply Hd; auto|].
    destruct (Hps p Hin) as (? & ? & ? & ? & ? & Hu & _). do 5 (split; [assumption|]).
    split; [|now left]. intros t k c. rewrite Hu. lia.
  - intros Hns Hna. destruct (Hns Hna) as [HA HZ]. split; [exact HA|]. intros Hmx p t k b Hin Ht Hk Hb.
    cbn [with_model gi_m with_data dm_data] in Hin. apply in_app_or in Hin as [Hin|Hin]; [apply HZ; auto|].
    apply (Hps p Hin).
  - repeat split.
Qed.

Lemma add_step lgam s f mb st K B C :
  gop_ok K B C (GAdd s f mb) -> fixed_ok st -> domain st -> no_self st ->
  domain (snd (gstep lgam (GAdd s f mb) st)) /\ no_self (snd (gstep lgam (GAdd s f mb) st)) /\
  same_shape st (snd (gstep lgam (GAdd s f mb) st)).
Proof. intros Ho Hf Hd Hn. destruct (@add_step_gen lgam s f mb st K B C Ho Hf Hd) as (H1 & H2 & H3). auto. Qed.
Lemma add_domain lgam s f mb st K B C :
  gop_ok K B C (GAdd s f mb) -> fixed_ok st -> domain st ->
  domain (snd (gstep lgam (GAdd s f mb) st)) /\ same_shape st (snd (gstep lgam (GAdd s f mb) st)).
Proof. intros Ho Hf Hd. destruct (@add_step_gen lgam s f mb st K B C Ho Hf Hd) as (H1 & H2 & H3). auto. Qed.

(** Construction. *)
Lemma construct_ok lgam mix K B dt L bas h no d :
  hypers_ok B h -> net_ok K no -> draws_contract K B (net_C no) d -> 0 < dt ->
  (forall l b, (l < L)%nat -> (b < B)%nat -> 0 <= bas l b) ->
  let st := construct lgam mix K B dt L bas h no d in
  fixed_ok st /\ domain st /\ no_self st /\ dm_K (gi_m st) = K /\ dm_B (gi_m st) = B /\ gi_net st = no /\
  dm_mix (gi_m st) = mix /\ dm_data (gi_m st) = [].
Proof.
  intros Hh Hn (Cm & Cb & Ci & _ & Ce & CW & Cu & Co) Hdt Hbas st.
  set (lam := bias_resample (sd_bias d) (h_alpha h) (h_beta h) []).
  set (g := ir_resample (sd_ir d) (h_gamma h) []).
  set (m0 := {| dm_K := K; dm_B := B; dm_dt := dt; dm_L := L; dm_L_int := true; dm_bas := bas; dm_mix := mix;
              dm_A := fun _ _ => true; dm_W := fun _ _ => 0; dm_g := g; dm_lam := lam; dm_data := [] |}).
  assert (Hd0 : forall p, In p (@nil parents) -> pa_K p = K /\ pa_B p = B /\ pa_dt p = dt /\ fits p /\ nonneg_Z p) by (intros ? []).
  assert (Hlam : forall k, 0 < lam k) by (intros; unfold lam; eapply bias_resample_pos; eauto).
  assert (Hg : forall k1 k2, open_simplex B (g k1 k2)).
  { intros. unfold g. eapply ir_resample_simplex with (K := K) (dt := dt); eauto. }
  destruct (@net_view_ok _ _ Hn) as (_ & Hv).
  assert (Hu : forall i j, (i < K)%nat -> (j < K)%nat -> unit_interval (sd_u d i j) /\ 0 <= n_P (net_view no) i j <= 1).
  { intros i j Hi Hj. split; [apply Cu|apply Hv; auto]. }
  destruct mix.
  - change (gi_m st) with (mix_resample lgam (h_kappa0 h) (h_nu0 h) (sd_W d) (sd_u d) (net_view no) m0) in *.
    split; [split; [exact Hh|split; [exact Hdt|exact Hbas]]|]. split; [|split; [|repeat split]].
    + constructor.
      * intros k _. apply Hlam.
      * intros k1 k2 H1 H2.
        exact (@mix_W_pos K h [] (sd_W d) no (mix_resample_A lgam (h_kappa0 h) (h_nu0 h) (net_view no) (sd_u d) []) k1 k2 CW Hn H1 H2).
      * intros k1 k2 _ _. apply Hg.
      * exact Hn.
      * intros p [].
    + intros Hna. split; [|discriminate]. intros k Hk. change (k < K)%nat in Hk. change (net_allow no = false) in Hna.
      change (mix_resample_A lgam (h_kappa0 h) (h_nu0 h) (net_view no) (sd_u d) [] k k = false).
      refine (proj1 (@C28_deterministic_edges (sd_order d) m0 (net_view no) (sd_u d) [] lgam (h_kappa0 h) (h_nu0 h) k k _ _ Hu Co Hk Hk) _ _ _).
      * split; [intros i _; apply Hlam|]. split; [intros i j _ _; cbn; lra|]. split; [|exact Hbas].
        intros i j b _ _ Hb. left. apply (Hg i j). exact Hb.
      * intros ? [].
      * apply Hv; auto.
      * now left.
  - set (W' := ss_W_resample (sd_W d) (net_view no) (fun _ _ => true) []).
    assert (HW : forall k1 k2, (k1 < K)%nat -> (k2 < K)%nat -> 0 < W' k1 k2).
    { intros k1 k2 H1 H2. unfold W'. apply (@ss_W_pos K B dt [] Hd0 (sd_W d) no (fun _ _ => true) k1 k2); auto. }
    change (gi_m st) with (ss_resample (h_parallel h) (sd_order d) (sd_W d) (sd_u d) (net_view no) m0) in *.
    split; [split; [exact Hh|split; [exact Hdt|exact Hbas]]|]. split; [|split; [|repeat split]].
    + constructor.
      * intros k _. apply Hlam.
      * exact HW.
      * intros k1 k2 _ _. apply Hg.
      * exact Hn.
      * intros p [].
    + intros Hna. split; [|intros _ p t k b []]. intros k Hk. change (k < K)%nat in Hk. change (net_allow no = false) in Hna.
      set (m1 := with_W m0 W').
      change ((if h_parallel h then resample_A_parallel (sd_order d) m1 (net_view no) (sd_u d) []
               else resample_A_serial m1 (net_view no) (sd_u d) []) k k = false).
      refine (proj1 (@C28_deterministic_edges (sd_order d) m1 (net_view no) (sd_u d) [] lgam (h_kappa0 h) (h_nu0 h) k k _ _ Hu Co Hk Hk) _ _ _).
      * split; [intros i _; apply Hlam|]. split; [intros i j Hi Hj; left; apply HW; auto|]. split; [|exact Hbas].
        intros i j b _ _ Hb. left. apply (Hg i j). exact Hb.
      * intros ? [].
      * apply Hv; auto.
      * change (dm_mix m1) with false. destruct (h_parallel h); [right; left|left]; reflexivity.
Qed.

Lemma grun_ok lgam hist : forall st K B C,
  fixed_ok st -> domain st -> no_self st -> dm_K (gi_m st) = K -> dm_B (gi_m st) = B -> net_C (gi_net st) = C ->
  (forall o, In o hist -> gop_ok K B C o) ->
  let st' := grun lgam hist st in fixed_ok st' /\ domain st' /\ no_self st' /\ same_shape st st'.
Proof.
  induction hist as [|o hist IH]; intros st K B C Hf Hd Hns EK EB EC Ho; cbn [grun].
  { split; [exact Hf|]. split; [exact Hd|]. split; [exact Hns|]. repeat split. }
  assert (H1 : domain (snd (gstep lgam o st)) /\ no_self (snd (gstep lgam o st)) /\ same_shape st (snd (gstep lgam o st))).
  { specialize (Ho o (or_introl eq_refl)). destruct o as [s f mb|rn d].
    - eapply add_step; eauto.
    - cbn [gop_ok] in Ho. cbn [gstep]. subst K B C.
      destruct (@sweep_step lgam rn d st Hf Hd Hns Ho) as (st' & -> & H1 & H2 & H3 & _). auto. }
  destruct H1 as (D1 & N1 & (S1 & S2 & S3 & S4 & S5 & S6 & S7 & S8 & S9)).
  assert (F1 : fixed_ok (snd (gstep lgam o st))).
  { destruct Hf as (Fa & Fb & Fc). unfold fixed_ok. rewrite S2, S3, S4, S5, S7. auto. }
  destruct (IH (snd (gstep lgam o st)) K B C F1 D1 N1) as (X1 & X2 & X3 & (Y1 & Y2 & Y3 & Y4 & Y5 & Y6 & Y7 & Y8 & Y9));
    [congruence|congruence|congruence|intros; apply Ho; now right|].
  split; [exact X1|]. split; [exact X2|]. split; [exact X3|].
  unfold same_shape. repeat split; congruence.
Qed.

(* ------------------------------------------------------------------ *)
(** ** C44 *)

(** However the model was built (either weight model, any supported network with valid priors, any basis)
    and whatever add_data calls and Gibbs sweeps follow, with any outcome of the draws: the state is in the
    parameter domain, the next sweep does not raise, and after it the parents of every stored data set add up
    to the counts. *)
Theorem C44_gibbs_history :
  forall lgam mix K B dt L bas h no d0 hist,
  hypers_ok B h -> net_ok K no -> draws_contract K B (net_C no) d0 -> 0 < dt ->
  (forall l b, (l < L)%nat -> (b < B)%nat -> 0 <= bas l b) ->
  (forall o, In o hist -> gop_ok K B (net_C no) o) ->
  let st := grun lgam hist (construct lgam mix K B dt L bas h no d0) in
  domain st /\ dm_K (gi_m st) = K /\ dm_B (gi_m st) = B /\
  forall rn d, draws_contract K B (net_C no) d ->
    exists st', sweep lgam rn d st = Ok st' /\ domain st' /\
      length (dm_data (gi_m st')) = length (dm_data (gi_m st)) /\
      forall p, In p (dm_data (gi_m st')) ->
        forall t k, (t < pa_T p)%nat -> (k < pa_K p)%nat ->
          Zsum (1 + pa_K p * pa_B p) (fun c => attributed p t k c) = pa_S p t k /\
          forall c, (0 <= attributed p t k c)%Z.
Proof.
  intros lgam mix K B dt L bas h no d0 hist Hh Hn Hd0 Hdt Hb Ho st.
  destruct (@construct_ok lgam mix K B dt L bas h no d0 Hh Hn Hd0 Hdt Hb) as (F0 & D0 & N0 & EK & EB & EN & _).
  destruct (@grun_ok lgam hist _ K B (net_C no) F0 D0 N0 EK EB ltac:(now rewrite EN) Ho) as (F1 & D1 & N1 & (Y1 & Y2 & _ & _ & _ & _ & _ & _ & Y9)).
  fold st in F1, D1, N1, Y1, Y2, Y9. split; [exact D1|]. split; [congruence|]. split; [congruence|].
  intros rn d Hd. destruct (@sweep_step lgam rn d st F1 D1 N1) as (st' & E & D2 & _ & _ & El & Hc).
  { replace (dm_K (gi_m st)) with K by congruence. replace (dm_B (gi_m st)) with B by congruence.
    rewrite Y9, EN. exact Hd. }
  exists st'. split; [exact E|]. split; [exact D2|]. split; [exact El|].
  intros p Hp t k Ht Hk. split; [|intros c; apply (dom_data D2 p Hp)].
  specialize (Hc p Hp). destruct (Z.eq_dec (pa_S p t k) 0) as [H0|H0].
  - rewrite H0. apply Zsum_0. intros c _. now apply attributed_none.
  - destruct (@pa_row_surj p k t Ht H0) as (r & Hr & <-).
    transitivity (Zsum (1 + pa_K p * pa_B p) (pa_Z p k r)); [|apply Hc; auto].
    apply Zsum_ext. intros c _. now apply attributed_row.
Qed.
Print Assumptions C44_gibbs_history.

(* ------------------------------------------------------------------ *)
(** ** C27 *)

(** With self-connections disallowed, no history has a self edge in A (both models), and in the
    spike-and-slab model no event is attributed to its own process.  Missing: the same attribution claim for
    the gamma mixture model, which is false (next theorem). *)
Theorem C27_no_self_connections_partial :
  forall lgam mix K B dt L bas h no d0 hist,
  hypers_ok B h -> net_ok K no -> draws_contract K B (net_C no) d0 -> 0 < dt ->
  (forall l b, (l < L)%nat -> (b < B)%nat -> 0 <= bas l b) ->
  (forall o, In o hist -> gop_ok K B (net_C no) o) ->
  net_allow no = false ->
  let st := grun lgam hist (construct lgam mix K B dt L bas h no d0) in
  (forall k, (k < K)%nat -> dm_A (gi_m st) k k = false) /\
  (mix = false -> forall d t k b, In d (dm_data (gi_m st)) -> (t < pa_T d)%nat -> (k < K)%nat -> (b < B)%nat ->
     attributed d t k (1 + (k * B + b)) = 0%Z).
Proof.
  intros lgam mix K B dt L bas h no d0 hist Hh Hn Hd0 Hdt Hb Ho Hna st.
  destruct (@construct_ok lgam mix K B dt L bas h no d0 Hh Hn Hd0 Hdt Hb) as (F0 & D0 & N0 & EK & EB & EN & EM & _).
  destruct (@grun_ok lgam hist _ K B (net_C no) F0 D0 N0 EK EB ltac:(now rewrite EN) Ho) as (F1 & D1 & N1 & (Y1 & Y2 & _ & _ & _ & Y6 & _ & Y8 & Y9)).
  fold st in F1, D1, N1, Y1, Y2, Y6, Y8, Y9. destruct (N1 ltac:(rewrite Y8, EN; exact Hna)) as [HA HZ]. split.
  - intros k Hk. apply HA. rewrite Y1, EK. exact Hk.
  - intros Hm d t k b Hin Ht Hk Hb'. destruct (dom_data D1 d Hin) as (E1 & E2 & _).
    assert (E : pa_B d = B) by congruence. rewrite <- E. apply HZ; auto; try congruence.
Qed.
Print Assumptions C27_no_self_connections_partial.

(** A two-category multinomial generator that prefers the parent over the background. *)
Definition ex_last : mult_oracle :=
  fun _ _ n v c => if Rltb 0 (v 1%nat) then (if Nat.eqb c 1 then n else 0%Z) else (if Nat.eqb c 0 then n else 0%Z).
Lemma ex_last_ok : multinomial_contract 2 ex_last.
Proof.
  intros k r n v Hn [Hv Hs]. cbn [Rsum] in Hs. unfold ex_last. assert (H0 := Hv 0%nat ltac:(lia)). assert (H1 := Hv 1%nat ltac:(lia)).
  destruct (Rltb 0 (v 1%nat)) eqn:E; split.
  - intros c _. destruct (Nat.eqb c 1); lia.
  - split; [cbn; lia|]. intros c Hc Hc0. apply Rltb_true in E. destruct c as [|[|]]; [reflexivity|lra|lia].
  - intros c _. destruct (Nat.eqb c 0); lia.
  - split; [cbn; lia|]. intros c Hc Hc0. apply Rltb_false in E. destruct c as [|[|]]; [|reflexivity|lia].
    exfalso. lra.
Qed.
Definition ex_draws (K B : nat) (mult : mult_oracle) : sweep_draws :=
  {| sd_mult := fun _ => mult; sd_bias := fun _ _ _ => 1; sd_ir := fun _ _ _ _ => / INR B;
     sd_net := {| gd_beta := fun _ _ _ _ => 1/2; gd_gamma := fun _ _ _ _ => 1; gd_pick := fun _ _ => 0%nat;
                  gd_dir := fun _ _ => 1 |};
     sd_er := fun _ _ => 1; sd_W := fun _ _ _ _ => 1; sd_u := fun _ _ => 1/2; sd_order := seq 0 K |}.
Lemma ex_draws_ok K B mult : (0 < B)%nat -> multinomial_contract (1 + K * B) mult -> draws_contract K B 1 (ex_draws K B mult).
Proof.
  intros HB Hm. split; [intros i; exact Hm|]. split; [intros k a s _ _; cbn; lra|].
  split; [|split; [|split; [intros a s _ _; cbn; lra|split; [intros k1 k2 a s _ _; cbn; lra|split; [intros k1 k2; unfold unit_interval; cbn; lra|apply Permutation_refl]]]]].
  - intros k1 k2 al _. split; cbn.
    + intros b Hb. apply Rinv_0_lt_compat, lt_0_INR. lia.
    + rewrite Rsum_const. apply Rinv_r. apply not_0_INR. lia.
  - split; [intros a b x y _ _; cbn; lra|]. split; [intros a b x y _ _; cbn; lra|]. split; [intros; cbn; lia|].
    intros al _. split; cbn; intros; lra.
Qed.
Definition ex_hyp : hypers :=
  {| h_alpha := 1; h_beta := 1; h_gamma := fun _ => 1; h_kappa0 := 1/10; h_nu0 := 10; h_parallel := false; h_gsl := false |}.
Lemma ex_hyp_ok B : hypers_ok B ex_hyp.
Proof. repeat split; cbn; intros; lra. Qed.
Definition ex_er (K : nat) : netobj :=
  NetEr {| e_K := K; e_p := 1/2; e_kappa := 1; e_alpha := None; e_beta := None; e_v := 1; e_allow := false; e_mf := None |}.
Lemma ex_er_ok K : net_ok K (ex_er K).
Proof. repeat split; cbn; try lra; discriminate. Qed.

(** The mixture model ignores A when it assigns parents: self-parents occur although self-connections are
    disallowed and A has no self edge. *)
Definition ex_hist27 : list gop :=
  [GAdd (sval_of 2 1 (fun _ _ => 1%Z)) (Some (fval_of 2 1 1 (fun t _ _ => if Nat.eqb t 0 then 0 else 1))) None;
   GSweep true (ex_draws 1 1 ex_last)].
Lemma ex_hist27_ok : forall o, In o ex_hist27 -> gop_ok 1 1 1 o.
Proof.
  intros o [<-|[<-|[]]].
  - split; [intros t k; cbn; lia|]. intros fv E t k b. injection E as <-. cbn. destruct (Nat.eqb t 0); lra.
  - apply ex_draws_ok; [lia|apply ex_last_ok].
Qed.
Theorem C27_mixture_self_parent_refuted :
  forall lgam, exists K B dt L bas h no d0 hist,
  hypers_ok B h /\ net_ok K no /\ draws_contract K B (net_C no) d0 /\ 0 < dt /\
  (forall l b, (l < L)%nat -> (b < B)%nat -> 0 <= bas l b) /\
  (forall o, In o hist -> gop_ok K B (net_C no) o) /\ net_allow no = false /\
  let st := grun lgam hist (construct lgam true K B dt L bas h no d0) in
  exists d t k b, In d (dm_data (gi_m st)) /\ (t < pa_T d)%nat /\ (k < K)%nat /\ (b < B)%nat /\
     attributed d t k (1 + (k * B + b)) = 1%Z.
Proof.
  intros lgam. set (bas := fun l (_ : nat) => if Nat.eqb l 1 then 1 else 0).
  exists 1%nat, 1%nat, 1, 2%nat, bas, ex_hyp, (ex_er 1), (ex_draws 1 1 ex_last), ex_hist27.
  split; [apply ex_hyp_ok|]. split; [apply ex_er_ok|]. split; [apply ex_draws_ok; [lia|apply ex_last_ok]|].
  split; [lra|]. split; [intros l b _ _; unfold bas; destruct (Nat.eqb l 1); lra|]. split; [apply ex_hist27_ok|].
  split; [reflexivity|]. cbv zeta.
  set (st0 := construct lgam true 1 1 1 2 bas ex_hyp (ex_er 1) (ex_draws 1 1 ex_last)).
  destruct (@construct_ok lgam true 1 1 1 2 bas ex_hyp (ex_er 1) (ex_draws 1 1 ex_last) (ex_hyp_ok 1) (ex_er_ok 1)
     (@ex_draws_ok 1 1 ex_last ltac:(lia) ex_last_ok) ltac:(lra) ltac:(intros l b _ _; unfold bas; destruct (Nat.eqb l 1); lra))
     as (F0 & D0 & N0 & EK & EB & EN & EM & ED). fold st0 in F0, D0, N0, EK, EB, EN, EM, ED.
  set (p := mk_parents 1 1 1 2 (fun _ _ => 1%Z) (fun t _ _ => if Nat.eqb t 0 then 0 else 1)).
  assert (E1 : snd (gstep lgam (GAdd (sval_of 2 1 (fun _ _ => 1%Z)) (Some (fval_of 2 1 1 (fun t _ _ => if Nat.eqb t 0 then 0 else 1))) None) st0)
     = with_model st0 (with_data (gi_m st0) [p])) by reflexivity.
  unfold ex_hist27. cbn [grun]. rewrite E1. set (st1 := with_model st0 (with_data (gi_m st0) [p])).
  assert (D1 : domain st1 /\ no_self st1).
  { unfold st1. rewrite <- E1. destruct (@add_step lgam _ _ None st0 1 1 1 (ex_hist27_ok (or_introl eq_refl)) F0 D0 N0) as (? & ? & _). auto. }
  destruct D1 as [D1 N1].
  assert (F1 : fixed_ok st1) by exact F0.
  assert (Hq : 0 < q_lam (params_of (gi_m st1)) 0%nat /\ 0 < q_W (params_of (gi_m st1)) 0%nat 0%nat /\
               0 < q_g (params_of (gi_m st1)) 0%nat 0%nat 0%nat).
  { split; [apply (dom_lam D1); cbn; lia|]. split.
    - assert (H : 0 < dm_W (gi_m st1) 0%nat 0%nat) by (apply (dom_W D1); cbn; lia). exact H.
    - apply (dom_g D1); cbn; lia. }
  destruct Hq as (Q1 & Q2 & Q3). set (q := params_of (gi_m st1)) in *.
  destruct (@sweep_step lgam true (ex_draws 1 1 ex_last) st1 F1 D1 N1) as (st2 & E2 & _).
  { apply (@ex_draws_ok 1 1 ex_last); [lia|apply ex_last_ok]. }
  cbn [gstep]. rewrite E2. cbn [snd].
  unfold sweep in E2. change (dm_mix (gi_m st1)) with true in E2. unfold mix_sweep in E2. fold q in E2.
  change (dm_data (gi_m st1)) with [p] in E2. cbn [resample_parents] in E2.
  set (p' := set_Z p (fun k r c => let '(n, v) := request_python p q k r in u32 (ex_last k r n v c))).
  assert (Ep : pa_resample (h_gsl (gi_h st1)) (sd_mult (ex_draws 1 1 ex_last) 0) p q = Ok p').
  { change (h_gsl (gi_h st1)) with false. change (sd_mult (ex_draws 1 1 ex_last) 0) with ex_last.
    destruct (@resample_ok false ex_last p q) as (p2 & E).
    - split; [|split; [|split]].
      + intros k Hk. assert (k = 0%nat) as -> by (cbn in Hk; lia). exact Q1.
      + intros k1 k2 H1 H2. assert (k1 = 0%nat) as -> by (cbn in H1; lia). assert (k2 = 0%nat) as -> by (cbn in H2; lia). lra.
      + intros k1 k2 b H1 H2 H3. assert (k1 = 0%nat) as -> by (cbn in H1; lia). assert (k2 = 0%nat) as -> by (cbn in H2; lia).
        assert (b = 0%nat) as -> by (cbn in H3; lia). lra.
      + intros t k b _ _ _. cbn. destruct (Nat.eqb t 0); lra.
    - intros t k _ _. cbn. lia.
    - rewrite E. revert E. cbn [pa_resample]. unfold resample_Z_python.
      destruct (negb _); [discriminate|]. destruct (negb _); [discriminate|]. intros E. injection E as <-. reflexivity. }
  rewrite Ep in E2. cbn [bindr] in E2. injection E2 as <-.
  exists p', 1%nat, 0%nat, 0%nat. split; [now left|]. split; [cbn; lia|]. split; [lia|]. split; [lia|].
  change (attributed p' 1 0 (1 + (0 * 1 + 0))) with
    ((0 + 0 + u32 (ex_last 0%nat 1%nat (u32 1) (normalise 2 (pvec_python p q 0 1)) 1%nat))%Z).
  unfold ex_last. assert (Hp : 0 < normalise 2 (pvec_python p q 0 1) 1%nat).
  { unfold normalise. change (Rsum 2 (pvec_python p q 0 1)) with (0 + q_lam q 0%nat + 1 * q_W q 0%nat 0%nat * q_g q 0%nat 0%nat 0%nat).
    change (pvec_python p q 0 1 1%nat) with (1 * q_W q 0%nat 0%nat * q_g q 0%nat 0%nat 0%nat).
    apply Rdiv_lt_0_compat; nra. }
  apply Rltb_true in Hp. rewrite Hp. reflexivity.
Qed.
Print Assumptions C27_mixture_self_parent_refuted.

Example C44_nonvacuous : hypers_ok 1 ex_hyp /\ net_ok 1 (ex_er 1) /\ draws_contract 1 1 (net_C (ex_er 1)) (ex_draws 1 1 ex_last) /\
  (forall o, In o ex_hist27 -> gop_ok 1 1 (net_C (ex_er 1)) o) /\ net_allow (ex_er 1) = false.
Proof. split; [apply ex_hyp_ok|]. split; [apply ex_er_ok|]. split; [apply ex_draws_ok; [lia|apply ex_last_ok]|]. split; [apply ex_hist27_ok|reflexivity]. Qed.
