(** * Props_InitOwn: C102, initialising a network model by fitting a standard model to its own data. *)
From Coq Require Import Permutation.
From Verif Require Import Prelude ExtReal Arrays Spec_Basis Spec_Discrete Spec_Parents Spec_Gibbs Spec_Network
  M_Basis M_Parents M_Discrete M_Gibbs M_Dist M_Network M_Sweep M_MeanField M_Standard M_Mixed M_Fit M_InitOwn
  L_Basis L_Discrete L_Minibatch L_Parents L_Gibbs L_Network L_Standard
  Props_Basis Props_Discrete Props_Parents Props_Gibbs Props_Network L_Sweep Props_Sweep Props_MeanField Props_Standard Props_Standard2
  Props_Fit Props_Mixed.
Set Implicit Arguments.
Open Scope R_scope.

(* ------------------------------------------------------------------ *)
(** ** Vocabulary *)

(** The basis of a standard model built with default settings, for models where it has no NaN column (C01). *)
Definition default_basis (B : nat) (dt dt_max : R) (bo : basis_obj) : Prop :=
  CosineBasis B dt dt_max true false 0 (1 / 120) (1 / 2) 100 = Ok bo /\
  forall j, (j < B)%nat -> unit_volume dt (bt_rows (bo_tab bo)) (fun l => bt_at (bo_tab bo) l j).
Definition table (bo : basis_obj) : mat := fun l b => fval (bt_at (bo_tab bo) l b).
(** Any optimiser within its contract (C94), for standard models of this size. *)
Definition own_optimiser (K B : nat) (opt : nat -> vec -> optim) : Prop :=
  forall s, sm_K s = K -> sm_B s = B -> sm_allow s = true -> bounded_optimiser None s opt.
(** Stored data sets are non-empty count arrays, as add_data leaves them. *)
Definition stored (m : dmodel) : Prop :=
  forall d, In d (dm_data m) -> (0 < pa_T d)%nat /\ pa_K d = dm_K m /\ fits d.
(** The data set of the standard model that belongs to a stored data set: same bins, same counts, and as features the
    counts filtered with the given basis table. *)
Definition refiltered (K B rows : nat) (bas : mat) (d : parents) (e : sdata) : Prop :=
  sd_T e = pa_T d /\ sd_S e = pa_S d /\
  forall t, (t < pa_T d)%nat -> sd_F e t 0%nat = 1 /\
    forall k b, (k < K)%nat -> (b < B)%nat -> sd_F e t (1 + (k * B + b))%nat = causal_conv rows bas (pa_S d) t k b.
(** Events per unit of time of process k over all data sets. *)
Definition background_rate (m : dmodel) (k : nat) : R :=
  lsum (map (fun d => IZR (n_events (pa_T d) (pa_S d) k)) (dm_data m)) / lsum (map (fun d => INR (pa_T d) * dm_dt m) (dm_data m)).
(** Weights without interactions worth speaking of: the background rate (at least 1e-16) and 1e-3 everywhere else. *)
Definition background_start (m : dmodel) : mat := fun k j => match j with O => Rmax (background_rate m k) (/ 10 ^ 16) | _ => / 10 ^ 3 end.

(* ------------------------------------------------------------------ *)
(** ** The fit *)

Lemma default_rows B dt dt_max bo : 0 < dt -> 0 < dt_max -> default_basis B dt dt_max bo -> (0 < B)%nat ->
  bt_cols (bo_tab bo) = B /\ (0 < bt_rows (bo_tab bo))%nat /\
  (forall l b, (l < bt_rows (bo_tab bo))%nat -> (b < B)%nat -> 0 <= table bo l b) /\ (forall b, (b < B)%nat -> table bo 0%nat b = 0).
Proof.
  intros Hdt Hdm (E & Hu) HB.
  destruct (@C01_basis_columns_partial B dt dt_max false 0 (1/120) (1/2) 100 bo Hdt Hdm) as (H1 & H2 & H3 & _); [|exact E|].
  { intros i _. pose proof (pos_INR i). lra. }
  split; [exact H1|]. split; [rewrite H2; cbn; lia|]. split.
  - intros l b Hl Hb. destruct (Hu b Hb) as (f & Hf & _). destruct (Hf l Hl) as (Ef & H0). unfold table. rewrite Ef. exact H0.
  - intros b Hb. unfold table. rewrite H3; reflexivity.
Qed.

Lemma flatten_at B F t k b : (b < B)%nat -> flatten_F B F t (1 + (k * B + b))%nat = F t k b.
Proof. intros Hb. cbn [flatten_F Nat.add]. rewrite div_idx, mod_idx by exact Hb. reflexivity. Qed.

Lemma readd_ok K B rows bas dt : (0 < K)%nat -> (0 < B)%nat -> (0 < rows)%nat ->
  forall ds s, sm_K s = K -> sm_B s = B -> sm_L s = rows -> sm_bas s = bas -> sm_dt s = dt ->
  (forall d, In d ds -> (0 < pa_T d)%nat /\ pa_K d = K /\ fits d) ->
  exists es, std_readd s ds = Ok (sm_with_data s (sm_data s ++ es)) /\ Forall2 (refiltered K B rows bas) ds es.
Proof.
  intros HK HB HR. induction ds as [|d ds IH]; intros s EK EB EL Ebas Edt Hd.
  - exists []. split; [|constructor]. cbn [std_readd]. rewrite app_nil_r. destruct s; reflexivity.
  - cbn [std_readd]. destruct (Hd d (or_introl eq_refl)) as (HT & EKd & Hf).
    assert (Hc : counts (pa_T d) (sm_K s) (pa_S d)).
    { intros t k Ht Hk. apply (Hf t k); [exact Ht|]. rewrite EKd, <- EK. exact Hk. }
    destruct (@s_add_data_ok s (pa_T d) (pa_S d) HT ltac:(lia) ltac:(lia) ltac:(lia) Hc None ltac:(discriminate)) as (s1 & E1).
    replace (pa_K d) with (sm_K s) by congruence. rewrite E1. cbn [bindr].
    apply s_add_data_inv in E1 as (T & F & ps & Ed & _ & _ & _ & (F0 & EF0 & -> & _) & Eps & ->).
    cbn [sval_of sv_dims] in Ed. injection Ed as <-. cbn [s_batches] in Eps. injection Eps as <-. cbn [sval_of sv_at] in *.
    destruct (IH (sm_with_data s (sm_data s ++ [{| sd_T := pa_T d; sd_S := pa_S d; sd_F := flatten_F (sm_B s) F0 |}])))
      as (es & E & H2); auto. { intros d' Hd'. apply Hd. now right. }
    exists ({| sd_T := pa_T d; sd_S := pa_S d; sd_F := flatten_F (sm_B s) F0 |} :: es). split.
    + rewrite E. cbn [sm_with_data sm_data]. now rewrite <- app_assoc.
    + constructor; [|exact H2]. split; [reflexivity|]. split; [reflexivity|]. intros t Ht. split; [reflexivity|].
      intros k b Hk Hb. cbn [sd_F]. rewrite EB, flatten_at by exact Hb.
      rewrite (@convolve_entry _ _ _ _ _ _ _ EF0) by (rewrite ?EK, ?EB; auto).
      rewrite conv_full_causal by exact Ht. rewrite EL, Ebas. reflexivity.
Qed.

Lemma refl_N K B rows bas ds es : Forall2 (refiltered K B rows bas) ds es -> forall k,
  map (fun d => IZR (Zsum (sd_T d) (fun t => sd_S d t k))) es = map (fun d => IZR (n_events (pa_T d) (pa_S d) k)) ds.
Proof. induction 1 as [|d e ds es (E1 & E2 & _) H IH]; intros k; [reflexivity|]. cbn [map]. rewrite IH, E1, E2. reflexivity. Qed.
Lemma refl_T K B rows bas dt ds es : Forall2 (refiltered K B rows bas) ds es ->
  map (fun d => INR (sd_T d) * dt) es = map (fun d => INR (pa_T d) * dt) ds.
Proof. induction 1 as [|d e ds es (E1 & _) H IH]; [reflexivity|]. cbn [map]. rewrite IH, E1. reflexivity. Qed.
Lemma fit_own_ok dt_max opt m bo :
  (0 < dm_K m)%nat -> (0 < dm_B m)%nat -> 0 < dm_dt m -> 0 < dt_max ->
  default_basis (dm_B m) (dm_dt m) dt_max bo -> stored m -> own_optimiser (dm_K m) (dm_B m) opt ->
  exists s, fit_own dt_max opt m = Ok s /\
    sm_K s = dm_K m /\ sm_B s = dm_B m /\ sm_dt s = dm_dt m /\ sm_alpha s = 1 /\ sm_beta s = 1 /\ sm_allow s = true /\
    Forall2 (refiltered (dm_K m) (dm_B m) (bt_rows (bo_tab bo)) (table bo)) (dm_data m) (sm_data s) /\
    (forall k j, (k < dm_K m)%nat -> (j < 1 + dm_K m * dm_B m)%nat -> / 10 ^ 16 <= sm_w s k j) /\
    (dm_data m <> [] -> exists v0 v1, s_log_posterior (sm_with_w s (background_start m)) All KNone = Ok (Fin v0) /\
       s_log_posterior s All KNone = Ok (Fin v1) /\ v0 <= v1).
Proof.
  intros HK HB Hdt Hdm Hbo Hst Hopt. destruct (default_rows Hdt Hdm Hbo HB) as (Hcol & Hrow & Hbas & _).
  set (s0 := {| sm_K := dm_K m; sm_B := dm_B m; sm_dt := dm_dt m; sm_alpha := 1; sm_beta := 1; sm_allow := true;
                sm_L := bt_rows (bo_tab bo); sm_bas := table bo; sm_w := fun _ _ => / 10 ^ 3; sm_data := [] |}).
  assert (E0 : std_default (dm_K m) (dm_B m) (dm_dt m) dt_max = Ok s0).
  { unfold std_default. destruct Hbo as (-> & _). cbn [bindr]. unfold sm_init. cbn [andb]. rewrite (proj2 (Rltb_false 1 1)) by lra. reflexivity. }
  destruct (@readd_ok (dm_K m) (dm_B m) (bt_rows (bo_tab bo)) (table bo) (dm_dt m) HK HB Hrow (dm_data m) s0) as (es & E1 & H2); auto.
  cbn [sm_data s0 app] in E1. set (s1 := sm_with_data s0 es) in *.
  set (s2 := s_init_background s1).
  assert (Hs2 : same_but_w s1 s2). { unfold s2, s_init_background. destruct (sm_data s1); [apply same_refl|apply with_w_same]. }
  assert (Hfd : fit_data s2).
  { apply (fit_data_same Hs2). intros e t He Ht. cbn [s1 s0 sm_with_data sm_data sm_K sm_P sm_B] in *.
    destruct (Forall2_in_r _ H2 He) as (d & Hd & ET & ES & HF). rewrite ET in Ht. destruct (HF t Ht) as (HF0 & HFj).
    destruct (Hst d Hd) as (_ & EKd & Hf). split; [exact HF0|]. split.
    - intros j Hj. unfold sm_P in Hj. cbn [sm_K sm_B s1 s0 sm_with_data] in Hj. destruct j as [|i]; [rewrite HF0; lra|].
      destruct (@idx_bound (dm_K m) (dm_B m) i ltac:(lia)) as (Hk & Hb).
      replace (S i) with (1 + (i / dm_B m * dm_B m + i mod dm_B m))%nat.
      2:{ pose proof (Nat.div_mod i (dm_B m) ltac:(lia)). lia. }
      rewrite HFj by auto. unfold causal_conv. apply Rsum_nonneg. intros l Hl.
      destruct (Nat.ltb_spec l (bt_rows (bo_tab bo))) as [Hl'|_]; [|lra].
      apply Rmult_le_pos; [apply Hbas; auto|]. apply IZR_le. apply (Hf (t - l)%nat); [lia|]. rewrite EKd. exact Hk.
    - intros k Hk. rewrite ES. apply (Hf t k Ht). rewrite EKd. exact Hk. }
  assert (Ho : bounded_optimiser None s2 opt). { apply Hopt; rewrite Hs2; reflexivity. }
  destruct (@C94_fit_never_worse None opt s2) as (s & v0 & v1 & Ef & Hsb & Hin & P0 & P1 & Hle).
  { rewrite Hs2. exact HK. } { exact Hfd. } { intros Ha. rewrite Hs2 in Ha. discriminate. } { exact I. } { exact Ho. }
  exists s. split. { unfold fit_own. rewrite E0. cbn [bindr]. rewrite E1. cbn [bindr]. fold s2. rewrite Ef. reflexivity. }
  assert (Hss : same_but_w s1 s) by (eapply same_trans; eauto).
  split; [rewrite Hss; reflexivity|]. split; [rewrite Hss; reflexivity|]. split; [rewrite Hss; reflexivity|].
  split; [rewrite Hss; reflexivity|]. split; [rewrite Hss; reflexivity|]. split; [rewrite Hss; reflexivity|].
  split. { replace (sm_data s) with es by (rewrite Hss; reflexivity). exact H2. }
  split. { intros k j Hk Hj. apply (Hin k); rewrite Hs2; [exact Hk|]. exact Hj. }
  intros Hne. exists v0, v1. split; [|split; [exact P1|exact Hle]].
  assert (Ecl : forall k j, sm_w (clipped None s2) k j = background_start m k j).
  { intros k j. cbn [clipped sm_with_w sm_w]. unfold clip_row, clip_to, fit_lo.
    assert (Ede : es <> []) by (intros ->; inversion H2; congruence).
    unfold s2, s_init_background. cbn [s1 s0 sm_with_data sm_data]. destruct es as [|e es'] eqn:Ees; [congruence|]. rewrite <- Ees in *.
    destruct j as [|j]; cbn [sm_w sm_with_w fit_hi background_start].
    - f_equal. unfold background_rate. f_equal.
      + f_equal. exact (refl_N H2 k).
      + f_equal. f_equal. exact (refl_T (dm_dt m) H2).
    - rewrite Rmax_left; [reflexivity|]. apply Rinv_le_contravar; [apply pow_lt; lra|]. apply Rle_pow; [lra|lia]. }
  rewrite <- P0. f_equal.
  replace (sm_with_w s (background_start m)) with (clipped None s2); [reflexivity|].
  assert (Ew : (fun k => clip_row None (sm_w s2 k)) = background_start m).
  { apply FunctionalExtensionality.functional_extensionality. intros k.
    apply FunctionalExtensionality.functional_extensionality. intros j. exact (Ecl k j). }
  unfold clipped. rewrite Ew. rewrite Hss. transitivity (sm_with_w (sm_with_w s1 (sm_w s2)) (background_start m)); [|reflexivity].
  rewrite <- Hs2. reflexivity.
Qed.

(** What is fitted: a standard model with the same size and bin width whose data are the stored counts, filtered with the
    default basis; every fitted weight is at least 1e-16, and the fit is at least as good as the background rates alone.
    If the model itself uses that basis and its data sets were filtered by add_data (whole recordings, no features
    supplied), the features the standard model is fitted to are exactly the stored ones. *)
Theorem C102_fits_own_data_partial :
  forall dt_max opt m bo,
  (0 < dm_K m)%nat -> (0 < dm_B m)%nat -> 0 < dm_dt m -> 0 < dt_max -> dm_data m <> [] ->
  default_basis (dm_B m) (dm_dt m) dt_max bo -> stored m -> own_optimiser (dm_K m) (dm_B m) opt ->
  exists s v0 v1, fit_own dt_max opt m = Ok s /\
    sm_K s = dm_K m /\ sm_B s = dm_B m /\ sm_dt s = dm_dt m /\ sm_allow s = true /\
    Forall2 (refiltered (dm_K m) (dm_B m) (bt_rows (bo_tab bo)) (table bo)) (dm_data m) (sm_data s) /\
    (forall k j, (k < dm_K m)%nat -> (j < 1 + dm_K m * dm_B m)%nat -> / 10 ^ 16 <= sm_w s k j) /\
    s_log_posterior (sm_with_w s (background_start m)) All KNone = Ok (Fin v0) /\
    s_log_posterior s All KNone = Ok (Fin v1) /\ v0 <= v1 /\
    ((forall d t k b, In d (dm_data m) -> (t < pa_T d)%nat -> (k < dm_K m)%nat -> (b < dm_B m)%nat ->
        pa_F d t k b = causal_conv (bt_rows (bo_tab bo)) (table bo) (pa_S d) t k b) ->
     Forall2 (fun d e => sd_T e = pa_T d /\ sd_S e = pa_S d /\ forall t k b, (t < pa_T d)%nat -> (k < dm_K m)%nat -> (b < dm_B m)%nat ->
        sd_F e t (1 + (k * dm_B m + b))%nat = pa_F d t k b) (dm_data m) (sm_data s)).
Proof.
  intros dt_max opt m bo HK HB Hdt Hdm Hne Hbo Hst Hopt.
  destruct (@fit_own_ok dt_max opt m bo HK HB Hdt Hdm Hbo Hst Hopt) as (s & E & E1 & E2 & E3 & _ & _ & E4 & HF & Hw & Hv).
  destruct (Hv Hne) as (v0 & v1 & P0 & P1 & Hle). exists s, v0, v1.
  split; [exact E|]. split; [exact E1|]. split; [exact E2|]. split; [exact E3|]. split; [exact E4|]. split; [exact HF|].
  split; [exact Hw|]. split; [exact P0|]. split; [exact P1|]. split; [exact Hle|].
  intros Hpl. clear - HF Hpl. induction HF as [|d e ds es (ET & ES & HFe) HF IH]; [constructor|]. constructor.
  - split; [exact ET|]. split; [exact ES|]. intros t k b Ht Hk Hb. destruct (HFe t Ht) as (_ & H). rewrite H by auto.
    symmetry. apply Hpl; auto. now left.
  - apply IH. intros d' t k b Hd'. apply Hpl. now right.
Qed.
Print Assumptions C102_fits_own_data_partial.

(** Whole recordings added without features are stored that way. *)
Theorem C102_plain_data_partial :
  forall m T S_ m1, add_data m (sval_of T (dm_K m) S_) None None = Ok m1 ->
  forall d, In d (dm_data m1) -> In d (dm_data m) \/
    (pa_T d = T /\ pa_S d = S_ /\ forall t k b, (t < T)%nat -> (k < dm_K m)%nat -> (b < dm_B m)%nat ->
       pa_F d t k b = causal_conv (dm_L m) (dm_bas m) S_ t k b).
Proof.
  intros m T S_ m1 E d Hd. unfold add_data in E. apply bindr_ok in E as (T' & ET & E).
  apply check_S_ok in ET as (_ & ET & _). cbn [sval_of sv_dims] in ET. injection ET as <-.
  apply bindr_ok in E as (F & EF & E). cbn [get_F] in EF. cbn [batches bindr] in E. injection E as <-.
  cbn [with_data dm_data] in Hd. apply in_app_or in Hd as [Hd|[<-|[]]]; [now left|right].
  split; [reflexivity|]. split; [reflexivity|]. intros t k b Ht Hk Hb. cbn [mk_parents pa_F sval_of sv_at] in *.
  rewrite (@convolve_entry _ _ _ _ _ _ _ EF) by auto. rewrite conv_full_causal by exact Ht. reflexivity.
Qed.
Print Assumptions C102_plain_data_partial.

(* ------------------------------------------------------------------ *)
(** ** The model afterwards *)

Lemma fitted_pos m s : sm_K s = dm_K m -> sm_B s = dm_B m ->
  (forall k j, (k < dm_K m)%nat -> (j < 1 + dm_K m * dm_B m)%nat -> / 10 ^ 16 <= sm_w s k j) -> std_pos s.
Proof.
  intros EK EB H k j Hk Hj. unfold sm_P in Hj. rewrite EK, EB in *. specialize (H k j Hk Hj).
  assert (0 < / 10 ^ 16) by (apply Rinv_0_lt_compat, pow_lt; lra). lra.
Qed.

(** The call with None succeeds for every gamma-mixture model in its domain, however its data were added, leaves it in
    its domain and its data untouched. *)
Theorem C102_mixture_valid :
  forall dt_max opt x bo, mixed_ok x -> 0 < dt_max ->
  let m := gi_m (mx_g x) in
  default_basis (dm_B m) (dm_dt m) dt_max bo -> (forall d, In d (dm_data m) -> (0 < pa_T d)%nat) -> own_optimiser (dm_K m) (dm_B m) opt ->
  exists x' s', init_mixture dt_max opt PassNone x = Ok (x', s') /\ mixed_ok x' /\
    dm_data (gi_m (mx_g x')) = dm_data m /\ gi_net (mx_g x') = gi_net (mx_g x) /\ mx_f x' = mx_f x.
Proof.
  intros dt_max opt x bo Hx Hdm m Hbo HT Hopt. pose proof Hx as [(_ & Hdt & _) HD _ _ (HK & HB) _]. pose proof HD as [_ _ _ _ Dd].
  destruct (@fit_own_ok dt_max opt m bo HK HB Hdt Hdm Hbo) as (s & E & E1 & E2 & _ & _ & _ & _ & _ & Hw & _).
  { intros d Hd. split; [now apply HT|]. destruct (Dd d Hd) as (P1 & _ & _ & _ & P2 & _). auto. } { exact Hopt. }
  destruct (@std_ok s x Hx E1 E2 (@fitted_pos m s E1 E2 Hw)) as (x' & s' & Ei & Hok).
  exists x', s'. unfold init_mixture, the_std. fold m. rewrite E. cbn [bindr]. split; [exact Ei|]. split; [exact Hok|].
  unfold init_with_std in Ei. apply bindr_ok in Ei as (r & _ & Ei). injection Ei as <- _. repeat split.
Qed.
Print Assumptions C102_mixture_valid.

(** The same for the spike-and-slab model; every event then has a parent, and none over an absent edge.  This holds for
    None and for a given standard model of the right size with positive weights. *)
Definition good_arg (m : dmodel) (dt_max : R) (opt : nat -> vec -> optim) (a : std_arg) : Prop :=
  match a with
  | Omitted => False
  | PassNone => (exists bo, default_basis (dm_B m) (dm_dt m) dt_max bo) /\ (forall d, In d (dm_data m) -> (0 < pa_T d)%nat) /\
                own_optimiser (dm_K m) (dm_B m) opt
  | Given s => sm_K s = dm_K m /\ sm_B s = dm_B m /\ std_pos s
  end.
Theorem C102_spike_slab_valid :
  forall dt_max opt mult a st, fixed_ok st -> domain st -> dm_mix (gi_m st) = false -> 0 < dt_max ->
  let m := gi_m st in
  (0 < dm_K m)%nat -> (0 < dm_B m)%nat -> (forall i, multinomial_contract (1 + dm_K m * dm_B m) (mult i)) -> good_arg m dt_max opt a ->
  exists st' s', init_spike_slab dt_max opt mult a st = Ok (st', s') /\ fixed_ok st' /\ domain st' /\
    Forall2 (fun p p' => exists Z', p' = set_Z p Z') (dm_data m) (dm_data (gi_m st')) /\
    forall p, In p (dm_data (gi_m st')) -> consistent p /\
      forall t k1 k2 b, (t < pa_T p)%nat -> (k1 < dm_K m)%nat -> (k2 < dm_K m)%nat -> (b < dm_B m)%nat ->
        dm_A (gi_m st') k1 k2 = false -> attributed p t k2 (1 + (k1 * dm_B m + b)) = 0%Z.
Proof.
  intros dt_max opt mult a st Hfix HD Hmix Hdm m HK HB Hmu Ha. pose proof Hfix as (Hh & Hdt & Hbas).
  pose proof HD as [Dl DW Dg Dn Dd].
  assert (Es : exists s, the_std dt_max opt a m = Ok s /\ sm_K s = dm_K m /\ sm_B s = dm_B m /\ std_pos s).
  { destruct a as [| |s]; cbn [good_arg the_std] in *; [contradiction| |exists s; tauto].
    destruct Ha as ((bo & Hbo) & HT & Hopt).
    destruct (@fit_own_ok dt_max opt m bo HK HB Hdt Hdm Hbo) as (s & E & E1 & E2 & _ & _ & _ & _ & _ & Hw & _).
    { intros d Hd. split; [now apply HT|]. destruct (Dd d Hd) as (P1 & _ & _ & _ & P2 & _). auto. } { exact Hopt. }
    exists s. split; [exact E|]. split; [exact E1|]. split; [exact E2|]. exact (@fitted_pos m s E1 E2 Hw). }
  destruct Es as (s & E & EK & EB & Hs). unfold init_spike_slab. fold m. rewrite E. cbn [bindr].
  destruct (@C52_valid_parameters s _ _ (mean_p (gi_net st)) EK EB HK HB (@mean_p_range _ _ Dn) Hs)
    as (ip & s' & Ei & V1 & V2 & V3 & _ & _).
  rewrite Ei. cbn [bindr fst snd].
  set (m1 := with_g (with_W (with_A (with_lam m (ip_lam ip)) (ip_A ip)) (ip_W ip)) (ip_g ip)).
  assert (H1 : 1 <= INR (dm_B m)) by (apply (le_INR 1); lia).
  assert (Hg : forall i j b, (i < dm_K m)%nat -> (j < dm_K m)%nat -> (b < dm_B m)%nat -> 0 < ip_g ip i j b).
  { intros i j b Hi Hj Hb. destruct (V3 i j Hi Hj) as [_ S2]. specialize (S2 b Hb).
    assert (0 < / 10 ^ 2 / (1 + / 10 ^ 2 * INR (dm_B m))) by (apply Rdiv_lt_0_compat; lra). lra. }
  assert (Hlam : forall k, (k < dm_K m)%nat -> 0 < ip_lam ip k).
  { intros k Hk. rewrite V1. apply Hs; [lia|unfold sm_P; lia]. }
  assert (HWe : forall i j, W_effective m1 i j = b2R (ip_A ip i j) * ip_W ip i j).
  { intros i j. unfold W_effective. change (dm_mix m1) with (dm_mix m). unfold m. rewrite Hmix. reflexivity. }
  destruct (@resample_parents_ok (h_gsl (gi_h st)) mult (params_of m1) (dm_data m1) 0) as (data & Er & HR).
  { intros d Hd. change (dm_data m1) with (dm_data m) in Hd. destruct (Dd d Hd) as (P1 & P2 & P3 & P4 & P5 & P6).
    split; [|split; [exact P5|intros j; rewrite P1, P2; apply Hmu]].
    unfold pa_nonneg. rewrite P1, P2. cbn [params_of q_lam q_W q_g]. split; [exact Hlam|]. split.
    - intros k1 k2 H2 H3. rewrite HWe. apply Rmult_le_pos; [destruct (b2R_01 (ip_A ip k1 k2)) as [->| ->]; lra|].
      left. apply V2; auto.
    - split; [intros k1 k2 b H2 H3 H4; left; now apply Hg|]. unfold nonneg_F in P4. rewrite P1, P2 in P4. exact P4. }
  change (dm_data m1) with (dm_data m) in *. rewrite Er. cbn [bindr]. do 2 eexists. split; [reflexivity|].
  cbn [with_model gi_m gi_net gi_h with_data dm_data].
  assert (Hdat : forall p, In p data -> exists d, In d (dm_data m) /\ reassigned (params_of m1) d p).
  { intros p Hp. destruct (Forall2_in_r _ HR Hp) as (d & Hd & Hre). eauto. }
  split; [exact Hfix|]. split; [|split].
  - constructor.
    + exact Hlam.
    + intros k1 k2 H2 H3. exact (proj1 (V2 k1 k2 H2 H3)).
    + intros k1 k2 H2 H3. split; [intros b Hb; now apply Hg|exact (proj1 (V3 k1 k2 H2 H3))].
    + exact Dn.
    + intros p Hp. destruct (Hdat p Hp) as (d & Hd & ((Z' & ->) & Hz & Hc & _)).
      destruct (Dd d Hd) as (P1 & P2 & P3 & P4 & P5 & P6).
      split; [exact P1|]. split; [exact P2|]. split; [exact P3|]. split; [exact P4|]. split; [exact P5|]. split; [exact Hz|now right].
  - clear - HR. induction HR as [|d p ds ps ((Z' & ->) & _) HR IH]; constructor; eauto.
  - intros p Hp. destruct (Hdat p Hp) as (d & Hd & ((Z' & ->) & Hz & Hc & H0)). split; [exact Hc|].
    destruct (Dd d Hd) as (P1 & P2 & _). fold m in P1, P2. intros t k1 k2 b Ht H2 H3 Hb HA. rewrite <- P2. apply H0; [exact Ht| | | |].
    + rewrite P1. exact H2.
    + rewrite P1. exact H3.
    + rewrite P2. exact Hb.
    + cbn [params_of q_W]. rewrite HWe. change (ip_A ip k1 k2 = false) in HA. rewrite HA. cbn [b2R]. ring.
Qed.
Print Assumptions C102_spike_slab_valid.

(* ------------------------------------------------------------------ *)
(** ** What the call does not do *)

(** The public classes require the argument. *)
Theorem C102_argument_required_refuted :
  forall dt_max opt mult x st, init_mixture dt_max opt Omitted x = Raise TypeError /\
    init_spike_slab dt_max opt mult Omitted st = Raise TypeError.
Proof. intros. split; reflexivity. Qed.
Print Assumptions C102_argument_required_refuted.

(** The fit looks only at the counts: the model's own basis and any features the user supplied play no role. *)
Theorem C102_features_ignored_refuted :
  forall dt_max opt m1 m2, dm_K m1 = dm_K m2 -> dm_B m1 = dm_B m2 -> dm_dt m1 = dm_dt m2 ->
  Forall2 (fun d1 d2 => pa_T d1 = pa_T d2 /\ pa_K d1 = pa_K d2 /\ pa_S d1 = pa_S d2) (dm_data m1) (dm_data m2) ->
  fit_own dt_max opt m1 = fit_own dt_max opt m2.
Proof.
  intros dt_max opt m1 m2 EK EB Edt H. unfold fit_own. rewrite EK, EB, Edt.
  destruct (std_default _ _ _ _) as [s0|e]; [|reflexivity]. cbn [bindr].
  assert (E : std_readd s0 (dm_data m1) = std_readd s0 (dm_data m2)).
  { clear EK EB Edt. revert s0. induction H as [|d1 d2 l1 l2 (E1 & E2 & E3) H IH]; intros s0; [reflexivity|]. cbn [std_readd].
    rewrite E1, E2, E3. destruct (s_add_data _ _ _ _); [|reflexivity]. cbn [bindr]. apply IH. }
  now rewrite E.
Qed.
Print Assumptions C102_features_ignored_refuted.

(** Data added in minibatches of one bin: the standard model is fitted to features that are all zero (each bin is filtered
    on its own), whatever the counts are, although the stored features carry the whole history. *)
Lemma in_offsets_one fuel : forall T off o, In o (offsets fuel T 1 off) -> (off <= o < T)%nat.
Proof.
  induction fuel as [|fuel IH]; intros T off o H; cbn [offsets] in H; [destruct H|].
  destruct (Nat.ltb_spec off T) as [Hl|_]; [|destruct H]. destruct H as [<-|H]; [lia|]. apply IH in H. lia.
Qed.
Theorem C102_minibatch_history_dropped_refuted :
  forall dt_max opt m T S_ m1 bo,
  (0 < dm_K m)%nat -> (0 < dm_B m)%nat -> 0 < dm_dt m -> 0 < dt_max -> dm_data m = [] ->
  (forall t k, (S_ t k < 2 ^ 32)%Z) ->
  add_data m (sval_of T (dm_K m) S_) None (Some 1%Z) = Ok m1 ->
  default_basis (dm_B m) (dm_dt m) dt_max bo -> own_optimiser (dm_K m) (dm_B m) opt ->
  exists s, fit_own dt_max opt m1 = Ok s /\
    forall e t k b, In e (sm_data s) -> (t < sd_T e)%nat -> (k < dm_K m)%nat -> (b < dm_B m)%nat ->
      sd_F e t (1 + (k * dm_B m + b))%nat = 0.
Proof.
  intros dt_max opt m T S_ m1 bo HK HB Hdt Hdm Hem Hsm E Hbo Hopt.
  unfold add_data in E. apply bindr_ok in E as (T' & ET & E). apply check_S_ok in ET as (_ & ET & _ & _ & _ & Hc).
  cbn [sval_of sv_dims sv_at] in ET, Hc. injection ET as <-.
  apply bindr_ok in E as (F & EF & E). cbn [batches Z.eqb Z.ltb Z.compare bindr] in E. injection E as <-. rewrite Hem. cbn [app].
  set (m1 := with_data m _).
  assert (Hd : forall d, In d (dm_data m1) -> pa_T d = 1%nat /\ pa_K d = dm_K m /\ fits d).
  { intros d Hd. cbn [m1 with_data dm_data] in Hd. apply in_map_iff in Hd as (o & <- & Ho). change (Z.to_nat 1) with 1%nat in *.
    apply in_offsets_one in Ho. cbn [mk_parents pa_T pa_K]. split; [lia|]. split; [reflexivity|].
    intros t k Ht Hk. cbn [mk_parents pa_T pa_K pa_S sval_of sv_at] in *. unfold slice2. split; [apply Hc; auto; lia|apply Hsm]. }
  destruct (@fit_own_ok dt_max opt m1 bo HK HB Hdt Hdm Hbo) as (s & Es & _ & _ & _ & _ & _ & _ & HF & _).
  { intros d H. destruct (Hd d H) as (P1 & P2 & P3). split; [lia|]. split; [exact P2|exact P3]. } { exact Hopt. }
  exists s. split; [exact Es|]. intros e t k b He Ht Hk Hb.
  destruct (Forall2_in_r _ HF He) as (d & Hdd & ET & ES & Hf). destruct (Hd d Hdd) as (P1 & _ & _). rewrite ET, P1 in Ht.
  assert (t = 0%nat) by lia. subst t. destruct (Hf 0%nat ltac:(lia)) as (_ & Hfe). change (dm_B m1) with (dm_B m) in Hfe.
  change (dm_K m1) with (dm_K m) in Hfe. rewrite Hfe by auto. unfold causal_conv. cbn [Rsum].
  destruct (default_rows Hdt Hdm Hbo HB) as (_ & Hr & _ & H0). destruct (Nat.ltb_spec 0 (bt_rows (bo_tab bo))); [|lia].
  rewrite H0 by exact Hb. ring.
Qed.
Print Assumptions C102_minibatch_history_dropped_refuted.

(** Self-connections: the standard model that is fitted always allows them, and the adjacency matrix is a threshold of its
    weights, so a self edge is switched on although the network disallows it as soon as a self weight is the largest. *)
Lemma sorted_top l M : sortedR l -> (forall x, In x l -> x <= M) -> count_occ Req_EM_T l M = 1%nat ->
  forall i, (i < length l - 1)%nat -> nth i l 0 < M.
Proof.
  intros Hs Hmax Hc i Hi. assert (Hle : nth i l 0 <= M) by (apply Hmax, nth_In; lia).
  destruct (Rle_lt_or_eq_dec _ _ Hle) as [|He]; [assumption|exfalso].
  assert (Hlast : nth (length l - 1) l 0 = M).
  { apply Rle_antisym; [apply Hmax, nth_In; lia|]. rewrite <- He. apply sorted_nth; [exact Hs|lia]. }
  assert (Hsp : forall (a b : nat) (l : list R), (a < b < length l)%nat -> nth a l 0 = M -> nth b l 0 = M -> (2 <= count_occ Req_EM_T l M)%nat).
  { clear. induction a as [|a IH]; intros b l Hab Ha Hb; destruct l as [|x l]; cbn [length] in Hab; try lia; destruct b as [|b]; try lia; cbn [nth] in Ha, Hb.
    - subst x. cbn [count_occ]. destruct (Req_EM_T M M); [|contradiction].
      assert (H : In M l) by (rewrite <- Hb; apply nth_In; lia). apply (count_occ_In Req_EM_T) in H. lia.
    - cbn [count_occ]. specialize (IH b l ltac:(lia) Ha Hb). destruct (Req_EM_T x M); lia. }
  specialize (Hsp i (length l - 1)%nat l ltac:(lia) He Hlast). lia.
Qed.
Lemma percentile_lt l q thr M : percentile l q = Ok thr -> q < 100 -> (2 <= length l)%nat ->
  (forall x, In x l -> x <= M) -> count_occ Req_EM_T l M = 1%nat -> thr < M.
Proof.
  intros E Hq Hlen Hmax Hc. unfold percentile in E. destruct (Rltb q 0) eqn:E0; [discriminate|]. destruct (Rltb 100 q) eqn:E1; [discriminate|].
  cbn [orb] in E. apply Rltb_false in E0, E1. destruct l as [|a l'] eqn:El; [cbn in Hlen; lia|]. rewrite <- El in *. clear El a l'.
  cbv zeta in E. injection E as <-.
  assert (HL1 : 1 <= INR (length l - 1)) by (apply (le_INR 1); lia).
  set (v := INR (length l - 1) * (q / 100)). assert (Hv : 0 <= v < INR (length l - 1)). { unfold v. nra. }
  destruct (floorZ_spec v) as (Hf1 & Hf2). set (z := floorZ v) in *.
  assert (Hz : (0 <= z)%Z). { apply le_IZR. assert (H : (-1 < z)%Z) by (apply lt_IZR; lra). apply IZR_le. lia. }
  assert (Hi : (Z.to_nat z < length l - 1)%nat). { apply INR_lt. rewrite INR_IZR_INZ, Z2Nat.id by exact Hz. lra. }
  assert (HI : INR (Z.to_nat z) = IZR z) by (rewrite INR_IZR_INZ, Z2Nat.id by exact Hz; reflexivity).
  rewrite HI. replace (Nat.min (Z.to_nat z + 1) (length l - 1)) with (Z.to_nat z + 1)%nat by lia.
  assert (Hlen' : length (sortR l) = length l) by (apply Permutation_length, sortR_perm).
  assert (Hcs : count_occ Req_EM_T (sortR l) M = 1%nat).
  { rewrite <- Hc. apply Permutation_count_occ, sortR_perm. }
  assert (Hms : forall x, In x (sortR l) -> x <= M). { intros x Hx. apply Hmax. eapply Permutation_in; [apply sortR_perm|exact Hx]. }
  pose proof (@sorted_top _ M (sortR_sorted l) Hms Hcs (Z.to_nat z) ltac:(lia)) as H1.
  assert (H2 : nth (Z.to_nat z + 1) (sortR l) 0 <= M) by (apply Hms, nth_In; lia).
  set (a := nth (Z.to_nat z) (sortR l) 0) in *. set (b := nth (Z.to_nat z + 1) (sortR l) 0) in *.
  assert (0 <= v - IZR z < 1) by lra. set (g := v - IZR z) in *. clearbody a b g. nra.
Qed.
Lemma count_flat_one K W i0 j0 : (i0 < K)%nat -> (j0 < K)%nat ->
  (forall i j, (i < K)%nat -> (j < K)%nat -> (i, j) <> (i0, j0) -> W i j < W i0 j0) ->
  count_occ Req_EM_T (flat_mat K W) (W i0 j0) = 1%nat /\ (forall x, In x (flat_mat K W) -> x <= W i0 j0).
Proof.
  intros Hi Hj Hmax. split.
  - unfold flat_mat.
    assert (Hrow : forall i, (i < K)%nat -> count_occ Req_EM_T (map (fun j => W i j) (seq 0 K)) (W i0 j0) = if Nat.eqb i i0 then 1%nat else 0%nat).
    { intros i Hi'. destruct (Nat.eqb_spec i i0) as [->|Hne].
      - assert (G : forall l, NoDup l -> (forall j, In j l -> (j < K)%nat) ->
                    count_occ Req_EM_T (map (fun j => W i0 j) l) (W i0 j0) = if in_dec Nat.eq_dec j0 l then 1%nat else 0%nat).
        { induction l as [|j l IH]; intros Hnd Hl; [reflexivity|]. inversion Hnd as [|? ? Hnin Hnd']; subst.
          cbn [map count_occ]. rewrite IH; [|exact Hnd'|intros; apply Hl; now right].
          destruct (Req_EM_T (W i0 j) (W i0 j0)) as [He|He].
          - assert (j = j0). { destruct (Nat.eq_dec j j0); [assumption|]. specialize (Hmax i0 j Hi (Hl j (or_introl eq_refl))). assert ((i0, j) <> (i0, j0)) by congruence. specialize (Hmax H). lra. }
            subst j. destruct (in_dec Nat.eq_dec j0 l); [contradiction|]. destruct (in_dec Nat.eq_dec j0 (j0 :: l)) as [|n0]; [reflexivity|]. exfalso; apply n0; now left.
          - destruct (in_dec Nat.eq_dec j0 l) as [Hin|Hin], (in_dec Nat.eq_dec j0 (j :: l)) as [Hin'|Hin']; try reflexivity.
            + exfalso; apply Hin'; now right.
            + destruct Hin' as [->|]; [congruence|contradiction]. }
        rewrite G; [|apply seq_NoDup|intros j Hjl; apply in_seq in Hjl; lia].
        destruct (in_dec Nat.eq_dec j0 (seq 0 K)) as [|n0]; [reflexivity|]. exfalso; apply n0, in_seq; lia.
      - apply count_occ_not_In. intros Hin. apply in_map_iff in Hin as (j & He & Hjl). apply in_seq in Hjl.
        specialize (Hmax i j Hi' ltac:(lia)). assert ((i, j) <> (i0, j0)) by congruence. specialize (Hmax H). lra. }
    assert (G : forall l, NoDup l -> (forall i, In i l -> (i < K)%nat) ->
              count_occ Req_EM_T (flat_map (fun i => map (fun j => W i j) (seq 0 K)) l) (W i0 j0) = if in_dec Nat.eq_dec i0 l then 1%nat else 0%nat).
    { induction l as [|i l IH]; intros Hnd Hl; [reflexivity|]. inversion Hnd as [|? ? Hnin Hnd']; subst.
      cbn [flat_map]. rewrite count_occ_app, Hrow by (apply Hl; now left). rewrite IH; [|exact Hnd'|intros; apply Hl; now right].
      destruct (Nat.eqb_spec i i0) as [->|Hne].
      - destruct (in_dec Nat.eq_dec i0 l); [contradiction|]. destruct (in_dec Nat.eq_dec i0 (i0 :: l)) as [|n0]; [reflexivity|]. exfalso; apply n0; now left.
      - destruct (in_dec Nat.eq_dec i0 l) as [Hin|Hin], (in_dec Nat.eq_dec i0 (i :: l)) as [Hin'|Hin']; try reflexivity.
        + exfalso; apply Hin'; now right.
        + destruct Hin' as [->|]; [congruence|contradiction]. }
    rewrite G; [|apply seq_NoDup|intros i Hil; apply in_seq in Hil; lia].
    destruct (in_dec Nat.eq_dec i0 (seq 0 K)) as [|n0]; [reflexivity|]. exfalso; apply n0, in_seq; lia.
  - intros x Hx. apply flat_mat_in in Hx as (i & j & Hi' & Hj' & ->).
    destruct (Nat.eq_dec i i0) as [->|Hne]; [destruct (Nat.eq_dec j j0) as [->|Hne]; [lra|]|]; left; apply Hmax; auto; congruence.
Qed.
Lemma flat_len K W : length (flat_mat K W) = (K * K)%nat.
Proof.
  unfold flat_mat. assert (G : forall l, length (flat_map (fun i => map (fun j => W i j) (seq 0 K)) l) = (length l * K)%nat).
  { induction l as [|i l IH]; [reflexivity|]. cbn [flat_map length]. rewrite app_length, map_length, seq_length, IH. cbn. reflexivity. }
  rewrite G, seq_length. reflexivity.
Qed.
Lemma largest_kept s K B mp ip s' k0 : (2 <= K)%nat -> 0 < mp -> (k0 < K)%nat ->
  (forall i j, (i < K)%nat -> (j < K)%nat -> (i, j) <> (k0, k0) -> s_W s i j < s_W s k0 k0) ->
  init_from_std s K B mp = Ok (ip, s') -> ip_A ip k0 k0 = true.
Proof.
  intros HK Hmp Hk Hmax E. unfold init_from_std in E. apply bindr_ok in E as (u1 & _ & E). apply bindr_ok in E as (u2 & _ & E).
  cbv zeta in E. apply bindr_ok in E as (thr & Et & E). injection E as <- _. cbn [ip_A]. apply Rltb_true.
  set (W := fun k1 k2 => s_W s k1 k2 + / 10 ^ 6) in *. change (thr < W k0 k0).
  destruct (@count_flat_one K W k0 k0 Hk Hk) as (Hc & Hm).
  { intros i j Hi Hj Hne. unfold W. specialize (Hmax i j Hi Hj Hne). lra. }
  eapply percentile_lt; [exact Et|lra| |exact Hm|exact Hc]. rewrite flat_len. nia.
Qed.
Theorem C102_self_edge_refuted :
  forall dt_max opt mult s st x k0,
  (2 <= dm_K (gi_m st))%nat -> 0 < mean_p (gi_net st) -> (k0 < dm_K (gi_m st))%nat -> mx_g x = st ->
  (forall i j, (i < dm_K (gi_m st))%nat -> (j < dm_K (gi_m st))%nat -> (i, j) <> (k0, k0) -> s_W s i j < s_W s k0 k0) ->
  (forall st' s', init_spike_slab dt_max opt mult (Given s) st = Ok (st', s') -> dm_A (gi_m st') k0 k0 = true) /\
  (forall x' s', init_mixture dt_max opt (Given s) x = Ok (x', s') -> dm_A (gi_m (mx_g x')) k0 k0 = true).
Proof.
  intros dt_max opt mult s st x k0 HK Hp Hk Ex Hmax. split.
  - intros st' s' E. unfold init_spike_slab in E. cbn [the_std bindr] in E. apply bindr_ok in E as ((ip & s1) & Ei & E).
    apply bindr_ok in E as (data & _ & E). injection E as <- _. cbn [fst]. eapply largest_kept; eauto.
  - intros x' s' E. unfold init_mixture, init_with_std in E. cbn [the_std bindr] in E. rewrite Ex in E. apply bindr_ok in E as ((ip & s1) & Ei & E).
    injection E as <- _. cbn [fst]. eapply largest_kept; eauto.
Qed.
Print Assumptions C102_self_edge_refuted.

(* ------------------------------------------------------------------ *)
(** ** Concrete cases *)

(** An optimiser that returns its (projected) starting point. *)
Definition lazy_opt : nat -> vec -> optim := fun _ x0 => AskF (clip_row None x0) (fun _ => Done (clip_row None x0)).
Lemma lazy_ok K B : own_optimiser K B lazy_opt.
Proof.
  intros s _ _ Ha k x0 Hk. assert (Hin : in_bounds None (sm_P s) (clip_row None x0)) by (apply clip_in_bounds; exact I).
  split; [|intros f g _; cbn; lra]. split; [|intros v]; (split; [exact Hin|]); intros H; congruence.
Qed.
(** A two-process model with the default basis: an event of each process in each of 12 bins, in one piece or bin by bin. *)
Definition ex102 (bo : basis_obj) : dmodel :=
  {| dm_K := 2; dm_B := 5; dm_dt := 1; dm_L := bt_rows (bo_tab bo); dm_L_int := true; dm_bas := table bo; dm_mix := true;
     dm_A := fun _ _ => true; dm_W := fun _ _ => 1; dm_g := fun _ _ _ => / 5; dm_lam := fun _ => 1; dm_data := [] |}.
Example C102_nonvacuous :
  exists bo m1 s, default_basis 5 1 10 bo /\ add_data (ex102 bo) (sval_of 12 2 (fun _ _ => 1%Z)) None None = Ok m1 /\
    own_optimiser 2 5 lazy_opt /\ stored m1 /\ fit_own 10 lazy_opt m1 = Ok s /\
    (forall d t k b, In d (dm_data m1) -> (t < pa_T d)%nat -> (k < 2)%nat -> (b < 5)%nat ->
        pa_F d t k b = causal_conv (bt_rows (bo_tab bo)) (table bo) (pa_S d) t k b) /\
    (forall k, (k < 2)%nat -> background_rate m1 k = 1) /\ dm_data m1 <> [].
Proof.
  destruct C01_default_basis as (bo & E & _ & Er & H0 & Hu).
  assert (Hbo : default_basis 5 1 10 bo) by (split; [exact E|rewrite Er; exact Hu]).
  destruct (@convolve_ok 12 2 (fun _ _ => 1%Z) (bt_rows (bo_tab bo)) 5 (table bo)) as (F & EF); [lia|lia|rewrite Er; lia|lia|].
  set (m1 := with_data (ex102 bo) [mk_parents 2 5 1 12 (fun _ _ => 1%Z) F]).
  assert (Ea : add_data (ex102 bo) (sval_of 12 2 (fun _ _ => 1%Z)) None None = Ok m1).
  { unfold add_data. change (dm_K (ex102 bo)) with 2%nat. rewrite (proj2 (check_S_ok 2 (sval_of 12 2 (fun _ _ => 1%Z)) 12)).
    2:{ split; [reflexivity|]. split; [reflexivity|]. split; [lia|]. split; [lia|]. split; [reflexivity|]. intros t k _ _. cbn. lia. }
    cbn [bindr get_F ex102 dm_K dm_B dm_L dm_bas sval_of sv_at]. rewrite EF. reflexivity. }
  assert (Hst : stored m1).
  { intros d [<-|[]]. split; [cbn; lia|]. split; [reflexivity|]. intros t k _ _. cbn. lia. }
  destruct (@fit_own_ok 10 lazy_opt m1 bo) as (s & Es & _); [cbn; lia|cbn; lia|cbn; lra|lra|exact Hbo|exact Hst|apply lazy_ok|].
  exists bo, m1, s. split; [exact Hbo|]. split; [exact Ea|]. split; [apply lazy_ok|]. split; [exact Hst|]. split; [exact Es|]. split; [|split].
  - intros d t k b Hd Ht Hk Hb. destruct (@C102_plain_data_partial _ _ _ _ Ea d Hd) as [[]|(P1 & P2 & P3)].
    rewrite P2. rewrite P1 in Ht. exact (P3 t k b Ht Hk Hb).
  - intros k Hk. unfold background_rate. cbn [m1 with_data dm_data map lsum fold_right mk_parents pa_T pa_S dm_dt ex102].
    unfold n_events. cbn. lra.
  - discriminate.
Qed.
(** Bin by bin, the stored features of the last bin are 1 (its history is complete), the fitted ones 0. *)
Example C102_minibatch_nonvacuous :
  exists bo m1 d, default_basis 5 1 10 bo /\ add_data (ex102 bo) (sval_of 12 2 (fun _ _ => 1%Z)) None (Some 1%Z) = Ok m1 /\
    In d (dm_data m1) /\ pa_T d = 1%nat /\ forall k b, (k < 2)%nat -> (b < 5)%nat -> pa_F d 0%nat k b = 1.
Proof.
  destruct C01_default_basis as (bo & E & _ & Er & H0 & Hu).
  assert (Hbo : default_basis 5 1 10 bo) by (split; [exact E|rewrite Er; exact Hu]).
  destruct (@convolve_ok 12 2 (fun _ _ => 1%Z) (bt_rows (bo_tab bo)) 5 (table bo)) as (F & EF); [lia|lia|rewrite Er; lia|lia|].
  eexists bo, _, (mk_parents 2 5 1 1 (slice2 11 (fun _ _ => 1%Z)) (slice3 11 F)). split; [exact Hbo|]. split.
  { unfold add_data. change (dm_K (ex102 bo)) with 2%nat. rewrite (proj2 (check_S_ok 2 (sval_of 12 2 (fun _ _ => 1%Z)) 12)).
    2:{ split; [reflexivity|]. split; [reflexivity|]. split; [lia|]. split; [lia|]. split; [reflexivity|]. intros t k _ _. cbn. lia. }
    cbn [bindr get_F ex102 dm_K dm_B dm_L dm_bas sval_of sv_at]. rewrite EF. cbn [bindr batches Z.eqb Z.ltb Z.compare]. reflexivity. }
  split. { cbn [with_data dm_data ex102 app]. apply in_map_iff. exists 11%nat. split; [reflexivity|]. apply (nth_error_In _ 11). reflexivity. }
  split; [reflexivity|]. intros k b Hk Hb. cbn [mk_parents pa_F]. unfold slice3. change (11 + 0)%nat with 11%nat.
  rewrite (@convolve_entry _ _ _ _ _ _ _ EF) by lia. rewrite conv_full_causal by lia. rewrite Er.
  destruct (Hu b Hb) as (f & Hf & Hs).
  rewrite (@Rsum_ext 12 _ (fun l => if Nat.ltb l 11 then f l else 0)).
  2:{ intros l Hl. destruct (Nat.ltb_spec l 11) as [Hl'|]; [|reflexivity]. unfold table. rewrite (proj1 (Hf l Hl')). cbn [fval]. ring. }
  cbn [Rsum Nat.ltb Nat.leb] in *. lra.
Qed.
(** A spike-and-slab model without self-connections, initialised from a standard model: process 0 gets a self edge. *)
Definition ex102_ss : gibbs := {| gi_m := {| dm_K := 2; dm_B := 1; dm_dt := 1; dm_L := 2; dm_L_int := true; dm_bas := fun l _ => INR l; dm_mix := false;
    dm_A := fun _ _ => false; dm_W := fun _ _ => 1; dm_g := fun _ _ _ => 1; dm_lam := fun _ => 1; dm_data := [] |}; gi_net := ex_er 2; gi_h := ex_hyp |}.
Example C102_self_edge_nonvacuous :
  exists st' s', init_spike_slab 1 lazy_opt (fun _ => ex_last) (Given ex_std) ex102_ss = Ok (st', s') /\
    net_allow (gi_net st') = false /\ dm_A (gi_m st') 0%nat 0%nat = true.
Proof.
  destruct (@C52_valid_parameters ex_std 2 1 (1/2) eq_refl eq_refl ltac:(lia) ltac:(lia) ltac:(lra) ex_std_pos) as (ip & m' & E & _).
  assert (Ei : exists st' s', init_spike_slab 1 lazy_opt (fun _ => ex_last) (Given ex_std) ex102_ss = Ok (st', s') /\ net_allow (gi_net st') = false).
  { unfold init_spike_slab. cbn [the_std bindr ex102_ss gi_m gi_net dm_K dm_B ex_er mean_p e_p]. rewrite E. cbn. eauto. }
  destruct Ei as (st' & s' & Ei & En). exists st', s'. split; [exact Ei|]. split; [exact En|].
  destruct (@C102_self_edge_refuted 1 lazy_opt (fun _ => ex_last) ex_std ex102_ss
     {| mx_g := ex102_ss; mx_bias := mfbias_init 1 1; mx_gamma := fun _ _ _ => 1; mx_w := w_from_gibbs 1 1 (fun _ _ => true) (fun _ _ => 1) 1; mx_scalar := false;
        mx_f := {| mf_pi := fun _ => 0; mf_m := fun _ _ => 0; mf_tau0 := fun _ _ => 0; mf_tau1 := fun _ _ => 0; mf_alpha := fun _ _ => 0; mf_beta := fun _ _ => 0 |};
        mx_off := None |} 0%nat) as (H & _); [cbn; lia|cbn; lra|cbn; lia|reflexivity| |now apply (H st' s')].
  intros i j Hi Hj Hne. cbn [ex102_ss gi_m dm_K] in *. unfold s_W. cbn [ex_std ex_sm sm_with_w sm_B sm_w Rsum Nat.add].
  destruct i as [|[|i]]; [| |lia]; destruct j as [|[|j]]; try lia; cbn; try lra. congruence.
Qed.
