(** * Props_Influence: C126, influence is additive, only excites, and a weight is an expected number of further events. *)
From Verif Require Import Prelude ExtReal Arrays Spec_Basis Spec_Discrete M_Basis L_Basis M_Parents M_Discrete L_Discrete Props_Discrete Props_Prior.
Set Implicit Arguments.
Open Scope R_scope.

(** What one event of process j adds to the rate of process k, l bins later. *)
Definition response (m : dmodel) (j k l : nat) : R := net_weight m j k * Rsum (dm_B m) (fun b => dm_g m j k b * dm_bas m l b).
(** The counts with one more event of process j in bin t0. *)
Definition one_more (t0 j : nat) (S_ : imat) : imat := fun t k => if (Nat.eqb t t0 && Nat.eqb k j)%bool then (S_ t k + 1)%Z else S_ t k.
(** The same model apart from background rates and weights, which are nowhere larger. *)
Record weaker (m m' : dmodel) : Prop := {
  wk_K : dm_K m' = dm_K m; wk_B : dm_B m' = dm_B m; wk_L : dm_L m' = dm_L m; wk_dt : dm_dt m' = dm_dt m;
  wk_bas : forall l b, dm_bas m' l b = dm_bas m l b;
  wk_g : forall i j b, dm_g m' i j b = dm_g m i j b;
  wk_lam : forall k, (k < dm_K m)%nat -> dm_lam m k <= dm_lam m' k;
  wk_W : forall i j, (i < dm_K m)%nat -> (j < dm_K m)%nat -> net_weight m i j <= net_weight m' i j }.

Lemma conv_plus rows bas S1 S2 t k b :
  causal_conv rows bas (fun t k => (S1 t k + S2 t k)%Z) t k b = causal_conv rows bas S1 t k b + causal_conv rows bas S2 t k b.
Proof.
  unfold causal_conv. rewrite <- Rsum_plus. apply Rsum_ext. intros l _. destruct (Nat.ltb l rows); [|ring]. rewrite plus_IZR. ring.
Qed.
Lemma conv_zero rows bas t k b : causal_conv rows bas (fun _ _ => 0%Z) t k b = 0.
Proof. unfold causal_conv. apply Rsum_0. intros l _. destruct (Nat.ltb l rows); ring. Qed.
Lemma net_rate_plus m S1 S2 t k :
  net_rate m (fun t k => (S1 t k + S2 t k)%Z) t k - dm_lam m k = (net_rate m S1 t k - dm_lam m k) + (net_rate m S2 t k - dm_lam m k).
Proof.
  unfold net_rate, hawkes_rate.
  replace (dm_lam m k + Rsum (dm_K m) (fun k1 => Rsum (dm_B m) (fun b => net_weight m k1 k * dm_g m k1 k b * causal_conv (dm_L m) (dm_bas m) (fun t k => (S1 t k + S2 t k)%Z) t k1 b)) - dm_lam m k)
    with (Rsum (dm_K m) (fun k1 => Rsum (dm_B m) (fun b => net_weight m k1 k * dm_g m k1 k b * causal_conv (dm_L m) (dm_bas m) (fun t k => (S1 t k + S2 t k)%Z) t k1 b))) by ring.
  replace (dm_lam m k + Rsum (dm_K m) (fun k1 => Rsum (dm_B m) (fun b => net_weight m k1 k * dm_g m k1 k b * causal_conv (dm_L m) (dm_bas m) S1 t k1 b)) - dm_lam m k +
     (dm_lam m k + Rsum (dm_K m) (fun k1 => Rsum (dm_B m) (fun b => net_weight m k1 k * dm_g m k1 k b * causal_conv (dm_L m) (dm_bas m) S2 t k1 b)) - dm_lam m k))
    with (Rsum (dm_K m) (fun k1 => Rsum (dm_B m) (fun b => net_weight m k1 k * dm_g m k1 k b * causal_conv (dm_L m) (dm_bas m) S1 t k1 b)) +
          Rsum (dm_K m) (fun k1 => Rsum (dm_B m) (fun b => net_weight m k1 k * dm_g m k1 k b * causal_conv (dm_L m) (dm_bas m) S2 t k1 b))) by ring.
  rewrite <- Rsum_plus. apply Rsum_ext. intros k1 _. rewrite <- Rsum_plus. apply Rsum_ext. intros b _. rewrite conv_plus. ring.
Qed.
Lemma net_rate_ext m S1 S2 t k : (forall s j, (s <= t)%nat -> (j < dm_K m)%nat -> S1 s j = S2 s j) -> net_rate m S1 t k = net_rate m S2 t k.
Proof.
  intros H. unfold net_rate. apply hawkes_rate_ext. intros k1 b Hk _. unfold causal_conv. apply Rsum_ext. intros l Hl. destruct (Nat.ltb l _); [|reflexivity].
  rewrite H by (auto; lia). reflexivity.
Qed.

(** C126 (additivity): the rate of no events is the background rate, and the excess over it for two recordings taken together is the
    sum of the excesses. *)
Theorem C126_additive : forall m index T S1 S2, proper_dims m -> (0 < T)%nat ->
  exists R0 R1 R2 R12,
    compute_rate m index (Some (sval_of T (dm_K m) (fun _ _ => 0%Z))) None = Ok (T, R0) /\
    compute_rate m index (Some (sval_of T (dm_K m) S1)) None = Ok (T, R1) /\
    compute_rate m index (Some (sval_of T (dm_K m) S2)) None = Ok (T, R2) /\
    compute_rate m index (Some (sval_of T (dm_K m) (fun t k => (S1 t k + S2 t k)%Z))) None = Ok (T, R12) /\
    forall t k, (t < T)%nat -> (k < dm_K m)%nat ->
      R0 t k = dm_lam m k /\ R12 t k - R0 t k = (R1 t k - R0 t k) + (R2 t k - R0 t k).
Proof.
  intros m index T S1 S2 Hd HT.
  destruct (@C04_compute_rate m index T (fun _ _ => 0%Z) Hd HT) as (R0 & E0 & H0). destruct (@C04_compute_rate m index T S1 Hd HT) as (R1 & E1 & H1).
  destruct (@C04_compute_rate m index T S2 Hd HT) as (R2 & E2 & H2). destruct (@C04_compute_rate m index T (fun t k => (S1 t k + S2 t k)%Z) Hd HT) as (R12 & E12 & H12).
  exists R0, R1, R2, R12. repeat (split; [assumption|]). intros t k Ht Hk.
  assert (E : R0 t k = dm_lam m k).
  { rewrite H0 by auto. unfold net_rate, hawkes_rate. rewrite Rsum_0; [ring|]. intros k1 _. apply Rsum_0. intros b _. rewrite conv_zero. ring. }
  split; [exact E|]. rewrite E, H1, H2, H12 by auto. apply net_rate_plus.
Qed.
Print Assumptions C126_additive.

Lemma conv_unit rows bas t0 j t k b :
  causal_conv rows bas (fun t k => if (Nat.eqb t t0 && Nat.eqb k j)%bool then 1%Z else 0%Z) t k b
  = if (Nat.leb t0 t && Nat.ltb (t - t0) rows && Nat.eqb k j)%bool then bas (t - t0)%nat b else 0.
Proof.
  unfold causal_conv. destruct (Nat.leb_spec t0 t) as [Ht|Ht]; cbn [andb].
  - rewrite (@Rsum_ext (S t) _ (fun l => if Nat.eqb (t - t0) l then (if (Nat.ltb (t - t0) rows && Nat.eqb k j)%bool then bas (t - t0)%nat b else 0) else 0)).
    + rewrite (@Rsum_single (S t) _ (t - t0)%nat); [rewrite Nat.eqb_refl; reflexivity|lia|]. intros i Hi Hne. destruct (Nat.eqb_spec (t - t0) i); [lia|reflexivity].
    + intros l Hl. destruct (Nat.eqb_spec (t - t0) l) as [<-|Hne].
      * replace (t - (t - t0))%nat with t0 by lia. rewrite Nat.eqb_refl. cbn [andb]. destruct (Nat.ltb _ _), (Nat.eqb k j); cbn [andb]; ring.
      * destruct (Nat.eqb_spec (t - l) t0); [lia|]. cbn [andb]. destruct (Nat.ltb _ _); ring.
  - apply Rsum_0. intros l Hl. destruct (Nat.eqb_spec (t - l) t0); [lia|]. cbn [andb]. destruct (Nat.ltb _ _); ring.
Qed.
Lemma net_rate_one_more m S_ t0 j t k : (j < dm_K m)%nat ->
  net_rate m (one_more t0 j S_) t k = net_rate m S_ t k + (if (Nat.leb t0 t && Nat.ltb (t - t0) (dm_L m))%bool then response m j k (t - t0) else 0).
Proof.
  intros Hj. set (e := fun t k => if (Nat.eqb t t0 && Nat.eqb k j)%bool then 1%Z else 0%Z).
  rewrite (@net_rate_ext m (one_more t0 j S_) (fun t k => (S_ t k + e t k)%Z)).
  2:{ intros s i _ _. unfold one_more, e. destruct (_ && _)%bool; lia. }
  pose proof (net_rate_plus m S_ e t k) as H.
  enough (E : net_rate m e t k - dm_lam m k = if (Nat.leb t0 t && Nat.ltb (t - t0) (dm_L m))%bool then response m j k (t - t0) else 0) by lra. clear H.
  unfold net_rate, hawkes_rate.
  match goal with |- ?a + ?b - ?a = _ => replace (a + b - a) with b by ring end.
  rewrite (@Rsum_single (dm_K m) _ j); [|exact Hj|].
  - rewrite (@Rsum_ext (dm_B m) _ (fun b => net_weight m j k * (if (Nat.leb t0 t && Nat.ltb (t - t0) (dm_L m))%bool then dm_g m j k b * dm_bas m (t - t0)%nat b else 0))).
    + rewrite Rsum_scal. destruct (_ && _)%bool; [reflexivity|]. rewrite Rsum_zero. ring.
    + intros b _. unfold e. rewrite conv_unit, Nat.eqb_refl, Bool.andb_true_r. destruct (_ && _)%bool; ring.
  - intros i Hi Hne. apply Rsum_0. intros b _. unfold e. rewrite conv_unit. destruct (Nat.eqb_spec i j); [congruence|]. rewrite Bool.andb_false_r. ring.
Qed.
Lemma window_sum f L t0 : forall T, Rsum T (fun t => if (Nat.leb t0 t && Nat.ltb (t - t0) L)%bool then f (t - t0)%nat else 0) = Rsum (Nat.min L (T - t0)) f.
Proof.
  induction T as [|T IH]; [rewrite Nat.sub_0_l, Nat.min_0_r; reflexivity|]. cbn [Rsum]. rewrite IH.
  destruct (Nat.leb_spec t0 T) as [Ht|Ht]; cbn [andb].
  - replace (S T - t0)%nat with (S (T - t0)) by lia. destruct (Nat.ltb_spec (T - t0) L).
    + rewrite (Nat.min_r L (T - t0)), (Nat.min_r L (S (T - t0))) by lia. reflexivity.
    + rewrite (Nat.min_l L (T - t0)), (Nat.min_l L (S (T - t0))) by lia. ring.
  - replace (S T - t0)%nat with 0%nat by lia. replace (T - t0)%nat with 0%nat by lia. ring.
Qed.

(** C126 (what one event does): one more event of process j in bin t0 changes nothing before t0; it never lowers a rate; the expected
    number of further events of process k it brings (the sum over bins of dt times the extra rate) is at most the weight from j to k, and
    exactly that weight once the recording is long enough for its response to die out. *)
Theorem C126_one_more_event : forall m index T S_ t0 j, proper_dims m -> (t0 < T)%nat -> (j < dm_K m)%nat ->
  nonneg_mat (dm_K m) (dm_W m) -> stochastic_g (dm_K m) (dm_B m) (dm_g m) -> normalised_basis (dm_dt m) (dm_L m) (dm_B m) (dm_bas m) -> 0 < dm_dt m ->
  exists R_ R', compute_rate m index (Some (sval_of T (dm_K m) S_)) None = Ok (T, R_) /\
    compute_rate m index (Some (sval_of T (dm_K m) (one_more t0 j S_))) None = Ok (T, R') /\
    (forall t k, (t < T)%nat -> (k < dm_K m)%nat -> R_ t k <= R' t k /\ ((t < t0)%nat -> R' t k = R_ t k)) /\
    forall k, (k < dm_K m)%nat -> let further := dm_dt m * Rsum T (fun t => R' t k - R_ t k) in
      further <= net_weight m j k /\ ((t0 + dm_L m <= T)%nat -> further = net_weight m j k).
Proof.
  intros m index T S_ t0 j Hd HT Hj HW Hg Hb Hdt. assert (HT' : (0 < T)%nat) by lia.
  destruct (@C04_compute_rate m index T S_ Hd HT') as (R_ & E & H). destruct (@C04_compute_rate m index T (one_more t0 j S_) Hd HT') as (R' & E' & H').
  exists R_, R'. split; [exact E|]. split; [exact E'|].
  assert (HN : forall k, (k < dm_K m)%nat -> 0 <= net_weight m j k).
  { intros k Hk. unfold net_weight, edge_weight. specialize (HW j k Hj Hk). destruct (dm_mix m), (dm_A m j k); lra. }
  assert (Hr : forall k l, (k < dm_K m)%nat -> (l < dm_L m)%nat -> 0 <= response m j k l).
  { intros k l Hk Hl. apply Rmult_le_pos; [auto|]. apply Rsum_nonneg. intros b Hb'. apply Rmult_le_pos; [now apply (Hg j k)|]. now apply (Hb b). }
  assert (D : forall t k, (t < T)%nat -> (k < dm_K m)%nat -> R' t k - R_ t k = if (Nat.leb t0 t && Nat.ltb (t - t0) (dm_L m))%bool then response m j k (t - t0) else 0).
  { intros t k Ht Hk. rewrite H, H' by auto. rewrite net_rate_one_more by exact Hj. ring. }
  split.
  - intros t k Ht Hk. specialize (D t k Ht Hk). destruct (Nat.leb_spec t0 t); cbn [andb] in D.
    + destruct (Nat.ltb_spec (t - t0) (dm_L m)); [pose proof (Hr k (t - t0)%nat Hk ltac:(lia)); split; [lra|lia]|split; [lra|lia]].
    + split; [lra|intros; lra].
  - intros k Hk. cbv zeta. rewrite (Rsum_ext _ _ (fun t Ht => D t k Ht Hk)). rewrite window_sum.
    assert (Tot : dm_dt m * Rsum (dm_L m) (response m j k) = net_weight m j k).
    { unfold response. rewrite Rsum_scal, Rsum_swap. rewrite (@Rsum_ext (dm_B m) _ (fun b => dm_g m j k b * Rsum (dm_L m) (fun l => dm_bas m l b))) by (intros b _; apply Rsum_scal).
      replace (dm_dt m * (net_weight m j k * Rsum (dm_B m) (fun b => dm_g m j k b * Rsum (dm_L m) (fun l => dm_bas m l b))))
        with (net_weight m j k * (dm_dt m * Rsum (dm_B m) (fun b => dm_g m j k b * Rsum (dm_L m) (fun l => dm_bas m l b)))) by ring.
      rewrite <- Rsum_scal. rewrite (@Rsum_ext (dm_B m) _ (fun b => dm_g m j k b)).
      - destruct (Hg j k Hj Hk) as [_ ->]. ring.
      - intros b Hb'. destruct (Hb b Hb') as [_ Hn]. rewrite <- (Rmult_1_r (dm_g m j k b)) at 2. rewrite <- Hn. ring. }
    split.
    + rewrite <- Tot. apply Rmult_le_compat_l; [lra|]. apply Rsum_le_sub; [lia|]. intros i Hi. apply Hr; auto.
    + intros HL. rewrite Nat.min_l by lia. exact Tot.
Qed.
Print Assumptions C126_one_more_event.

Lemma net_weight_nonneg m i j : nonneg_params m -> (i < dm_K m)%nat -> (j < dm_K m)%nat -> 0 <= net_weight m i j.
Proof. intros (_ & HW & _) Hi Hj. unfold net_weight, edge_weight. specialize (HW i j Hi Hj). destruct (dm_mix m), (dm_A m i j); lra. Qed.
Lemma hawkes_rate_mono m m' F F' t k : nonneg_params m -> weaker m m' -> (k < dm_K m)%nat ->
  (forall j b, (j < dm_K m)%nat -> (b < dm_B m)%nat -> 0 <= F t j b <= F' t j b) ->
  hawkes_rate (dm_K m) (dm_B m) (dm_lam m) (net_weight m) (dm_g m) F t k <= hawkes_rate (dm_K m') (dm_B m') (dm_lam m') (net_weight m') (dm_g m') F' t k.
Proof.
  intros Hn Hw Hk HF. unfold hawkes_rate. rewrite (wk_K Hw), (wk_B Hw). apply Rplus_le_compat; [now apply (wk_lam Hw)|].
  apply Rsum_le. intros j Hj. apply Rsum_le. intros b Hb. rewrite (wk_g Hw). destruct (HF j b Hj Hb). pose proof (wk_W Hw Hj Hk). pose proof (net_weight_nonneg Hn Hj Hk).
  assert (0 <= dm_g m j k b) by (apply Hn; auto).
  apply Rmult_le_compat; [apply Rmult_le_pos; lra|lra| |lra]. apply Rmult_le_compat_r; lra.
Qed.

(** C126 (monotonicity): more events, larger background rates, larger weights or more edges never lower a rate. *)
Theorem C126_monotone : forall m m' index T S_ S', proper_dims m -> nonneg_params m -> weaker m m' -> (0 < T)%nat -> counts T (dm_K m) S_ ->
  (forall t k, (t < T)%nat -> (k < dm_K m)%nat -> (S_ t k <= S' t k)%Z) ->
  exists R_ R', compute_rate m index (Some (sval_of T (dm_K m) S_)) None = Ok (T, R_) /\
    compute_rate m' index (Some (sval_of T (dm_K m) S')) None = Ok (T, R') /\
    forall t k, (t < T)%nat -> (k < dm_K m)%nat -> R_ t k <= R' t k.
Proof.
  intros m m' index T S_ S' Hd Hn Hw HT Hc HS.
  assert (Hd' : proper_dims m') by (unfold proper_dims; rewrite (wk_K Hw), (wk_B Hw), (wk_L Hw); exact Hd).
  destruct (@C04_compute_rate m index T S_ Hd HT) as (R_ & E & H). destruct (@C04_compute_rate m' index T S' Hd' HT) as (R' & E' & H').
  exists R_, R'. split; [exact E|]. rewrite (wk_K Hw) in E'. split; [exact E'|]. intros t k Ht Hk. rewrite H, H' by (rewrite ?(wk_K Hw); auto). unfold net_rate.
  apply hawkes_rate_mono; auto. intros j b Hj Hb. unfold causal_conv.
  split; [apply Rsum_nonneg|apply Rsum_le]; intros l Hl; rewrite ?(wk_L Hw), ?(wk_bas Hw); destruct (Nat.ltb_spec l (dm_L m)); try lra;
    (assert (0 <= dm_bas m l b) by (apply Hn; auto)); pose proof (Hc (t - l)%nat j ltac:(lia) Hj) as C; apply IZR_le in C.
  - apply Rmult_le_pos; lra.
  - pose proof (IZR_le _ _ (HS (t - l)%nat j ltac:(lia) Hj)). apply Rmult_le_compat_l; lra.
Qed.
Print Assumptions C126_monotone.

(** A way of drawing Poisson counts in which a larger mean never gives fewer events (inversion of a uniform number does this). *)
Definition increasing_draws (pois : pois_oracle) : Prop := forall t k x y, 0 <= x <= y -> (0 <= pois t k x <= pois t k y)%Z.
(** C126 (simulation): with the same random numbers, larger background rates, larger weights or more edges never give fewer events, in any
    bin of any process, nor a lower rate. *)
Theorem C126_simulation_monotone : forall m m' pois keep keep' T m1 S1 R1 m2 S2 R2,
  proper_dims m -> nonneg_params m -> 0 <= dm_dt m -> weaker m m' -> increasing_draws pois ->
  generate m pois keep T = Ok (m1, S1, R1) -> generate m' pois keep' T = Ok (m2, S2, R2) ->
  forall t k, (t < T)%nat -> (k < dm_K m)%nat -> (0 <= S1 t k <= S2 t k)%Z /\ R1 t k <= R2 t k.
Proof.
  intros m m' pois keep keep' T m1 S1 R1 m2 S2 R2 Hd Hn Hdt Hw Hp E1 E2.
  assert (Hd' : proper_dims m') by (unfold proper_dims; rewrite (wk_K Hw), (wk_B Hw), (wk_L Hw); exact Hd).
  destruct (C07_generate_causal m) as (mean & _ & M & D). destruct (C07_generate_causal m') as (mean' & _ & M' & D').
  specialize (D _ _ _ _ _ _ E1). specialize (D' _ _ _ _ _ _ E2). rewrite (wk_K Hw) in D'.
  assert (G : forall n t k, (t < n)%nat -> (t < T)%nat -> (k < dm_K m)%nat -> (0 <= S1 t k <= S2 t k)%Z).
  { induction n as [|n IH]; intros t k Hn' Ht Hk; [lia|]. rewrite (D t k Ht Hk), (D' t k Ht Hk). apply Hp. rewrite M, M', (wk_dt Hw).
    assert (F : forall j b, (j < dm_K m)%nat -> (b < dm_B m)%nat ->
       0 <= strict_conv (dm_L m) (dm_bas m) S1 t j b <= strict_conv (dm_L m') (dm_bas m') S2 t j b).
    { intros j b Hj Hb. unfold strict_conv. rewrite (wk_L Hw).
      split; [apply Rsum_nonneg|apply Rsum_le]; intros s Hs; rewrite ?(wk_bas Hw); destruct (Nat.ltb_spec (t - s) (dm_L m)); try lra;
        (assert (0 <= dm_bas m (t - s)%nat b) by (apply Hn; auto)); destruct (IH s j ltac:(lia) ltac:(lia) Hj) as [C1 C2]; apply IZR_le in C1, C2.
      - apply Rmult_le_pos; lra.
      - apply Rmult_le_compat_l; lra. }
    split; [|apply Rmult_le_compat_l; [exact Hdt|]; now apply hawkes_rate_mono].
    apply Rmult_le_pos; [exact Hdt|]. unfold hawkes_rate. apply Rplus_le_le_0_compat; [apply Rlt_le, Hn, Hk|].
    apply Rsum_nonneg. intros j Hj. apply Rsum_nonneg. intros b Hb. destruct (F j b Hj Hb). apply Rmult_le_pos; [|assumption].
    apply Rmult_le_pos; [now apply net_weight_nonneg|]. apply Hn; auto. }
  intros t k Ht Hk. split; [apply (G (S t)); auto|].
  assert (HT : (0 < T)%nat) by lia.
  destruct (@C06_generate_rate m pois keep T m1 S1 R1 Hd HT E1) as (Ra & Ea & Ha). destruct (@C06_generate_rate m' pois keep' T m2 S2 R2 Hd' HT E2) as (Rb & Eb & Hb).
  destruct (@C126_monotone m m' 0%Z T S1 S2 Hd Hn Hw HT) as (Rc & Rd & Ec & Ed & Hcd).
  - intros s j Hs Hj. apply (G (S s)); auto.
  - intros s j Hs Hj. apply (G (S s)); auto.
  - rewrite Ea in Ec. rewrite (wk_K Hw), Ed in Eb. injection Ec as EE. injection Eb as EE2. subst. rewrite (Ha t k), (Hb t k) by (rewrite ?(wk_K Hw); auto). now apply Hcd.
Qed.
Print Assumptions C126_simulation_monotone.

(** The example model: weight 1/2 from 0 to 1, response in the next bin; its edge removed. *)
Definition ex_off : dmodel :=
  {| dm_K := 2; dm_B := 1; dm_dt := 1; dm_L := 2; dm_L_int := true; dm_bas := fun l _ => if Nat.eqb l 1 then 1 else 0; dm_mix := false;
     dm_A := fun _ _ => false; dm_W := fun _ _ => 1/2; dm_g := fun _ _ _ => 1; dm_lam := fun _ => 1; dm_data := [] |}.
Example C126_nonvacuous : proper_dims ex_m /\ nonneg_params ex_m /\ weaker ex_off ex_m /\ nonneg_params ex_off /\
  stochastic_g 2 1 (dm_g ex_m) /\ normalised_basis 1 2 1 (dm_bas ex_m) /\ net_weight ex_m 0%nat 1%nat = 1 / 2 /\ response ex_m 0 1 1 = 1 / 2 /\
  increasing_draws (fun t k x => if Rleb 1 x then 1%Z else 0%Z).
Proof.
  split; [exact ex_proper|]. split; [exact ex_nonneg|]. split.
  { constructor; cbn; auto; try (intros; lra). intros i j _ _. unfold net_weight, edge_weight. cbn. destruct (_ && _)%bool; lra. }
  split. { repeat split; cbn; try (intros ?; intros; cbn; lra). intros l b _ _. destruct (Nat.eqb l 1); lra. }
  split. { intros i j _ _. split; [intros; cbn; lra|cbn; ring]. }
  split. { intros b _. split; [intros l _; cbn; destruct (Nat.eqb l 1); lra|cbn; ring]. }
  split; [reflexivity|]. split; [unfold response, net_weight, edge_weight; cbn; lra|].
  intros t k x y [H1 H2]. destruct (Rleb 1 x) eqn:E1, (Rleb 1 y) eqn:E2; try lia. apply Rleb_true in E1. apply Rleb_false in E2. lra.
Qed.
