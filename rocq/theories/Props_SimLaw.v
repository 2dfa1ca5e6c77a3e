(** * Props_SimLaw: C115, simulated counts have the law that the likelihood describes. *)
From Verif Require Import Prelude ExtReal Arrays Spec_Basis Spec_Discrete Spec_CtJoint Spec_Simulation
  M_Basis M_Parents M_Discrete M_SimLaw L_Basis L_Discrete Props_Discrete Props_CtJoint.
From Coquelicot Require Import Coquelicot.
Set Implicit Arguments.
Open Scope R_scope.

(** ** Sums over tables *)
Lemma over_row_ext K F G : (forall v, F v = G v) -> over_row K F = over_row K G.
Proof.
  revert F G. induction K as [|K IH]; intros F G H; cbn; [apply H|].
  apply IH. intros v. apply Series_ext. intros n. apply H.
Qed.
Lemma over_row_scal K a F : over_row K (fun v => a * F v) = a * over_row K F.
Proof.
  revert F. induction K as [|K IH]; intros F; cbn; [reflexivity|].
  rewrite <- IH. apply over_row_ext. intros v. apply Series_scal_l.
Qed.
Lemma over_counts_ext T K F G : (forall c, F c = G c) -> over_counts T K F = over_counts T K G.
Proof.
  revert F G. induction T as [|T IH]; intros F G H; cbn; [apply H|].
  apply IH. intros c. apply over_row_ext. intros v. apply H.
Qed.

(** Oracle that hands out a fixed table. *)
Definition fixed (c : nat -> nat -> nat) : pois_oracle := fun t => these (c t) t.

Lemma gen_step_oracle m p1 p2 st t : p1 t = p2 t -> gen_step m p1 st t = gen_step m p2 st t.
Proof. intros E. unfold gen_step. rewrite E. reflexivity. Qed.
Lemma gen_loop_oracle m p1 p2 T : (forall t, (t < T)%nat -> p1 t = p2 t) -> gen_loop m p1 T = gen_loop m p2 T.
Proof.
  induction T as [|T IH]; intros H; [reflexivity|]. rewrite !gen_loop_S, IH by (intros; apply H; lia).
  apply gen_step_oracle, H. lia.
Qed.
Lemma upd_other {A} (c : nat -> A) t v s : s <> t -> upd c t v s = c s.
Proof. intros H. unfold upd. destruct (Nat.eqb_spec s t); congruence. Qed.
Lemma upd_same {A} (c : nat -> A) t v : upd c t v t = v.
Proof. unfold upd. now rewrite Nat.eqb_refl. Qed.

(** The run under the law is the run on each table, weighted by the probability of the draws it makes. *)
Lemma gen_law_counts m T f :
  gen_law m T f = over_counts T (dm_K m) (fun c =>
    Rprod T (fun t => Rprod (dm_K m) (fun k => pmf (gs_D (gen_loop m (fixed c) T) t k) (c t k))) * f (gen_loop m (fixed c) T)).
Proof.
  revert f. induction T as [|T IH]; intros f.
  - cbn. change (gen_loop m (fixed (fun _ _ => 0%nat)) 0) with (gen_init m). ring.
  - cbn [gen_law over_counts]. rewrite IH. apply over_counts_ext. intros c. cbv beta. rewrite <- over_row_scal.
    apply over_row_ext. intros v.
    assert (E : gen_loop m (fixed (upd c T v)) T = gen_loop m (fixed c) T).
    { apply gen_loop_oracle. intros t Ht. unfold fixed. now rewrite upd_other by lia. }
    assert (E1 : gen_loop m (fixed (upd c T v)) (S T) = gen_step m (these v) (gen_loop m (fixed c) T) T).
    { rewrite gen_loop_S, E. apply gen_step_oracle. unfold fixed, these. now rewrite upd_same. }
    rewrite E1. cbn [Rprod]. rewrite <- Rmult_assoc. f_equal. f_equal.
    + apply Rprod_ext. intros t Ht. rewrite upd_other by lia. apply Rprod_ext. intros k Hk.
      unfold gen_step. cbn [gs_D]. destruct (Nat.eqb_spec t T); [lia|reflexivity].
    + rewrite upd_same. apply Rprod_ext. intros k Hk. unfold gen_step. cbn [gs_D]. now rewrite Nat.eqb_refl.
Qed.

Lemma generate_finish m pois keep T : generate m pois keep T = finish m keep T (gen_loop m pois T).
Proof. reflexivity. Qed.

Lemma fixed_counts m c T t k : (t < T)%nat -> gs_S (gen_loop m (fixed c) T) t k = ints c t k.
Proof. intros Ht. destruct (@gen_loop_draw m (fixed c) T t k Ht) as [-> _]. reflexivity. Qed.

(** Means used by the simulator: background plus the responses to strictly earlier bins. *)
Definition past_mean (m : dmodel) (S_ : imat) (t k : nat) : R :=
  dm_dt m * hawkes_rate (dm_K m) (dm_B m) (dm_lam m) (net_weight m) (dm_g m) (strict_conv (dm_L m) (dm_bas m) S_) t k.
(** Means under which the library scores data: dt times the rate compute_rate reports. *)
Definition scored_mean (m : dmodel) (S_ : imat) (t k : nat) : R := dm_dt m * net_rate m S_ t k.

Lemma strict_conv_window L bas S1 S2 t k b :
  (forall s, (s < t)%nat -> S1 s k = S2 s k) -> strict_conv L bas S1 t k b = strict_conv L bas S2 t k b.
Proof. intros H. unfold strict_conv. apply Rsum_ext. intros s Hs. now rewrite H. Qed.

Lemma fixed_means m c T t k : (t < T)%nat -> gs_D (gen_loop m (fixed c) T) t k = past_mean m (ints c) t k.
Proof.
  intros Ht. rewrite gen_draw_strict by auto. unfold past_mean. f_equal.
  transitivity (hawkes_rate (dm_K m) (dm_B m) (dm_lam m) (W_effective m) (dm_g m) (strict_conv (dm_L m) (dm_bas m) (ints c)) t k).
  - apply hawkes_rate_ext. intros k1 b _ _. apply strict_conv_window. intros s Hs. apply fixed_counts. lia.
  - apply hawkes_rate_W. intros; apply W_effective_net.
Qed.

(** C115a.  For every model, generate is the sum over all tables c: the outcome on c, weighted by the probability of c when every
    count is Poisson around the mean that the earlier bins give. *)
Theorem C115_generate_law :
  forall m keep T f,
  generate_law m keep T f
  = over_counts T (dm_K m) (fun c => table_prob T (dm_K m) (past_mean m) c * f (generate m (fixed c) keep T)).
Proof.
  intros m keep T f. unfold generate_law. rewrite gen_law_counts. apply over_counts_ext. intros c.
  rewrite generate_finish. f_equal. unfold table_prob. apply Rprod_ext. intros t Ht. apply Rprod_ext. intros k Hk.
  now rewrite fixed_means.
Qed.
Print Assumptions C115_generate_law.

(** ** One table *)
Lemma Series_point (a : nat -> R) n0 : (forall n, n <> n0 -> a n = 0) -> Series a = a n0.
Proof.
  intros H. assert (E : forall n, sum_n a n = if Nat.leb n0 n then a n0 else 0).
  { induction n as [|n IH].
    - rewrite sum_O. destruct (Nat.leb_spec n0 0); [now replace n0 with 0%nat by lia|apply H; lia].
    - rewrite sum_Sn, IH. change plus with Rplus.
      destruct (Nat.leb_spec n0 n), (Nat.leb_spec n0 (S n)); try lia.
      + rewrite (H (S n)) by lia. lra.
      + replace n0 with (S n) by lia. lra.
      + rewrite (H (S n)) by lia. lra. }
  unfold Series. rewrite (Lim_seq_ext_loc _ (fun _ => a n0)); [now rewrite Lim_seq_const|].
  exists n0. intros n Hn. rewrite E. destruct (Nat.leb_spec n0 n); [reflexivity|lia].
Qed.

Lemma over_row_point K v0 F :
  (forall v k, (k < K)%nat -> v k <> v0 k -> F v = 0) ->
  exists v, (forall k, (k < K)%nat -> v k = v0 k) /\ over_row K F = F v.
Proof.
  revert F. induction K as [|K IH]; intros F H; cbn.
  - exists (fun _ => 0%nat). split; [intros; lia|reflexivity].
  - destruct (IH (fun v => Series (fun n => F (upd v K n)))) as (v & Hv & E).
    + intros v k Hk Hn. rewrite (Series_ext _ (fun _ => 0)); [now rewrite (@Series_point (fun _ => 0) 0%nat)|].
      intros n. apply (H _ k); [lia|]. now rewrite upd_other by lia.
    + exists (upd v K (v0 K)). split.
      * intros k Hk. destruct (Nat.eq_dec k K) as [->|Hn]; [apply upd_same|]. rewrite upd_other by auto. apply Hv. lia.
      * rewrite E. apply (@Series_point (fun n => F (upd v K n)) (v0 K)). intros n Hn. apply (H _ K); [lia|]. now rewrite upd_same.
Qed.
Lemma over_row_zero K F : (forall v, F v = 0) -> over_row K F = 0.
Proof.
  intros H. destruct (@over_row_point K (fun _ => 0%nat) F) as (v & _ & ->); [intros; apply H|apply H].
Qed.
Lemma over_counts_point T K c0 F :
  (forall c t k, (t < T)%nat -> (k < K)%nat -> c t k <> c0 t k -> F c = 0) ->
  exists c, (forall t k, (t < T)%nat -> (k < K)%nat -> c t k = c0 t k) /\ over_counts T K F = F c.
Proof.
  revert F. induction T as [|T IH]; intros F H; cbn.
  - exists (fun _ _ => 0%nat). split; [intros; lia|reflexivity].
  - destruct (IH (fun c => over_row K (fun v => F (upd c T v)))) as (c & Hc & E).
    + intros c t k Ht Hk Hn. apply over_row_zero. intros v. apply (H _ t k); [lia|auto|]. now rewrite upd_other by lia.
    + destruct (@over_row_point K (c0 T) (fun v => F (upd c T v))) as (v & Hv & Ev).
      * intros v k Hk Hn. apply (H _ T k); [lia|auto|]. now rewrite upd_same.
      * exists (upd c T v). split; [|congruence].
        intros t k Ht Hk. destruct (Nat.eq_dec t T) as [->|Hn]; [rewrite upd_same; now apply Hv|].
        rewrite upd_other by auto. apply Hc; [lia|auto].
Qed.

Lemma past_mean_window m T S1 S2 t k :
  same_table T (dm_K m) S1 S2 -> (t <= T)%nat -> past_mean m S1 t k = past_mean m S2 t k.
Proof.
  intros H Ht. unfold past_mean. f_equal. apply hawkes_rate_ext. intros k1 b Hk1 _. apply strict_conv_window.
  intros s Hs. apply H; [lia|auto].
Qed.
Lemma table_prob_window m T c1 c2 :
  (forall t k, (t < T)%nat -> (k < dm_K m)%nat -> c1 t k = c2 t k) ->
  table_prob T (dm_K m) (past_mean m) c1 = table_prob T (dm_K m) (past_mean m) c2.
Proof.
  intros H. unfold table_prob. apply Rprod_ext. intros t Ht. apply Rprod_ext. intros k Hk.
  rewrite (H t k) by auto. f_equal. apply (@past_mean_window m T); [|lia].
  intros t' k' Ht' Hk'. unfold ints. now rewrite H.
Qed.

(** The outcome is a normal return whose counts are the table c. *)
Definition returns (T K : nat) (c : nat -> nat -> nat) (o : result (dmodel * imat * mat)) : bool :=
  match o with
  | Ok (_, S_, _) => forall_lt T (fun t => forall_lt K (fun k => Z.eqb (S_ t k) (ints c t k)))
  | Raise _ => false
  end.

Lemma generate_fixed_ok m c keep T :
  proper_dims m -> (0 < T)%nat -> dm_L_int m = true ->
  (forall t k, (t < T)%nat -> (k < dm_K m)%nat -> (c t k < 1000)%nat) ->
  exists m' S_ R_, generate m (fixed c) keep T = Ok (m', S_, R_).
Proof.
  intros Hd HT HL Hc.
  destruct Hd as (HK & HB & HLL). unfold generate. rewrite HL. cbn [negb].
  assert (Hg : forall t k, (t < T)%nat -> (k < dm_K m)%nat -> (0 <= gs_S (gen_loop m (fixed c) T) t k < 1000)%Z).
  { intros t k Ht Hk. rewrite fixed_counts by auto. unfold ints. specialize (Hc t k Ht Hk). lia. }
  match goal with |- context [forall_lt ?n ?p] => assert (Eb : forall_lt n p = true) end.
  { apply forall_lt_true; intros t Ht. apply forall_lt_true; intros k Hk. apply Z.ltb_lt, Hg; auto. }
  rewrite Eb. cbn [negb]. destruct keep; [|eauto].
  destruct (@convolve_ok T (dm_K m) (gs_S (gen_loop m (fixed c) T)) (dm_L m) (dm_B m) (dm_bas m)) as (F & EF); auto.
  erewrite add_data_ok; [|auto|auto| |exact EF|reflexivity].
  - cbn [bindr]. eauto.
  - intros t k Ht Hk. now apply Hg.
Qed.

Lemma generate_fixed_large m c keep T t k :
  (t < T)%nat -> (k < dm_K m)%nat -> (1000 <= c t k)%nat -> exists e, generate m (fixed c) keep T = Raise e.
Proof.
  intros Ht Hk Hc. unfold generate. destruct (dm_L_int m); cbn [negb]; [|eauto].
  match goal with |- context [forall_lt ?n ?p] => assert (Eb : forall_lt n p = false) end.
  { destruct (forall_lt _ _) eqn:E; [|reflexivity]. exfalso.
    pose proof (proj1 (forall_lt_true _ _) E t Ht) as E1. cbn in E1.
    pose proof (proj1 (forall_lt_true _ _) E1 k Hk) as E2. cbn in E2.
    rewrite fixed_counts in E2 by auto. apply Z.ltb_lt in E2. unfold ints in E2. lia. }
  rewrite Eb. cbn [negb]. eauto.
Qed.

Lemma returns_fixed m keep T c c0 : returns T (dm_K m) c0 (generate m (fixed c) keep T) = true ->
  forall t k, (t < T)%nat -> (k < dm_K m)%nat -> c t k = c0 t k.
Proof.
  destruct (generate m (fixed c) keep T) as [[[m' S_] R_]|e] eqn:E; cbn; [|discriminate].
  intros H t k Ht Hk. apply generate_inv in E as (-> & _).
  pose proof (proj1 (forall_lt_true _ _) H t Ht) as E1. cbn in E1.
  pose proof (proj1 (forall_lt_true _ _) E1 k Hk) as E2. cbn in E2.
  rewrite fixed_counts in E2 by auto. apply Z.eqb_eq in E2. unfold ints in E2. lia.
Qed.

(** C115b.  generate returns the table c exactly with that probability; a table with 1000 or more events in a bin is never
    returned. *)
Theorem C115_table_probability :
  forall m keep T c, proper_dims m -> (0 < T)%nat -> dm_L_int m = true ->
  ((forall t k, (t < T)%nat -> (k < dm_K m)%nat -> (c t k < 1000)%nat) ->
   generate_prob m keep T (returns T (dm_K m) c) = table_prob T (dm_K m) (past_mean m) c) /\
  ((exists t k, (t < T)%nat /\ (k < dm_K m)%nat /\ (1000 <= c t k)%nat) ->
   generate_prob m keep T (returns T (dm_K m) c) = 0).
Proof.
  intros m keep T c Hd HT HL. unfold generate_prob. rewrite C115_generate_law.
  destruct (@over_counts_point T (dm_K m) c (fun c1 => table_prob T (dm_K m) (past_mean m) c1 *
     (if returns T (dm_K m) c (generate m (fixed c1) keep T) then 1 else 0))) as (c1 & Hc1 & ->).
  { intros c1 t k Ht Hk Hn. destruct (returns _ _ _ _) eqn:E; [|ring].
    exfalso. apply Hn. now apply (@returns_fixed m keep T c1 c E). }
  rewrite (@table_prob_window m T c1 c) by auto. split.
  - intros Hc. destruct (@generate_fixed_ok m c1 keep T Hd HT HL) as (m' & S_ & R_ & E).
    { intros t k Ht Hk. rewrite Hc1; auto. }
    rewrite E. apply generate_inv in E as (-> & _). cbn [returns].
    match goal with |- context [forall_lt ?n ?p] => assert (Eb : forall_lt n p = true) end.
    { apply forall_lt_true; intros t Ht. apply forall_lt_true; intros k Hk. rewrite fixed_counts by auto.
      apply Z.eqb_eq. unfold ints. now rewrite Hc1. }
    rewrite Eb. ring.
  - intros (t & k & Ht & Hk & Hc). destruct (@generate_fixed_large m c1 keep T t k) as (e & ->); auto.
    { now rewrite Hc1. }
    cbn [returns]. ring.
Qed.
Print Assumptions C115_table_probability.

(** ** Total probability *)
Lemma Series_pmf mu : Series (pmf mu) = 1.
Proof.
  apply is_series_unique.
  apply (is_series_ext (fun n => exp (- mu) * (mu ^ n * / INR (fact n)))).
  { intros n. unfold pmf, Rdiv. symmetry; apply Rmult_assoc. }
  replace 1 with (exp (- mu) * exp mu).
  2:{ rewrite <- exp_plus. replace (- mu + mu) with 0 by ring. apply exp_0. }
  apply (@is_series_scal R_AbsRing R_NormedModule (exp (- mu))).
  pose proof (is_exp_Reals mu) as H. apply is_pseries_R in H.
  eapply is_series_ext; [|exact H]. intros n. cbn. apply Rmult_comm.
Qed.
Lemma over_row_pmf K mu : over_row K (fun v => Rprod K (fun k => pmf (mu k) (v k))) = 1.
Proof.
  induction K as [|K IH]; [reflexivity|]. cbn [over_row Rprod].
  rewrite <- IH. apply over_row_ext. intros v.
  rewrite (Series_ext _ (fun n => Rprod K (fun k => pmf (mu k) (v k)) * pmf (mu K) n)).
  - rewrite Series_scal_l, Series_pmf. ring.
  - intros n. rewrite upd_same. f_equal. apply Rprod_ext. intros k Hk. now rewrite upd_other by lia.
Qed.
Lemma gen_law_ext m T f g : (forall st, f st = g st) -> gen_law m T f = gen_law m T g.
Proof.
  revert f g. induction T as [|T IH]; intros f g H; cbn; [apply H|]. apply IH. intros st. apply over_row_ext. intros v.
  now rewrite H.
Qed.
Lemma gen_law_one m T : gen_law m T (fun _ => 1) = 1.
Proof.
  induction T as [|T IH]; cbn; [reflexivity|]. transitivity (gen_law m T (fun _ => 1)); [|exact IH]. apply gen_law_ext. intros st.
  transitivity (over_row (dm_K m) (fun v => Rprod (dm_K m) (fun k => pmf (gs_R st T k * dm_dt m) (v k)))); [|apply over_row_pmf].
  apply over_row_ext. intros v. ring.
Qed.

(** C115c.  The probabilities are those of a law: non-negative, total mass 1. *)
Theorem C115_total_probability :
  forall m keep T, generate_law m keep T (fun _ => 1) = 1 /\
  over_counts T (dm_K m) (table_prob T (dm_K m) (past_mean m)) = 1.
Proof.
  intros m keep T. split; [apply gen_law_one|].
  transitivity (generate_law m keep T (fun _ => 1)); [|apply gen_law_one].
  rewrite C115_generate_law. apply over_counts_ext. intros c. ring.
Qed.
Print Assumptions C115_total_probability.

(** ** The likelihood *)
Lemma past_scored m S_ t k :
  (forall b, (b < dm_B m)%nat -> dm_bas m 0%nat b = 0) -> past_mean m S_ t k = scored_mean m S_ t k.
Proof.
  intros H0. unfold past_mean, scored_mean, net_rate. f_equal. apply hawkes_rate_ext. intros k1 b _ Hb.
  symmetry. now apply causal_strict, H0.
Qed.
Lemma ints_counts T K c : counts T K (ints c).
Proof. intros t k _ _. unfold ints. lia. Qed.
Lemma Rprod_mult n f g : Rprod n (fun i => f i * g i) = Rprod n f * Rprod n g.
Proof. induction n as [|n IH]; cbn; [ring|rewrite IH; ring]. Qed.
Lemma Rprod_exp n f : Rprod n (fun i => exp (f i)) = exp (Rsum n f).
Proof. induction n as [|n IH]; cbn; [now rewrite exp_0|now rewrite IH, exp_plus]. Qed.

(** What the counts alone contribute: it does not depend on any parameter. *)
Definition base_measure (T K : nat) (dt : R) (c : nat -> nat -> nat) : R :=
  Rprod T (fun t => Rprod K (fun k => dt ^ c t k / INR (fact (c t k)))).

Lemma scored_ll m T c :
  (forall t k, (t < T)%nat -> (k < dm_K m)%nat -> 0 < net_rate m (ints c) t k) ->
  table_prob T (dm_K m) (scored_mean m) c
  = exp (poisson_loglik T (dm_K m) (dm_dt m) (ints c) (net_rate m (ints c))) * base_measure T (dm_K m) (dm_dt m) c.
Proof.
  intros Hp. unfold table_prob, base_measure, poisson_loglik. rewrite <- Rprod_exp, <- Rprod_mult.
  apply Rprod_ext. intros t Ht. rewrite <- Rprod_exp, <- Rprod_mult. apply Rprod_ext. intros k Hk.
  unfold pmf, scored_mean. rewrite Rpow_mult_distr. unfold Rminus. rewrite exp_plus.
  replace (exp (IZR (ints c t k) * ln (net_rate m (ints c) t k))) with (net_rate m (ints c) t k ^ c t k).
  - unfold Rdiv. ring.
  - unfold ints at 2. rewrite <- INR_IZR_INZ. symmetry. change (Rpower (net_rate m (ints c) t k) (INR (c t k)) = net_rate m (ints c) t k ^ c t k).
    apply Rpower_pow, Hp; auto.
Qed.

(** C115d.  When no basis function acts within a bin, the probability that the simulator returns a table is the value
    heldout_log_likelihood gives it, up to the factor dt^n / n! per bin, which no parameter enters. *)
Theorem C115_simulation_matches_likelihood_partial :
  forall m keep T c, proper_dims m -> nonneg_params m -> (0 < T)%nat -> dm_L_int m = true ->
  (forall b, (b < dm_B m)%nat -> dm_bas m 0%nat b = 0) ->
  (forall t k, (t < T)%nat -> (k < dm_K m)%nat -> (c t k < 1000)%nat) ->
  exists ll, heldout_log_likelihood m (sval_of T (dm_K m) (ints c)) None = (Ok (Fin ll), m) /\
  generate_prob m keep T (returns T (dm_K m) c) = exp ll * base_measure T (dm_K m) (dm_dt m) c.
Proof.
  intros m keep T c Hd Hn HT HL H0 Hc.
  assert (Hp : forall t k, (t < T)%nat -> (k < dm_K m)%nat -> 0 < net_rate m (ints c) t k).
  { intros t k Ht Hk. apply (@net_rate_pos m T); auto. apply ints_counts. }
  eexists. split; [now apply C09_heldout_log_likelihood|].
  rewrite (proj1 (@C115_table_probability m keep T c Hd HT HL) Hc), <- scored_ll by auto.
  unfold table_prob. apply Rprod_ext. intros t Ht. apply Rprod_ext. intros k Hk. now rewrite past_scored.
Qed.
Print Assumptions C115_simulation_matches_likelihood_partial.

(** Full claim fails: with an effect inside the bin (lag 0), the simulator draws a bin before that effect is added, the
    likelihood scores it after. *)
Theorem C115_simulation_matches_likelihood_refuted :
  exists m T c, proper_dims m /\ nonneg_params m /\ (0 < T)%nat /\ dm_L_int m = true /\
  (forall t k, (t < T)%nat -> (k < dm_K m)%nat -> (c t k < 1000)%nat) /\
  forall keep, exists ll, heldout_log_likelihood m (sval_of T (dm_K m) (ints c)) None = (Ok (Fin ll), m) /\
  generate_prob m keep T (returns T (dm_K m) c) <> exp ll * base_measure T (dm_K m) (dm_dt m) c.
Proof.
  exists ex_inst, 1%nat, (fun _ _ => 1%nat).
  assert (Hd : proper_dims ex_inst) by (repeat split; cbn; lia).
  assert (Hn : nonneg_params ex_inst).
  { split; [|split; [|split]].
    - intros k _. cbn. lra.
    - intros k1 k2 _ _. cbn. lra.
    - intros; cbn; lra.
    - intros; cbn; lra. }
  assert (Hp : forall t k, (t < 1)%nat -> (k < dm_K ex_inst)%nat -> 0 < net_rate ex_inst (ints (fun _ _ => 1%nat)) t k).
  { intros t k Ht Hk. apply (@net_rate_pos ex_inst 1); auto. apply ints_counts. }
  split; [exact Hd|]. split; [exact Hn|]. split; [lia|]. split; [reflexivity|].
  split; [intros; lia|]. intros keep.
  eexists. split; [apply C09_heldout_log_likelihood; auto|].
  rewrite (proj1 (@C115_table_probability ex_inst keep 1 _ Hd ltac:(lia) eq_refl)) by (intros; lia).
  rewrite <- scored_ll by auto.
  assert (E1 : table_prob 1 (dm_K ex_inst) (past_mean ex_inst) (fun _ _ => 1%nat) = exp (-1)).
  { unfold table_prob, past_mean, pmf, hawkes_rate, strict_conv. cbn. match goal with |- context [exp ?x] => replace x with (-1) by ring end. field. }
  assert (E2 : table_prob 1 (dm_K ex_inst) (scored_mean ex_inst) (fun _ _ => 1%nat) = 2 * exp (-2)).
  { unfold table_prob, scored_mean, net_rate, pmf, hawkes_rate, causal_conv, net_weight. cbn.
    match goal with |- context [exp ?x] => replace x with (-2) by ring end. field. }
  rewrite E1, E2. replace (-2) with (-1 + -1) by ring. rewrite exp_plus.
  assert (Hx : exp (-1) * exp 1 = 1) by (rewrite <- exp_plus; replace (-1 + 1) with 0 by ring; apply exp_0).
  pose proof (exp_pos (-1)) as H1. pose proof (exp_ineq1 1 ltac:(lra)) as H2.
  intros E. nra.
Qed.
Print Assumptions C115_simulation_matches_likelihood_refuted.

Example C115_nonvacuous :
  let c := fun t k => if (Nat.eqb t 0 && Nat.eqb k 0)%bool then 2%nat else 0%nat in
  (forall b, (b < dm_B ex_m)%nat -> dm_bas ex_m 0%nat b = 0) /\ dm_L_int ex_m = true /\
  (forall t k, (t < 2)%nat -> (k < dm_K ex_m)%nat -> (c t k < 1000)%nat) /\
  past_mean ex_m (ints c) 1 1 = 2 /\
  generate_prob ex_m false 2 (returns 2 2 c) = exp (-1) / 2 * exp (-1) * (exp (-1) * exp (-2)).
Proof.
  intros c. split; [reflexivity|]. split; [reflexivity|].
  assert (Hc : forall t k, (t < 2)%nat -> (k < dm_K ex_m)%nat -> (c t k < 1000)%nat).
  { intros t k _ _. unfold c. destruct (_ && _)%bool; lia. }
  split; [exact Hc|].
  assert (E : past_mean ex_m (ints c) 1 1 = 2).
  { unfold past_mean, hawkes_rate, strict_conv, net_weight, edge_weight, ints, c. cbn. lra. }
  split; [exact E|].
  change 2%nat with (dm_K ex_m) at 3.
  rewrite (proj1 (@C115_table_probability ex_m false 2 c ex_proper ltac:(lia) eq_refl) Hc).
  unfold table_prob. cbn [dm_K ex_m Rprod]. rewrite E.
  assert (E0 : past_mean ex_m (ints c) 0 0 = 1) by (unfold past_mean, hawkes_rate, strict_conv; cbn; lra).
  assert (E1 : past_mean ex_m (ints c) 0 1 = 1) by (unfold past_mean, hawkes_rate, strict_conv; cbn; lra).
  assert (E2 : past_mean ex_m (ints c) 1 0 = 1).
  { unfold past_mean, hawkes_rate, strict_conv, net_weight, edge_weight, ints, c. cbn. lra. }
  rewrite E0, E1, E2. unfold pmf, c. cbn. replace (Ropp 1) with (-1) by ring. replace (Ropp 2) with (-2) by ring. field.
Qed.
