(** * Props_Marginal: C117, the reported likelihood is the density of the model with its attributions summed out, and the
    attribution step draws from the conditional law of the attributions. *)
From Verif Require Import Prelude ExtReal Arrays Spec_Basis Spec_Discrete Spec_Parents Spec_CtJoint Spec_Simulation Spec_Marginal
  M_Basis M_Parents M_Discrete M_SimLaw M_ParentsLaw L_Basis L_Discrete L_Parents L_Gibbs L_Minibatch L_Joint Spec_Joint Props_Discrete Props_Parents Props_Joint Props_CtJoint Props_SimLaw.
From Coq Require Import FunctionalExtensionality.
Set Implicit Arguments.
Open Scope R_scope.

(** ** Sums over attributions *)
Lemma over_splits_ext M n F G : (forall x, F x = G x) -> over_splits M n F = over_splits M n G.
Proof.
  revert n F G. induction M as [|M IH]; intros n F G H; cbn [over_splits]; [destruct (n =? 0)%nat; auto|].
  apply Rsum_ext. intros j _. apply IH. auto.
Qed.
Lemma over_splits_scal M n a F : over_splits M n (fun x => a * F x) = a * over_splits M n F.
Proof.
  revert n F. induction M as [|M IH]; intros n F; cbn [over_splits]; [destruct (n =? 0)%nat; ring|].
  rewrite <- Rsum_scal. apply Rsum_ext. intros j _. now rewrite <- IH.
Qed.
Lemma over_bin_ext K M n F G : (forall x, F x = G x) -> over_bin K M n F = over_bin K M n G.
Proof.
  revert F G. induction K as [|K IH]; intros F G H; cbn [over_bin]; [auto|]. apply IH. intros X. apply over_splits_ext. auto.
Qed.
Lemma over_bin_scal K M n a F : over_bin K M n (fun x => a * F x) = a * over_bin K M n F.
Proof.
  revert F. induction K as [|K IH]; intros F; cbn [over_bin]; [reflexivity|]. rewrite <- IH. apply over_bin_ext. intros X.
  apply over_splits_scal.
Qed.
Lemma over_attr_ext T K M c F G : (forall x, F x = G x) -> over_attributions T K M c F = over_attributions T K M c G.
Proof.
  revert F G. induction T as [|T IH]; intros F G H; cbn [over_attributions]; [auto|]. apply IH. intros X. apply over_bin_ext. auto.
Qed.
Lemma over_attr_scal T K M c a F : over_attributions T K M c (fun x => a * F x) = a * over_attributions T K M c F.
Proof.
  revert F. induction T as [|T IH]; intros F; cbn [over_attributions]; [reflexivity|]. rewrite <- IH. apply over_attr_ext. intros X.
  apply over_bin_scal.
Qed.
Lemma over_bin_prod K M n (f : nat -> (nat -> nat) -> R) :
  over_bin K M n (fun X => Rprod K (fun k => f k (X k))) = Rprod K (fun k => over_splits M (n k) (f k)).
Proof.
  induction K as [|K IH]; [reflexivity|]. cbn [over_bin Rprod]. rewrite <- IH, Rmult_comm, <- over_bin_scal. apply over_bin_ext. intros X.
  rewrite (over_splits_ext _ _ _ (fun x => Rprod K (fun k => f k (X k)) * f K x)).
  - rewrite over_splits_scal. ring.
  - intros x. rewrite upd_same. f_equal. apply Rprod_ext. intros k Hk. now rewrite upd_other by lia.
Qed.
Lemma over_attr_prod T K M c (f : nat -> (nat -> nat -> nat) -> R) :
  over_attributions T K M c (fun Y => Rprod T (fun t => f t (Y t))) = Rprod T (fun t => over_bin K M (c t) (f t)).
Proof.
  induction T as [|T IH]; [reflexivity|]. cbn [over_attributions Rprod]. rewrite <- IH, Rmult_comm, <- over_attr_scal. apply over_attr_ext. intros Y.
  rewrite (over_bin_ext _ _ _ _ (fun x => Rprod T (fun t => f t (Y t)) * f T x)).
  - rewrite over_bin_scal. ring.
  - intros x. rewrite upd_same. f_equal. apply Rprod_ext. intros t Ht. now rewrite upd_other by lia.
Qed.

(** Multinomial theorem. *)
Lemma Rsum_f_R0 n f : Rsum (S n) f = sum_f_R0 f n.
Proof. induction n as [|n IH]; [cbn; ring|]. cbn [sum_f_R0]. rewrite <- IH. reflexivity. Qed.
Lemma multinomial_theorem M n (q : vec) :
  over_splits M n (fun x => Rprod M (fun c => q c ^ x c / INR (fact (x c)))) = Rsum M q ^ n / INR (fact n).
Proof.
  revert n. induction M as [|M IH]; intros n; cbn [over_splits Rprod].
  - destruct (Nat.eqb_spec n 0) as [->|Hn]; [cbn; field|]. cbn [Rsum]. rewrite pow_i by lia. unfold Rdiv. ring.
  - change (Rsum (S M) q) with (Rsum M q + q M). rewrite (Rplus_comm _ (q M)), binomial, <- Rsum_f_R0, <- Rsum_div.
    apply Rsum_ext. intros j Hj.
    rewrite (over_splits_ext _ _ _ (fun x => q M ^ j / INR (fact j) * Rprod M (fun c => q c ^ x c / INR (fact (x c))))).
    + rewrite over_splits_scal, IH. unfold C. field. repeat split; apply INR_fact_neq_0.
    + intros x. rewrite upd_same, Rmult_comm. f_equal. apply Rprod_ext. intros c Hc. now rewrite upd_other by lia.
Qed.

(** ** Products *)
Lemma Rprod_1 n f : (forall i, (i < n)%nat -> f i = 1) -> Rprod n f = 1.
Proof. intros H. rewrite (@Rprod_ext n f (fun _ => 1)) by auto. clear. induction n as [|n IH]; cbn; [reflexivity|]. rewrite IH. ring. Qed.
Lemma Rprod_swap n m (f : nat -> nat -> R) : Rprod n (fun i => Rprod m (fun j => f i j)) = Rprod m (fun j => Rprod n (fun i => f i j)).
Proof.
  induction n as [|n IH]; cbn [Rprod]; [symmetry; now apply Rprod_1|]. rewrite IH. now rewrite <- Rprod_mult.
Qed.
Lemma Rprod_app n m f : Rprod (n + m) f = Rprod n f * Rprod m (fun i => f (n + i)%nat).
Proof. induction m as [|m IH]; [rewrite Nat.add_0_r; cbn; ring|]. rewrite Nat.add_succ_r. cbn [Rprod]. rewrite IH. ring. Qed.
Lemma Rprod_mul K B f : Rprod (K * B) f = Rprod K (fun k => Rprod B (fun b => f (k * B + b)%nat)).
Proof. induction K as [|K IH]; [reflexivity|]. cbn [Rprod]. rewrite <- IH, <- Rprod_app. f_equal. lia. Qed.
Lemma Rprod_causes K B f : Rprod (1 + K * B) f = f 0%nat * Rprod K (fun k => Rprod B (fun b => f (1 + (k * B + b))%nat)).
Proof. rewrite Rprod_app. cbn [Rprod]. rewrite Rprod_mul. ring. Qed.
Lemma Rprod_const n a : Rprod n (fun _ => a) = a ^ n.
Proof. induction n as [|n IH]; cbn; [reflexivity|]. rewrite IH. ring. Qed.
Lemma sparse_Rprod d k (f : nat -> R) : (forall t, (t < pa_T d)%nat -> pa_S d t k = 0%Z -> f t = 1) ->
  Rprod (pa_Tk d k) (fun r => f (pa_row d k r)) = Rprod (pa_T d) f.
Proof.
  intros H. unfold pa_Tk, pa_row.
  assert (A : forall (l : list nat), Rprod (length l) (fun r => f (nth r l 0%nat)) = fold_right (fun t a => f t * a) 1 l).
  { induction l as [|a l IH]; [reflexivity|]. cbn [length fold_right]. change (S (length l)) with (1 + length l)%nat.
    rewrite Rprod_app. cbn [Rprod]. rewrite <- IH. cbn [nth plus]. ring. }
  rewrite A. unfold pa_ts.
  assert (G : forall n, (n <= pa_T d)%nat -> fold_right (fun t a => f t * a) 1 (filter (fun t => negb (pa_S d t k =? 0)%Z) (seq 0 n)) = Rprod n f).
  { induction n as [|n IH]; intros Hn; [reflexivity|]. rewrite seq_S, filter_app. cbn [Rprod plus]. rewrite <- IH by lia. cbn [filter].
    assert (P : forall l x, fold_right (fun t a => f t * a) 1 (l ++ x) = fold_right (fun t a => f t * a) 1 l * fold_right (fun t a => f t * a) 1 x).
    { induction l as [|a l IHl]; intros x; cbn; [ring|]. rewrite IHl. ring. }
    rewrite P. destruct (Z.eqb_spec (pa_S d n k) 0) as [E|E]; cbn; [rewrite H by (auto; lia); ring|ring]. }
  apply G. lia.
Qed.

(** ** The density of a data set *)
(** Counts of a data set and number of events of each process on record. *)
Definition tally (d : parents) (t k : nat) : nat := Z.to_nat (pa_S d t k).
Definition events_of (d : parents) (k : nat) : R := Rsum (pa_T d) (fun t => INR (tally d t k)).
(** Probability of the data set with attribution Y under the parameters q. *)
Definition joint_of (d : parents) (q : params) (Y : nat -> nat -> nat -> nat) : R :=
  complete_density (pa_T d) (pa_K d) (pa_B d) (pa_dt d) (events_of d) (pa_F d) (q_lam q) (q_W q) (q_g q) Y.
(** ... summed over all attributions. *)
Definition marginal_of (d : parents) (q : params) : R :=
  over_attributions (pa_T d) (pa_K d) (1 + pa_K d * pa_B d) (tally d) (joint_of d q).

Definition survival (d : parents) (q : params) : R :=
  exp (Rsum (pa_K d) (fun k => - q_lam q k * INR (pa_T d) * pa_dt d - Rsum (pa_K d) (fun k1 => q_W q k1 k * events_of d k1))).
Definition bin_term (d : parents) (q : params) (t k : nat) (x : nat -> nat) : R :=
  Rprod (1 + pa_K d * pa_B d) (fun c => (cause_rate d q t k c * pa_dt d) ^ x c / INR (fact (x c))).

Lemma joint_of_bins d q Y :
  joint_of d q Y = survival d q * Rprod (pa_T d) (fun t => Rprod (pa_K d) (fun k => bin_term d q t k (Y t k))).
Proof.
  unfold joint_of, complete_density, survival, bin_term.
  rewrite <- Rprod_exp. rewrite (Rprod_swap (pa_T d) (pa_K d)), <- Rprod_mult.
  rewrite (Rprod_swap (pa_T d) (pa_K d)), <- Rprod_mult. apply Rprod_ext. intros k Hk.
  rewrite Rprod_mult, Rprod_exp.
  rewrite (@Rprod_ext (pa_T d) _ (fun t => exp (- (q_lam q k * pa_dt d)) * ((q_lam q k * pa_dt d) ^ Y t k 0%nat / INR (fact (Y t k 0%nat))))).
  2:{ intros t _. unfold pmf, Rdiv. ring. }
  rewrite Rprod_mult, Rprod_exp, Rsum_const.
  replace (exp (- q_lam q k * INR (pa_T d) * pa_dt d - Rsum (pa_K d) (fun k1 => q_W q k1 k * events_of d k1)))
    with (exp (INR (pa_T d) * - (q_lam q k * pa_dt d)) * exp (Rsum (pa_K d) (fun i => - (q_W q i k * events_of d i)))).
  2:{ rewrite <- exp_plus. f_equal. rewrite Rsum_opp. ring. }
  rewrite !Rmult_assoc. f_equal.
  rewrite (Rmult_comm (Rprod (pa_T d) _)), !Rmult_assoc. f_equal.
  rewrite (Rprod_swap (pa_K d) (pa_T d)), <- Rprod_mult. apply Rprod_ext. intros t Ht.
  rewrite Rprod_causes. cbn [cause_rate]. rewrite Rmult_comm. f_equal. apply Rprod_ext. intros k1 Hk1. apply Rprod_ext. intros b Hb.
  cbn [Nat.add cause_rate]. now rewrite div_idx, mod_idx by auto.
Qed.

Lemma tally_IZR d t k : (0 <= pa_S d t k)%Z -> INR (tally d t k) = IZR (pa_S d t k).
Proof. intros H. unfold tally. rewrite INR_IZR_INZ, Z2Nat.id; auto. Qed.
Lemma events_of_IZR d k : fits d -> (k < pa_K d)%nat -> events_of d k = Rsum (pa_T d) (fun t => IZR (pa_S d t k)).
Proof. intros Hf Hk. apply Rsum_ext. intros t Ht. apply tally_IZR, (Hf t k Ht Hk). Qed.

Lemma cause_rate_sum d q t k :
  Rsum (1 + pa_K d * pa_B d) (cause_rate d q t k) = hawkes_rate (pa_K d) (pa_B d) (q_lam q) (q_W q) (q_g q) (pa_F d) t k.
Proof.
  change (1 + pa_K d * pa_B d)%nat with (S (pa_K d * pa_B d)). rewrite Rsum_S_l. unfold hawkes_rate. f_equal.
  rewrite Rsum_mul. apply Rsum_ext. intros k1 Hk1. apply Rsum_ext. intros b Hb. cbn [cause_rate]. now rewrite div_idx, mod_idx by auto.
Qed.

Lemma marginal_bins d q :
  marginal_of d q = survival d q * Rprod (pa_T d) (fun t => Rprod (pa_K d) (fun k =>
    (hawkes_rate (pa_K d) (pa_B d) (q_lam q) (q_W q) (q_g q) (pa_F d) t k * pa_dt d) ^ tally d t k / INR (fact (tally d t k)))).
Proof.
  unfold marginal_of. rewrite (over_attr_ext _ _ _ _ _ _ (joint_of_bins d q)), over_attr_scal. f_equal.
  rewrite (over_attr_prod (pa_T d) (pa_K d) _ (tally d) (fun t X => Rprod (pa_K d) (fun k => bin_term d q t k (X k)))).
  apply Rprod_ext. intros t _. rewrite (over_bin_prod (pa_K d) _ (tally d t) (fun k x => bin_term d q t k x)).
  apply Rprod_ext. intros k _. unfold bin_term. rewrite multinomial_theorem. f_equal. f_equal.
  rewrite Rsum_scal_r. f_equal. apply cause_rate_sum.
Qed.

Lemma rate_pos d q t k : pa_nonneg d (q_lam q) (q_W q) (q_g q) -> (t < pa_T d)%nat -> (k < pa_K d)%nat ->
  0 < hawkes_rate (pa_K d) (pa_B d) (q_lam q) (q_W q) (q_g q) (pa_F d) t k.
Proof.
  intros (Hl & HW & Hg & HF) Ht Hk. unfold hawkes_rate. specialize (Hl k Hk).
  match goal with |- 0 < _ + ?s => assert (0 <= s); [|lra] end.
  apply Rsum_nonneg. intros k1 Hk1. apply Rsum_nonneg. intros b Hb. repeat apply Rmult_le_pos; auto.
Qed.

Lemma pow_exp_ln x n : 0 < x -> x ^ n = exp (INR n * ln x).
Proof. intros H. rewrite <- (Rpower_pow n x H). reflexivity. Qed.

(** The number [log_likelihood] reports for a data set is the logarithm of the probability of the tally: the complete
    probability, summed over all attributions of all events, up to the factor dt^n / n! of every bin. *)
Theorem C117_likelihood_is_marginal : forall d q, fits d -> 0 < pa_dt d -> pa_nonneg d (q_lam q) (q_W q) (q_g q) ->
  exists L, pa_ll d q = Fin L /\ marginal_of d q = exp L * base_measure (pa_T d) (pa_K d) (pa_dt d) (tally d).
Proof.
  intros d q Hf Hdt Hn.
  exists (Rsum (pa_K d) (fun k => - q_lam q k * INR (pa_T d) * pa_dt d
    - Rsum (pa_K d) (fun k1 => q_W q k1 k * Rsum (pa_T d) (fun t => IZR (pa_S d t k1)))
    + Rsum (pa_T d) (fun t => IZR (pa_S d t k) * ln (hawkes_rate (pa_K d) (pa_B d) (q_lam q) (q_W q) (q_g q) (pa_F d) t k)))).
  split.
  { unfold pa_ll. apply esum_fin. intros k Hk. apply ll_single_fin; auto. intros t Ht Hs. now apply rate_pos. }
  rewrite marginal_bins, Rsum_plus, exp_plus, Rmult_assoc. f_equal.
  { unfold survival. f_equal. apply Rsum_ext. intros k Hk. f_equal. apply Rsum_ext. intros k1 Hk1. now rewrite events_of_IZR. }
  rewrite (Rsum_swap (pa_K d) (pa_T d)). unfold base_measure. rewrite <- Rprod_exp, <- Rprod_mult.
  apply Rprod_ext. intros t Ht. rewrite <- Rprod_exp, <- Rprod_mult. apply Rprod_ext. intros k Hk.
  rewrite Rpow_mult_distr. rewrite (pow_exp_ln _ (@rate_pos d q t k Hn Ht Hk)), tally_IZR by apply (Hf t k Ht Hk).
  unfold Rdiv. ring.
Qed.
Print Assumptions C117_likelihood_is_marginal.

(** ** The attribution step *)
Lemma asked_eq use_gsl d q k r c : snd (asked use_gsl d q k r) c = normalise (1 + pa_K d * pa_B d) (pvec_python d q k r) c.
Proof. unfold asked. destruct use_gsl; [apply request_gsl_eq|reflexivity]. Qed.

Lemma over_splits_pmf M n (q : vec) : Rsum M q = 1 -> over_splits M n (multinomial_pmf M n q) = 1.
Proof.
  intros H. unfold multinomial_pmf. rewrite over_splits_scal, multinomial_theorem, H, pow1. field. apply INR_fact_neq_0.
Qed.

Lemma over_splits_one M : over_splits M 0 (fun _ => 1) = 1.
Proof. induction M as [|M IH]; [reflexivity|]. cbn [over_splits Rsum Nat.sub]. rewrite IH. ring. Qed.

Lemma Rprod_inv_scale M (v : vec) s (x : nat -> nat) : s <> 0 ->
  Rprod M (fun c => (v c / s) ^ x c / INR (fact (x c))) * s ^ Z.to_nat (Zsum M (fun c => Z.of_nat (x c)))
  = Rprod M (fun c => v c ^ x c / INR (fact (x c))).
Proof.
  intros Hs. induction M as [|M IH]; [cbn; ring|]. cbn [Rprod Zsum].
  assert (H0 : (0 <= Zsum M (fun c => Z.of_nat (x c)))%Z) by (apply Zsum_nonneg; intros; lia).
  rewrite Z2Nat.inj_add, Nat2Z.id, pow_add by lia. rewrite <- IH.
  unfold Rdiv. rewrite Rpow_mult_distr, pow_inv. field.
  split; [apply INR_fact_neq_0|now apply pow_nonzero].
Qed.

Lemma row_conditional M n (v : vec) dt (x : nat -> nat) : 0 < Rsum M v -> Zsum M (fun c => Z.of_nat (x c)) = Z.of_nat n ->
  multinomial_pmf M n (normalise M v) x * ((Rsum M v * dt) ^ n / INR (fact n))
  = Rprod M (fun c => (v c * dt) ^ x c / INR (fact (x c))).
Proof.
  intros Hs Hx. unfold multinomial_pmf, normalise.
  assert (Hs' : Rsum M v <> 0) by lra.
  transitivity (Rprod M (fun c => (v c / Rsum M v) ^ x c / INR (fact (x c))) * Rsum M v ^ n * dt ^ n).
  { rewrite Rpow_mult_distr. field. apply INR_fact_neq_0. }
  replace n with (Z.to_nat (Zsum M (fun c => Z.of_nat (x c)))) at 1 by (rewrite Hx; apply Nat2Z.id).
  rewrite Rprod_inv_scale by auto.
  replace n with (Z.to_nat (Zsum M (fun c => Z.of_nat (x c)))) by (rewrite Hx; apply Nat2Z.id).
  clear. induction M as [|M IH]; [cbn; ring|]. cbn [Rprod Zsum].
  assert (H0 : (0 <= Zsum M (fun c => Z.of_nat (x c)))%Z) by (apply Zsum_nonneg; intros; lia).
  rewrite Z2Nat.inj_add, Nat2Z.id, pow_add by lia. rewrite <- IH, Rpow_mult_distr. unfold Rdiv. ring.
Qed.

Lemma Zsum_term_nat M (x : nat -> nat) c : (c < M)%nat -> (Z.of_nat (x c) <= Zsum M (fun a => Z.of_nat (x a)))%Z.
Proof. intros H. apply (@Zsum_term_le M (fun a => Z.of_nat (x a))); [intros; lia|auto]. Qed.

(** Whatever attribution the step may produce, it produces with its conditional probability given the tally: the joint
    probability over the sum of the joint probabilities of all attributions.  These probabilities add up to one. *)
Theorem C117_resample_is_conditional : forall use_gsl d q, fits d -> 0 < pa_dt d -> pa_nonneg d (q_lam q) (q_W q) (q_g q) ->
  0 < marginal_of d q /\
  (forall Y, attributes (pa_T d) (pa_K d) (1 + pa_K d * pa_B d) (tally d) Y ->
     (exists d', pa_resample use_gsl (handing_out d Y) d q = Ok d' /\
        forall t k c, (t < pa_T d)%nat -> (k < pa_K d)%nat -> (c < 1 + pa_K d * pa_B d)%nat -> attributed d' t k c = Z.of_nat (Y t k c)) /\
     resample_prob use_gsl d q Y = joint_of d q Y / marginal_of d q) /\
  over_attributions (pa_T d) (pa_K d) (1 + pa_K d * pa_B d) (tally d) (resample_prob use_gsl d q) = 1.
Proof.
  intros use_gsl d q Hf Hdt Hn. set (M := (1 + pa_K d * pa_B d)%nat).
  assert (Hpos : 0 < marginal_of d q).
  { rewrite marginal_bins. apply Rmult_lt_0_compat; [apply exp_pos|]. apply Rprod_pos. intros t Ht. apply Rprod_pos. intros k Hk.
    apply Rdiv_lt_0_compat; [|apply INR_fact_lt_0]. apply pow_lt, Rmult_lt_0_compat; auto. now apply rate_pos. }
  assert (Hreq : forall k r, (k < pa_K d)%nat -> (r < pa_Tk d k)%nat -> Z.to_nat (fst (asked use_gsl d q k r)) = tally d (pa_row d k r) k).
  { intros k r Hk Hr. destruct (@fits_Ss d k r Hf Hk Hr) as [Es _]. unfold asked, tally. destruct use_gsl; cbn [request_gsl request_python fst]; now rewrite Es. }
  assert (Hmu : forall k r x, (k < pa_K d)%nat -> (r < pa_Tk d k)%nat ->
     multinomial_pmf M (Z.to_nat (fst (asked use_gsl d q k r))) (snd (asked use_gsl d q k r)) x
     = multinomial_pmf M (tally d (pa_row d k r) k) (normalise M (cause_rate d q (pa_row d k r) k)) x).
  { intros k r x Hk Hr. unfold multinomial_pmf. rewrite Hreq by auto. f_equal. apply Rprod_ext. intros c _. rewrite asked_eq.
    unfold normalise. fold M. f_equal. f_equal. rewrite pvec_cause. f_equal. apply Rsum_ext. intros; apply pvec_cause. }
  assert (Hzero : forall t k (x : nat -> nat), tally d t k = 0%nat -> Zsum M (fun a => Z.of_nat (x a)) = 0%Z ->
     multinomial_pmf M (tally d t k) (normalise M (cause_rate d q t k)) x = 1).
  { intros t k x E Ex. unfold multinomial_pmf. rewrite E. cbn [fact INR]. rewrite Rmult_1_l. apply Rprod_1. intros c Hc.
    assert (x c = 0)%nat as -> by (pose proof (Zsum_term_nat x Hc); lia). cbn. field. }
  split; [exact Hpos|]. split.
  - intros Y HY.
    assert (Hle : forall t k c, (t < pa_T d)%nat -> (k < pa_K d)%nat -> (c < M)%nat -> (0 <= Z.of_nat (Y t k c) <= pa_S d t k)%Z).
    { intros t k c Ht Hk Hc. split; [lia|]. rewrite <- (Z2Nat.id (pa_S d t k)) by apply (Hf t k Ht Hk). fold (tally d t k).
      rewrite <- (HY t k Ht Hk). now apply (Zsum_term_nat (Y t k)). }
    split.
    + destruct (@resample_ok use_gsl (handing_out d Y) d q Hn Hf) as (d' & E). exists d'. split; [exact E|].
      assert (Eu : (forall k r c, pa_Z d' k r c = u32 (Z.of_nat (Y (pa_row d k r) k c))) /\ d' = set_Z d (pa_Z d')).
      { unfold pa_resample, resample_Z_gsl, resample_Z_python in E. destruct use_gsl.
        - destruct (negb _) in E; [discriminate|]. injection E as <-. split; reflexivity.
        - destruct (negb _) in E; [discriminate|]. destruct (negb _) in E; [discriminate|]. injection E as <-. split; reflexivity. }
      destruct Eu as [Eu Ep]. intros t k c Ht Hk Hc. destruct (Z.eq_dec (pa_S d t k) 0) as [E0|E0].
      * rewrite attributed_none; [|rewrite Ep; exact Ht|rewrite Ep; exact E0]. specialize (Hle t k c Ht Hk Hc). lia.
      * destruct (@pa_row_surj d k t Ht E0) as (r & Hr & <-). rewrite Ep. etransitivity; [apply (@attributed_row (set_Z d (pa_Z d')) k r c Hr)|].
        cbn [set_Z pa_Z]. rewrite Eu. apply u32_small. specialize (Hle _ k c Ht Hk Hc). specialize (Hf _ k Ht Hk). lia.
    + enough (E : resample_prob use_gsl d q Y * marginal_of d q = joint_of d q Y) by (rewrite <- E; field; lra).
      unfold resample_prob. fold M.
      transitivity (Rprod (pa_K d) (fun k => Rprod (pa_T d) (fun t => multinomial_pmf M (tally d t k) (normalise M (cause_rate d q t k)) (Y t k))) * marginal_of d q).
      { f_equal. apply Rprod_ext. intros k Hk.
        rewrite <- (@sparse_Rprod d k (fun t => multinomial_pmf M (tally d t k) (normalise M (cause_rate d q t k)) (Y t k))).
        - apply Rprod_ext. intros r Hr. now apply Hmu.
        - intros t Ht E. apply Hzero; [unfold tally; now rewrite E|]. rewrite (HY t k Ht Hk). unfold tally. now rewrite E. }
      rewrite Rprod_swap, marginal_bins, joint_of_bins.
      rewrite Rmult_comm, Rmult_assoc. f_equal. rewrite <- Rprod_mult. apply Rprod_ext. intros t Ht. rewrite <- Rprod_mult. apply Rprod_ext. intros k Hk.
      unfold bin_term. fold M. rewrite Rmult_comm, <- (cause_rate_sum d q t k). fold M. apply row_conditional; [|now apply HY].
      unfold M. rewrite cause_rate_sum. now apply rate_pos.
  - set (w := fun t k (x : nat -> nat) => if Nat.eqb (tally d t k) 0 then 1 else multinomial_pmf M (tally d t k) (normalise M (cause_rate d q t k)) x).
    rewrite (over_attr_ext _ _ _ _ _ (fun Y => Rprod (pa_T d) (fun t => Rprod (pa_K d) (fun k => w t k (Y t k))))).
    2:{ intros Y. unfold resample_prob. rewrite Rprod_swap. apply Rprod_ext. intros k Hk.
        rewrite <- (@sparse_Rprod d k (fun t => w t k (Y t k))).
        - apply Rprod_ext. intros r Hr. fold M. rewrite Hmu by auto. unfold w.
          destruct (Nat.eqb_spec (tally d (pa_row d k r) k) 0) as [E|E]; [|reflexivity].
          destruct (@pa_row_in d k r Hr) as [Ht Hs]. exfalso. apply Hs. unfold tally in E. specialize (Hf _ k Ht Hk). lia.
        - intros t Ht E. unfold w, tally. now rewrite E. }
    rewrite (over_attr_prod (pa_T d) (pa_K d) M (tally d) (fun t X => Rprod (pa_K d) (fun k => w t k (X k)))).
    apply Rprod_1. intros t Ht. rewrite (over_bin_prod (pa_K d) M (tally d t) (w t)). apply Rprod_1. intros k Hk. unfold w.
    destruct (Nat.eqb_spec (tally d t k) 0) as [E|E].
    + rewrite E. apply over_splits_one.
    + apply over_splits_pmf. unfold normalise. rewrite Rsum_div. apply Rinv_r. unfold M. rewrite cause_rate_sum.
      apply Rgt_not_eq. now apply rate_pos.
Qed.
Print Assumptions C117_resample_is_conditional.

(** Attributions that use no impossible cause: the joint probability is the exponential of the complete-data log likelihood
    of C90 (whose other factors the Gibbs sweep leaves invariant). *)
Theorem C117_joint_is_complete_likelihood : forall d q Y, fits d -> 0 < pa_dt d -> pa_nonneg d (q_lam q) (q_W q) (q_g q) ->
  (forall t k c, (t < pa_T d)%nat -> (k < pa_K d)%nat -> (c < 1 + pa_K d * pa_B d)%nat ->
     attributed d t k c = Z.of_nat (Y t k c) /\ (cause_rate d q t k c = 0 -> Y t k c = 0%nat)) ->
  joint_of d q Y = exp (complete_ll (pa_K d) (pa_B d) (attr_of d) (q_lam q) (q_W q) (q_g q)).
Proof.
  intros d q Y Hf Hdt (Hl & HW & Hg & HF) HY. rewrite joint_of_bins, complete_ll_cols, Rsum_plus, exp_plus. f_equal.
  { unfold survival. f_equal. apply Rsum_ext. intros k Hk. f_equal. apply Rsum_ext. intros k1 Hk1. f_equal. rewrite events_of_IZR by auto.
    unfold n_events. now rewrite IZR_Zsum. }
  rewrite (Rsum_swap (pa_K d) (pa_T d)), <- Rprod_exp. apply Rprod_ext. intros t Ht. rewrite <- Rprod_exp. apply Rprod_ext. intros k Hk.
  unfold bin_term. rewrite <- Rprod_exp. apply Rprod_ext. intros c Hc. destruct (HY t k c Ht Hk Hc) as [-> Hz].
  assert (Hr : 0 <= cause_rate d q t k c).
  { destruct c as [|i]; cbn [cause_rate]; [left; auto|]. destruct (@idx_bound (pa_K d) (pa_B d) i) as [H1 H2]; [lia|].
    repeat apply Rmult_le_pos; auto. }
  unfold Rminus. rewrite exp_plus, exp_Ropp. unfold lfact. rewrite Nat2Z.id, exp_ln by apply INR_fact_lt_0.
  unfold Rdiv. f_equal. rewrite <- INR_IZR_INZ. destruct (Req_dec (cause_rate d q t k c) 0) as [E|E].
  - rewrite (Hz E). cbn. now rewrite Rmult_0_l, exp_0.
  - apply pow_exp_ln. apply Rmult_lt_0_compat; [lra|auto].
Qed.
Print Assumptions C117_joint_is_complete_likelihood.

(** ** The whole model *)
(** Every data set of the model: its dimensions, positive bins, uint32 counts and non-negative filtered counts. *)
Definition proper_data (m : dmodel) : Prop :=
  forall d, In d (dm_data m) -> pa_K d = dm_K m /\ pa_B d = dm_B m /\ 0 < pa_dt d /\ fits d /\
    (forall t k b, (t < pa_T d)%nat -> (k < pa_K d)%nat -> (b < pa_B d)%nat -> 0 <= pa_F d t k b).
(** The parameters as the model uses them: the weight of an absent edge is zero. *)
Definition model_params (m : dmodel) : params := {| q_lam := dm_lam m; q_W := net_weight m; q_g := dm_g m |}.

Lemma proper_pa_nonneg m d : nonneg_params m -> proper_data m -> In d (dm_data m) ->
  pa_nonneg d (dm_lam m) (net_weight m) (dm_g m).
Proof.
  intros (Hl & HW & Hg & _) HD Hd. destruct (HD d Hd) as (EK & EB & _ & _ & HF). unfold pa_nonneg. rewrite EK, EB in *.
  split; [exact Hl|]. split; [|split; [exact Hg|exact HF]].
  intros k1 k2 H1 H2. unfold net_weight, edge_weight. specialize (HW k1 k2 H1 H2). destruct (dm_mix m); [exact HW|]. destruct (dm_A m k1 k2); lra.
Qed.

Lemma params_model m : params_of m = model_params m.
Proof. unfold params_of, model_params. f_equal. do 2 (apply functional_extensionality; intro). apply W_effective_net. Qed.

Theorem C117_model_likelihood : forall m, nonneg_params m -> proper_data m ->
  exists L, log_likelihood m All = Ok (Fin L) /\
  fold_right Rmult 1 (map (fun d => marginal_of d (model_params m)) (dm_data m))
  = exp L * fold_right Rmult 1 (map (fun d => base_measure (pa_T d) (pa_K d) (pa_dt d) (tally d)) (dm_data m)).
Proof.
  intros m Hn HD. rewrite log_likelihood_all.
  assert (G : forall l, (forall d, In d l -> In d (dm_data m)) -> exists L, elsum (map (fun d => pa_ll d (params_of m)) l) = Fin L /\
    fold_right Rmult 1 (map (fun d => marginal_of d (model_params m)) l)
    = exp L * fold_right Rmult 1 (map (fun d => base_measure (pa_T d) (pa_K d) (pa_dt d) (tally d)) l)).
  { induction l as [|d l IH]; intros Hl; [exists 0; split; [reflexivity|cbn; rewrite exp_0; ring]|].
    destruct IH as (L & E & EL); [intros; apply Hl; now right|].
    pose proof (Hl d (or_introl eq_refl)) as Hd. destruct (HD d Hd) as (_ & _ & Hdt & Hf & _).
    destruct (@C117_likelihood_is_marginal d (model_params m) Hf Hdt (@proper_pa_nonneg m d Hn HD Hd)) as (L1 & E1 & EL1).
    exists (L1 + L). cbn [map elsum fold_right]. rewrite params_model in *. rewrite E1, E. split; [reflexivity|].
    rewrite EL, EL1, exp_plus. ring. }
  destruct (G (dm_data m)) as (L & E & EL); [auto|]. exists L. rewrite E. auto.
Qed.
Print Assumptions C117_model_likelihood.

(** Two processes, three bins: two events of process 0 in the first bin, one event of process 1 in the second.  The
    parameters are those of [ex_m]; the event of process 1 has two possible causes. *)
Definition ex_d : parents :=
  {| pa_T := 3; pa_K := 2; pa_B := 1; pa_dt := 1;
     pa_S := fun t k => if (Nat.eqb t 0 && Nat.eqb k 0)%bool then 2%Z else if (Nat.eqb t 1 && Nat.eqb k 1)%bool then 1%Z else 0%Z;
     pa_F := fun t k _ => if (Nat.eqb t 1 && Nat.eqb k 0)%bool then 2 else 0;
     pa_Z := fun _ _ _ => 0%Z; pa_EZ := fun _ _ _ => 0 |}.
Definition ex_Y (c1 : nat) : nat -> nat -> nat -> nat := fun t k c =>
  if (Nat.eqb t 0 && Nat.eqb k 0 && Nat.eqb c 0)%bool then 2%nat else if (Nat.eqb t 1 && Nat.eqb k 1 && Nat.eqb c c1)%bool then 1%nat else 0%nat.

Lemma ex_d_ok : fits ex_d /\ 0 < pa_dt ex_d /\ pa_nonneg ex_d (dm_lam ex_m) (net_weight ex_m) (dm_g ex_m).
Proof.
  split; [|split; [cbn; lra|]].
  - intros t k _ _. cbn [ex_d pa_S]. destruct (_ && _)%bool; [lia|]. destruct (_ && _)%bool; lia.
  - unfold pa_nonneg. cbn [ex_d pa_T pa_K pa_B pa_F ex_m dm_lam dm_g]. split; [intros; lra|]. split; [|split; [intros; lra|]].
    + intros k1 k2 _ _. unfold net_weight, edge_weight. cbn [ex_m dm_mix dm_A dm_W]. destruct (_ && _)%bool; lra.
    + intros t k b _ _ _. destruct (_ && _)%bool; lra.
Qed.
Example C117_nonvacuous : forall use_gsl c1, (c1 < 2)%nat ->
  attributes 3 2 3 (tally ex_d) (ex_Y c1) /\
  marginal_of ex_d (model_params ex_m) = exp (-7) /\
  resample_prob use_gsl ex_d (model_params ex_m) (ex_Y c1) = 1 / 2.
Proof.
  intros use_gsl c1 Hc. destruct ex_d_ok as (Hf & Hdt & Hn).
  assert (HA : attributes 3 2 3 (tally ex_d) (ex_Y c1)).
  { intros t k Ht Hk. destruct t as [|[|[|]]]; [| | |lia]; destruct k as [|[|]]; try lia; destruct c1 as [|[|]]; try lia; reflexivity. }
  split; [exact HA|].
  assert (E : marginal_of ex_d (model_params ex_m) = exp (-7)).
  { rewrite marginal_bins. unfold survival, events_of, hawkes_rate, tally, net_weight, edge_weight. cbn.
    change (Pos.to_nat 2) with 2%nat. change (Pos.to_nat 1) with 1%nat. cbn.
    match goal with |- exp ?x * ?y = _ => replace x with (-7) by lra; replace y with 1 by field end. ring. }
  split; [exact E|].
  destruct (@C117_resample_is_conditional use_gsl ex_d (model_params ex_m) Hf Hdt Hn) as (_ & H & _).
  destruct (H (ex_Y c1) HA) as (_ & EP). rewrite EP, E.
  assert (EJ : joint_of ex_d (model_params ex_m) (ex_Y c1) = exp (-7) / 2).
  { rewrite joint_of_bins. unfold survival, events_of, bin_term, cause_rate, tally, net_weight, edge_weight. destruct c1 as [|[|]]; try lia; cbn;
    change (Pos.to_nat 2) with 2%nat; change (Pos.to_nat 1) with 1%nat; cbn;
    match goal with |- exp ?x * ?y = _ => replace x with (-7) by lra; replace y with (/ 2) by field end; unfold Rdiv; ring. }
  rewrite EJ. pose proof (exp_pos (-7)). field. lra.
Qed.
