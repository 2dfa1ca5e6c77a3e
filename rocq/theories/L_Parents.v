(** * L_Parents: lemmas about parent updates. *)
From Coq Require Import Permutation.
From Verif Require Import Prelude ExtReal Arrays Spec_Basis Spec_Discrete Spec_Parents M_Basis M_Parents M_Discrete L_Discrete.
Set Implicit Arguments.
Open Scope R_scope.

(** Non-negative parameters (positive background) and filtered data of a parents object. *)
Definition pa_nonneg (p : parents) (lam : vec) (W : mat) (g : ten) : Prop :=
  (forall k, (k < pa_K p)%nat -> 0 < lam k) /\
  (forall k1 k2, (k1 < pa_K p)%nat -> (k2 < pa_K p)%nat -> 0 <= W k1 k2) /\
  (forall k1 k2 b, (k1 < pa_K p)%nat -> (k2 < pa_K p)%nat -> (b < pa_B p)%nat -> 0 <= g k1 k2 b) /\
  (forall t k b, (t < pa_T p)%nat -> (k < pa_K p)%nat -> (b < pa_B p)%nat -> 0 <= pa_F p t k b).

Lemma idx_bound K B i : (i < K * B)%nat -> (i / B < K)%nat /\ (i mod B < B)%nat.
Proof.
  intros H. assert (B <> 0)%nat by (destruct B; lia). split.
  - apply Nat.div_lt_upper_bound; lia.
  - now apply Nat.mod_upper_bound.
Qed.
Lemma idx_eq B i : (B <> 0)%nat -> (i / B * B + i mod B = i)%nat.
Proof. intros H. rewrite Nat.mul_comm. symmetry. now apply Nat.div_mod. Qed.

Lemma all_rows_true p f : all_rows p f = true <->
  forall k r, (k < pa_K p)%nat -> (r < pa_Tk p k)%nat -> f k r = true.
Proof.
  unfold all_rows. rewrite forall_lt_true. split.
  - intros H k r Hk Hr. specialize (H k Hk). rewrite forall_lt_true in H. auto.
  - intros H k Hk. rewrite forall_lt_true. auto.
Qed.

Lemma pvec_gsl_eq p q k r c : pvec_gsl p q k r c = pvec_python p q k r c.
Proof. destruct c; cbn; [reflexivity|ring]. Qed.

Lemma pvec_sum p q k r :
  Rsum (1 + pa_K p * pa_B p) (pvec_python p q k r) = row_rate p q k r.
Proof.
  unfold row_rate. rewrite Rsum_app. cbn [Rsum]. rewrite Rplus_0_l. f_equal.
  rewrite Rsum_mul. apply Rsum_ext; intros k1 Hk1. apply Rsum_ext; intros b Hb.
  cbn [Nat.add pvec_python]. rewrite div_idx, mod_idx by auto. ring.
Qed.

Lemma row_rate_pos p q k r :
  pa_nonneg p (q_lam q) (q_W q) (q_g q) -> (k < pa_K p)%nat -> (r < pa_Tk p k)%nat ->
  0 < row_rate p q k r.
Proof.
  intros (Hl & HW & Hg & HF) Hk Hr. rewrite row_rate_spec.
  eapply Rlt_le_trans; [apply (Hl k Hk)|]. apply hawkes_rate_ge. intros k1 b Hk1 Hb.
  destruct (@pa_row_in p k r Hr) as [H1 _].
  apply Rmult_le_pos; [apply Rmult_le_pos; auto|auto].
Qed.

Lemma pvec_nonneg p q k r c :
  pa_nonneg p (q_lam q) (q_W q) (q_g q) -> (k < pa_K p)%nat -> (r < pa_Tk p k)%nat ->
  (c < 1 + pa_K p * pa_B p)%nat -> 0 <= pvec_python p q k r c.
Proof.
  intros (Hl & HW & Hg & HF) Hk Hr Hc. destruct c as [|i]; cbn [pvec_python].
  - left. auto.
  - destruct (@idx_bound (pa_K p) (pa_B p) i) as [H1 H2]; [lia|].
    destruct (@pa_row_in p k r Hr) as [H3 _].
    apply Rmult_le_pos; [apply Rmult_le_pos|]; [apply HF|apply HW|apply Hg]; auto.
Qed.

Lemma normalise_prob n v :
  (forall c, (c < n)%nat -> 0 <= v c) -> 0 < Rsum n v -> prob_vec n (normalise n v).
Proof.
  intros H0 Hs. split.
  - intros c Hc. unfold normalise. apply Rmult_le_pos; [auto|]. left. now apply Rinv_0_lt_compat.
  - unfold normalise. rewrite Rsum_div. field. lra.
Qed.

Lemma request_gsl_eq p q k r :
  fst (request_gsl p q k r) = fst (request_python p q k r) /\
  forall c, snd (request_gsl p q k r) c = snd (request_python p q k r) c.
Proof.
  split; [reflexivity|]. intros c. cbn [request_gsl request_python snd]. unfold normalise.
  rewrite pvec_gsl_eq. f_equal. apply Rsum_ext; intros; apply pvec_gsl_eq.
Qed.

Lemma request_prob p q k r :
  pa_nonneg p (q_lam q) (q_W q) (q_g q) -> (k < pa_K p)%nat -> (r < pa_Tk p k)%nat ->
  prob_vec (1 + pa_K p * pa_B p) (snd (request_python p q k r)) /\
  prob_vec (1 + pa_K p * pa_B p) (snd (request_gsl p q k r)).
Proof.
  intros Hn Hk Hr.
  assert (H : prob_vec (1 + pa_K p * pa_B p) (snd (request_python p q k r))).
  { cbn [request_python snd]. apply normalise_prob.
    - intros; now apply pvec_nonneg.
    - rewrite pvec_sum. now apply row_rate_pos. }
  split; [exact H|]. destruct H as [H1 H2]. destruct (request_gsl_eq p q k r) as [_ E]. split.
  - intros c Hc. rewrite E. auto.
  - rewrite <- H2. apply Rsum_ext; intros; apply E.
Qed.

(** The draw stored for a row. *)
Lemma resample_row use_gsl mult p q p' :
  pa_nonneg p (q_lam q) (q_W q) (q_g q) -> fits p ->
  multinomial_contract (1 + pa_K p * pa_B p) mult ->
  pa_resample use_gsl mult p q = Ok p' ->
  p' = set_Z p (pa_Z p') /\
  forall k r, (k < pa_K p)%nat -> (r < pa_Tk p k)%nat ->
    multinomial_outcome (1 + pa_K p * pa_B p) (pa_S p (pa_row p k r) k)
      (snd (request_python p q k r)) (pa_Z p' k r).
Proof.
  intros Hn Hf Hm E.
  assert (G : forall req : nat -> nat -> Z * vec,
     (forall k r, fst (req k r) = pa_Ss p k r) ->
     (forall k r c, snd (req k r) c = snd (request_python p q k r) c) ->
     (forall k r, (k < pa_K p)%nat -> (r < pa_Tk p k)%nat -> prob_vec (1 + pa_K p * pa_B p) (snd (req k r))) ->
     p' = set_Z p (fun k r c => let '(n, v) := req k r in u32 (mult k r n v c)) ->
     p' = set_Z p (pa_Z p') /\
     forall k r, (k < pa_K p)%nat -> (r < pa_Tk p k)%nat ->
     multinomial_outcome (1 + pa_K p * pa_B p) (pa_S p (pa_row p k r) k)
      (snd (request_python p q k r)) (pa_Z p' k r)).
  { intros req Hr1 Hr2 Hr3 ->. split; [reflexivity|]. intros k r Hk Hr. cbn [set_Z pa_Z].
    destruct (@fits_Ss p k r Hf Hk Hr) as [Es Hp].
    destruct (@pa_row_in p k r Hr) as [Ht _]. pose proof (Hf _ _ Ht Hk) as Hfit.
    specialize (Hr1 k r). specialize (Hr2 k r). specialize (Hr3 k r Hk Hr).
    destruct (req k r) as [n v]. cbn [fst snd] in *. subst n.
    destruct (Hm k r (pa_Ss p k r) v) as (H0 & H1 & H2); [lia|exact Hr3|].
    assert (Hle : forall c, (c < 1 + pa_K p * pa_B p)%nat ->
       u32 (mult k r (pa_Ss p k r) v c) = mult k r (pa_Ss p k r) v c).
    { intros c Hc. apply u32_small. split; [auto|].
      apply Z.le_lt_trans with (pa_Ss p k r); [|rewrite Es; apply Hfit].
      rewrite <- H1 at 2. now apply Zsum_term_le. }
    split; [|split].
    - intros c Hc. rewrite Hle by auto. auto.
    - transitivity (Zsum (1 + pa_K p * pa_B p) (mult k r (pa_Ss p k r) v)); [now apply Zsum_ext|].
      rewrite H1. exact Es.
    - intros c Hc Hv. rewrite Hle by auto. apply H2; auto. now rewrite Hr2. }
  unfold pa_resample in E. destruct use_gsl.
  - unfold resample_Z_gsl in E. destruct (all_rows _ _) eqn:Ea in E; [|discriminate]. cbn [negb] in E.
    injection E as E. apply (G (fun k r => request_gsl p q k r)).
    + reflexivity.
    + intros; apply request_gsl_eq.
    + intros; now apply request_prob.
    + symmetry. exact E.
  - unfold resample_Z_python in E. destruct (all_rows p _) eqn:Ea in E; [|discriminate]. cbn [negb] in E.
    destruct (all_rows p _) eqn:Ea2 in E; [|discriminate]. cbn [negb] in E.
    injection E as E. apply (G (fun k r => request_python p q k r)).
    + reflexivity.
    + reflexivity.
    + intros; now apply request_prob.
    + symmetry. exact E.
Qed.

Lemma resample_ok use_gsl mult p q :
  pa_nonneg p (q_lam q) (q_W q) (q_g q) -> fits p ->
  exists p', pa_resample use_gsl mult p q = Ok p'.
Proof.
  intros Hn Hf. unfold pa_resample, resample_Z_gsl, resample_Z_python.
  assert (H1 : all_rows p (fun k r => negb (Reqb (Rsum (1 + pa_K p * pa_B p) (pvec_python p q k r)) 0)) = true).
  { apply all_rows_true. intros k r Hk Hr. apply negb_true_iff, Reqb_false. rewrite pvec_sum.
    pose proof (@row_rate_pos p q k r Hn Hk Hr). lra. }
  assert (H2 : all_rows p (fun k r => negb (Reqb (Rsum (1 + pa_K p * pa_B p) (pvec_gsl p q k r)) 0)) = true).
  { apply all_rows_true. intros k r Hk Hr. rewrite (Rsum_ext _ (pvec_python p q k r)) by (intros; apply pvec_gsl_eq).
    rewrite all_rows_true in H1. auto. }
  assert (H3 : all_rows p (fun k r => Z.ltb 0 (pa_Ss p k r)) = true).
  { apply all_rows_true. intros k r Hk Hr. apply Z.ltb_lt. now apply fits_Ss. }
  rewrite H1, H2, H3. cbn [negb]. destruct use_gsl; eauto.
Qed.

(** Sums over sparse rows of integer quantities. *)
Lemma sparse_Zsum p k (f : nat -> Z) :
  Zsum (pa_Tk p k) (fun r => f (pa_row p k r))
  = Zsum (pa_T p) (fun t => if Z.eqb (pa_S p t k) 0 then 0%Z else f t).
Proof.
  unfold pa_Tk, pa_row. rewrite <- (lsumZ_map_nth f (pa_ts p k) 0%nat).
  unfold pa_ts. rewrite lsumZ_filter, lsumZ_map_seq. apply Zsum_ext; intros t Ht.
  destruct (Z.eqb (pa_S p t k) 0); reflexivity.
Qed.
Lemma Zsum_ind n i f :
  Zsum n (fun j => if Nat.eqb j i then f j else 0%Z) = if Nat.ltb i n then f i else 0%Z.
Proof.
  induction n as [|n IH]; [reflexivity|]. cbn [Zsum]. rewrite IH.
  destruct (Nat.ltb_spec i n); destruct (Nat.ltb_spec i (S n));
    destruct (Nat.eqb_spec n i); subst; try lia.
Qed.

(* ---------------- mean field ---------------- *)

Lemma mf_norm_cy p e k r : cy_norm p e k r = mf_norm p e k r.
Proof.
  unfold cy_norm, mf_norm. rewrite Rplus_0_l. f_equal. rewrite Rsum_mul.
  apply Rsum_ext; intros k1 Hk1. apply Rsum_ext; intros b Hb. unfold pkb.
  rewrite div_idx, mod_idx by auto. ring.
Qed.
Lemma pkb_nonneg p e k r i :
  pa_nonneg p (e_lam e) (e_W e) (e_g e) -> (k < pa_K p)%nat -> (r < pa_Tk p k)%nat ->
  (i < pa_K p * pa_B p)%nat -> 0 <= pkb p e k r i.
Proof.
  intros (Hl & HW & Hg & HF) Hk Hr Hi.
  destruct (@idx_bound (pa_K p) (pa_B p) i Hi) as [H1 H2].
  destruct (@pa_row_in p k r Hr) as [H3 _]. unfold pkb.
  apply Rmult_le_pos; [apply Rmult_le_pos|]; [apply HF|apply HW|apply Hg]; auto.
Qed.
Lemma mf_norm_pos p e k r :
  pa_nonneg p (e_lam e) (e_W e) (e_g e) -> (k < pa_K p)%nat -> (r < pa_Tk p k)%nat ->
  0 < mf_norm p e k r.
Proof.
  intros Hn Hk Hr. unfold mf_norm.
  assert (0 <= Rsum (pa_K p * pa_B p) (fun i => pkb p e k r i))
    by (apply Rsum_nonneg; intros; now apply pkb_nonneg).
  destruct Hn as (Hl & _). specialize (Hl k Hk). lra.
Qed.

Lemma prange_rows_spec order f rows r :
  NoDup order ->
  prange_rows order f rows r = if in_dec Nat.eq_dec r order then f r (rows r) else rows r.
Proof.
  revert rows. induction order as [|r0 rest IH]; intros rows Hnd; [reflexivity|].
  cbn [prange_rows]. inversion_clear Hnd. rewrite IH by auto.
  destruct (in_dec Nat.eq_dec r rest) as [Hin|Hin], (in_dec Nat.eq_dec r (r0 :: rest)) as [Hin2|Hin2].
  - rewrite upd_neq by (intros ->; contradiction). reflexivity.
  - exfalso. apply Hin2. now right.
  - destruct Hin2 as [->|Hin2]; [now rewrite upd_eq|contradiction].
  - apply upd_neq. intros ->. apply Hin2. now left.
Qed.

(** Gibbs' inequality for one row.  [a] are the unnormalised responsibilities,
    [la] the log terms used by the bound, [s] the count. *)
Lemma gibbs_row M (a la z : nat -> R) s :
  0 < s -> (forall c, (c < M)%nat -> 0 <= a c) -> 0 < Rsum M a ->
  (forall c, (c < M)%nat -> 0 < a c -> la c = ln (a c)) ->
  (forall c, (c < M)%nat -> 0 <= z c) -> Rsum M z = s ->
  (forall c, (c < M)%nat -> a c = 0 -> z c = 0) ->
  Rsum M (fun c => z c * la c - z c * ntn_log (z c / s)) <= s * ln (Rsum M a).
Proof.
  intros Hs Ha HN Hla Hz Hzs Hac. set (N := Rsum M a) in *.
  apply Rle_trans with (Rsum M (fun c => z c * ln N + (a c * (s / N) - z c))).
  - apply Rsum_le; intros c Hc. destruct (Hz c Hc) as [Hzp|Hz0].
    + assert (Hap : 0 < a c).
      { destruct (Ha c Hc) as [|E]; [auto|]. symmetry in E. apply (Hac c Hc) in E. lra. }
      rewrite (Hla c Hc Hap). unfold ntn_log. rewrite elog_fin by now apply Rdiv_lt_0_compat.
      cbn [nan_to_num].
      assert (Hq : 0 < a c * s / (N * z c)).
      { apply Rdiv_lt_0_compat; apply Rmult_lt_0_compat; auto. }
      pose proof (ln_le_sub1 Hq) as Hl.
      assert (El : ln (a c * s / (N * z c)) = ln (a c) - ln (z c / s) - ln N).
      { rewrite ln_div by (apply Rmult_lt_0_compat; auto). rewrite !ln_mult, ln_div by auto. lra. }
      rewrite El in Hl.
      assert (Hm : z c * (ln (a c) - ln (z c / s) - ln N) <= z c * (a c * s / (N * z c) - 1)).
      { apply Rmult_le_compat_l; [lra|exact Hl]. }
      replace (z c * (a c * s / (N * z c) - 1)) with (a c * (s / N) - z c) in Hm by (field; lra).
      lra.
    + rewrite <- Hz0. assert (0 <= a c * (s / N)).
      { apply Rmult_le_pos; [auto|]. left. now apply Rdiv_lt_0_compat. }
      lra.
  - rewrite Rsum_plus, Rsum_minus, !Rsum_scal_r, Hzs. fold N. right. field. lra.
Qed.

Lemma gibbs_row_eq M (a la : nat -> R) s :
  0 < s -> (forall c, (c < M)%nat -> 0 <= a c) -> 0 < Rsum M a ->
  (forall c, (c < M)%nat -> 0 < a c -> la c = ln (a c)) ->
  let z := fun c => a c / Rsum M a * s in
  Rsum M (fun c => z c * la c - z c * ntn_log (z c / s)) = s * ln (Rsum M a).
Proof.
  intros Hs Ha HN Hla z. set (N := Rsum M a) in *.
  transitivity (Rsum M (fun c => z c * ln N)).
  - apply Rsum_ext; intros c Hc. destruct (Ha c Hc) as [Hap|Ha0].
    + unfold z. rewrite (Hla c Hc Hap). replace (a c / N * s / s) with (a c / N) by (field; lra).
      unfold ntn_log. rewrite elog_fin by now apply Rdiv_lt_0_compat. cbn [nan_to_num].
      rewrite ln_div by auto. ring.
    + unfold z. rewrite <- Ha0. unfold Rdiv. rewrite !Rmult_0_l. ring.
  - rewrite Rsum_scal_r. f_equal. unfold z. rewrite Rsum_scal_r, Rsum_div. fold N. field. lra.
Qed.
