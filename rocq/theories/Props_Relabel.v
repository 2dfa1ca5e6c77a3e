(** * Props_Relabel: C120, the names of the processes do not matter.

    Rename the processes of a discrete-time network model and of its data; every quantity the model reports is the
    same quantity under the new names, and every draw a sampler requests is the same request under the new names. *)
From Coq Require Import Permutation.
From Verif Require Import Prelude ExtReal Arrays Spec_Relabel L_Relabel Spec_Basis Spec_Discrete M_Basis L_Basis
  M_Parents L_Parents M_Discrete L_Discrete L_Minibatch M_Gibbs M_Dist M_Network M_Sweep M_Continuous M_Prior M_MeanField M_Vlb
  Props_Discrete.
Set Implicit Arguments.
Open Scope R_scope.

(** The same data set under new labels: counts, filtered counts, and the parents attributed so far (sampled and
    expected; column 0 is the background, column 1 + k*B + b the pair of process k and basis function b). *)
Record same_data (K B : nat) (s : nat -> nat) (p p' : parents) : Prop := {
  sd_T : pa_T p' = pa_T p;
  sd_K : pa_K p = K; sd_K' : pa_K p' = K;
  sd_B : pa_B p = B; sd_B' : pa_B p' = B;
  sd_dt : pa_dt p' = pa_dt p;
  sd_S : series_as (pa_T p) K s (pa_S p) (pa_S p');
  sd_F : filtered_as (pa_T p) K B s (pa_F p) (pa_F p');
  sd_Z0 : forall k r, (k < K)%nat -> (r < pa_Tk p (s k))%nat -> pa_Z p' k r 0%nat = pa_Z p (s k) r 0%nat;
  sd_Z : forall k r k1 b, (k < K)%nat -> (r < pa_Tk p (s k))%nat -> (k1 < K)%nat -> (b < B)%nat ->
    pa_Z p' k r (1 + (k1 * B + b))%nat = pa_Z p (s k) r (1 + (s k1 * B + b))%nat;
  sd_EZ0 : forall k r, (k < K)%nat -> (r < pa_Tk p (s k))%nat -> pa_EZ p' k r 0%nat = pa_EZ p (s k) r 0%nat;
  sd_EZ : forall k r k1 b, (k < K)%nat -> (r < pa_Tk p (s k))%nat -> (k1 < K)%nat -> (b < B)%nat ->
    pa_EZ p' k r (1 + (k1 * B + b))%nat = pa_EZ p (s k) r (1 + (s k1 * B + b))%nat }.
Definition same_datasets (K B : nat) (s : nat -> nat) : list parents -> list parents -> Prop :=
  Forall2 (same_data K B s).

(** The same parameters under new labels. *)
Definition same_params (K B : nat) (s : nat -> nat) (q q' : params) : Prop :=
  vec_as K s (q_lam q) (q_lam q') /\ mat_as K s (q_W q) (q_W q') /\ ten_as K B s (q_g q) (q_g q').
(** The same model under new labels. *)
Record same_model (s : nat -> nat) (m m' : dmodel) : Prop := {
  sm_K : dm_K m' = dm_K m; sm_B : dm_B m' = dm_B m; sm_dt : dm_dt m' = dm_dt m;
  sm_L : dm_L m' = dm_L m; sm_Li : dm_L_int m' = dm_L_int m;
  sm_bas : forall l b, dm_bas m' l b = dm_bas m l b;
  sm_mix : dm_mix m' = dm_mix m;
  sm_A : mat_as (dm_K m) s (dm_A m) (dm_A m');
  sm_W : mat_as (dm_K m) s (dm_W m) (dm_W m');
  sm_g : ten_as (dm_K m) (dm_B m) s (dm_g m) (dm_g m');
  sm_lam : vec_as (dm_K m) s (dm_lam m) (dm_lam m');
  sm_data : same_datasets (dm_K m) (dm_B m) s (dm_data m) (dm_data m') }.
(** The same network prior under new labels. *)
Definition same_net (K : nat) (s : nat -> nat) (n n' : net) : Prop :=
  mat_as K s (n_P n) (n_P n') /\ mat_as K s (n_V n) (n_V n') /\ n_kappa n' = n_kappa n.

(* ------------------------------------------------------------------ *)
(** ** Data sets *)
Section DATA.
Variables (K B : nat) (s : nat -> nat) (p p' : parents).
Hypothesis (Hs : relabelling K s) (Hp : same_data K B s p p').

Lemma rl_ts k : (k < K)%nat -> pa_ts p' k = pa_ts p (s k).
Proof.
  intros Hk. unfold pa_ts. rewrite (sd_T Hp). apply filter_ext_in. intros t Ht. apply in_seq in Ht.
  rewrite (sd_S Hp) by (auto; lia). reflexivity.
Qed.
Lemma rl_Tk k : (k < K)%nat -> pa_Tk p' k = pa_Tk p (s k).
Proof. intros Hk. unfold pa_Tk. now rewrite rl_ts. Qed.
Lemma rl_row k r : (k < K)%nat -> pa_row p' k r = pa_row p (s k) r.
Proof. intros Hk. unfold pa_row. now rewrite rl_ts. Qed.
Lemma rl_row_lt k r : (k < K)%nat -> (r < pa_Tk p' k)%nat -> (pa_row p (s k) r < pa_T p)%nat.
Proof.
  intros Hk Hr. rewrite rl_Tk in Hr by auto. apply (@pa_row_in p (s k) r Hr).
Qed.
Lemma rl_Ss k r : (k < K)%nat -> (r < pa_Tk p' k)%nat -> pa_Ss p' k r = pa_Ss p (s k) r.
Proof.
  intros Hk Hr. unfold pa_Ss. rewrite rl_row by auto. rewrite (sd_S Hp); auto. now apply rl_row_lt.
Qed.
Lemma rl_Fs k r k1 b : (k < K)%nat -> (r < pa_Tk p' k)%nat -> (k1 < K)%nat -> (b < B)%nat ->
  pa_Fs p' k r k1 b = pa_Fs p (s k) r (s k1) b.
Proof.
  intros Hk Hr H1 Hb. unfold pa_Fs. rewrite rl_row by auto. rewrite (sd_F Hp); auto. now apply rl_row_lt.
Qed.
Lemma rl_Ns k : (k < K)%nat -> pa_Ns p' k = pa_Ns p (s k).
Proof.
  intros Hk. unfold pa_Ns. rewrite rl_ts by auto. f_equal. apply map_ext_in. intros t Ht.
  unfold pa_ts in Ht. apply filter_In in Ht. destruct Ht as [Ht _]. apply in_seq in Ht.
  apply (sd_S Hp); [lia|auto].
Qed.

(** *** Statistics *)
Lemma rl_bkgd0 k : (k < K)%nat -> bkgd_ss0 p' k = bkgd_ss0 p (s k).
Proof. intros Hk. unfold bkgd_ss0. rewrite rl_Tk by auto. apply Zsum_ext; intros; now apply (sd_Z0 Hp). Qed.
Lemma rl_bkgd1 k : bkgd_ss1 p' k = bkgd_ss1 p (s k).
Proof. unfold bkgd_ss1. now rewrite (sd_T Hp), (sd_dt Hp). Qed.
Lemma rl_weight0 i j : (i < K)%nat -> (j < K)%nat -> weight_ss0 p' i j = weight_ss0 p (s i) (s j).
Proof.
  intros Hi Hj. unfold weight_ss0. rewrite (sd_B Hp), (sd_B' Hp), rl_Tk by auto.
  apply Zsum_ext; intros b Hb. apply Zsum_ext; intros r Hr. now apply (sd_Z Hp).
Qed.
Lemma rl_ir i j b : (i < K)%nat -> (j < K)%nat -> (b < B)%nat -> ir_ss p' i j b = ir_ss p (s i) (s j) b.
Proof.
  intros Hi Hj Hb. unfold ir_ss. rewrite (sd_B Hp), (sd_B' Hp), rl_Tk by auto.
  apply Zsum_ext; intros r Hr. now apply (sd_Z Hp).
Qed.
Lemma rl_ebkgd0 k : (k < K)%nat -> exp_bkgd_ss0 p' k = exp_bkgd_ss0 p (s k).
Proof. intros Hk. unfold exp_bkgd_ss0. rewrite rl_Tk by auto. apply Rsum_ext; intros; now apply (sd_EZ0 Hp). Qed.
Lemma rl_eweight0 i j : (i < K)%nat -> (j < K)%nat -> exp_weight_ss0 p' i j = exp_weight_ss0 p (s i) (s j).
Proof.
  intros Hi Hj. unfold exp_weight_ss0. rewrite (sd_B Hp), (sd_B' Hp), rl_Tk by auto.
  apply Rsum_ext; intros b Hb. apply Rsum_ext; intros r Hr. now apply (sd_EZ Hp).
Qed.
Lemma rl_eir i j b : (i < K)%nat -> (j < K)%nat -> (b < B)%nat -> exp_ir_ss p' i j b = exp_ir_ss p (s i) (s j) b.
Proof.
  intros Hi Hj Hb. unfold exp_ir_ss. rewrite (sd_B Hp), (sd_B' Hp), rl_Tk by auto.
  apply Rsum_ext; intros r Hr. now apply (sd_EZ Hp).
Qed.

(** *** Likelihood *)
Variables (q q' : params).
Hypothesis Hq : same_params K B s q q'.
Lemma rl_row_rate k r : (k < K)%nat -> (r < pa_Tk p' k)%nat -> row_rate p' q' k r = row_rate p q (s k) r.
Proof.
  intros Hk Hr. destruct Hq as (Hl & HW & Hg). unfold row_rate.
  rewrite (sd_K Hp), (sd_K' Hp), (sd_B Hp), (sd_B' Hp), Hl by auto. f_equal.
  apply (@Rsum_as K s (fun k1 => Rsum B (fun b => q_W q k1 (s k) * q_g q k1 (s k) b * pa_Fs p (s k) r k1 b))); auto.
  intros k1 H1. apply Rsum_ext; intros b Hb. rewrite HW, Hg, rl_Fs by auto. reflexivity.
Qed.
Lemma rl_ll_single k : (k < K)%nat -> ll_single p' q' k = ll_single p q (s k).
Proof.
  intros Hk. destruct Hq as (Hl & HW & Hg). unfold ll_single.
  rewrite (sd_K Hp), (sd_K' Hp), (sd_T Hp), (sd_dt Hp), Hl, rl_Tk by auto. f_equal.
  - f_equal. f_equal. f_equal.
    apply (@Rsum_as K s (fun k1 => q_W q k1 (s k) * IZR (pa_Ns p k1))); auto.
    intros k1 H1. rewrite HW, rl_Ns by auto. reflexivity.
  - apply esum_ext; intros r Hr. rewrite rl_Ss, rl_row_rate by (auto; now rewrite rl_Tk by auto). reflexivity.
Qed.
Lemma rl_pa_ll : pa_ll p' q' = pa_ll p q.
Proof.
  unfold pa_ll. rewrite (sd_K Hp), (sd_K' Hp). apply (@esum_as K s); auto. intros k Hk. now apply rl_ll_single.
Qed.

(** *** Parent probabilities *)
Lemma idx_lt k1 b : (k1 < K)%nat -> (b < B)%nat -> (k1 * B + b < K * B)%nat.
Proof. intros. nia. Qed.
Lemma rl_sum_pvec k r : (k < K)%nat -> (r < pa_Tk p' k)%nat ->
  Rsum (1 + K * B) (pvec_python p' q' k r) = Rsum (1 + K * B) (pvec_python p q (s k) r).
Proof.
  intros Hk Hr. destruct Hq as (Hl & HW & Hg).
  change (1 + K * B)%nat with (S (K * B)). rewrite !Rsum_S_l. f_equal; [cbn; now apply Hl|].
  rewrite !Rsum_mul.
  apply (@Rsum_as K s (fun k1 => Rsum B (fun b => pvec_python p q (s k) r (S (k1 * B + b))))); auto.
  intros k1 H1. apply Rsum_ext; intros b Hb. cbn [pvec_python].
  rewrite (sd_B Hp), (sd_B' Hp), !div_idx, !mod_idx by auto.
  rewrite rl_Fs, HW, Hg by auto. reflexivity.
Qed.
Lemma rl_request k r : (k < K)%nat -> (r < pa_Tk p' k)%nat ->
  fst (request_python p' q' k r) = fst (request_python p q (s k) r) /\
  snd (request_python p' q' k r) 0%nat = snd (request_python p q (s k) r) 0%nat /\
  forall k1 b, (k1 < K)%nat -> (b < B)%nat ->
    snd (request_python p' q' k r) (1 + (k1 * B + b))%nat =
    snd (request_python p q (s k) r) (1 + (s k1 * B + b))%nat.
Proof.
  intros Hk Hr. unfold request_python, normalise. cbn [fst snd].
  rewrite (sd_K Hp), (sd_K' Hp), (sd_B Hp), (sd_B' Hp), rl_sum_pvec by auto.
  destruct Hq as (Hl & HW & Hg). split; [now apply rl_Ss|]. split.
  - f_equal. cbn. now apply Hl.
  - intros k1 b H1 Hb. f_equal. cbn [pvec_python Nat.add].
    rewrite (sd_B Hp), (sd_B' Hp), !div_idx, !mod_idx by auto.
    rewrite rl_Fs, HW, Hg by auto. reflexivity.
Qed.
Lemma rl_request_gsl k r : (k < K)%nat -> (r < pa_Tk p' k)%nat ->
  fst (request_gsl p' q' k r) = fst (request_gsl p q (s k) r) /\
  snd (request_gsl p' q' k r) 0%nat = snd (request_gsl p q (s k) r) 0%nat /\
  forall k1 b, (k1 < K)%nat -> (b < B)%nat ->
    snd (request_gsl p' q' k r) (1 + (k1 * B + b))%nat =
    snd (request_gsl p q (s k) r) (1 + (s k1 * B + b))%nat.
Proof.
  intros Hk Hr.
  assert (G : forall (p : parents) q k r c, pvec_gsl p q k r c = pvec_python p q k r c)
    by (intros ? ? ? ? [|c]; cbn; ring).
  assert (G' : forall (p : parents) q k r c, snd (request_gsl p q k r) c = snd (request_python p q k r) c).
  { intros p0 q0 k0 r0 c. unfold request_gsl, request_python, normalise. cbn [snd].
    rewrite G. f_equal. apply Rsum_ext; intros; apply G. }
  rewrite !G'. destruct (rl_request Hk Hr) as (A1 & A2 & A3). split; [exact A1|]. split; [exact A2|].
  intros. rewrite !G'. now apply A3.
Qed.
End DATA.

(* ------------------------------------------------------------------ *)
(** ** Models *)
Section MODEL.
Variables (s : nat -> nat) (m m' : dmodel).
Hypothesis (Hs : relabelling (dm_K m) s) (Hm : same_model s m m').
Let K := dm_K m. Let B := dm_B m.

Lemma rl_W_effective : mat_as K s (W_effective m) (W_effective m').
Proof.
  intros i j Hi Hj. unfold W_effective. rewrite (sm_mix Hm). destruct (dm_mix m).
  - now apply (sm_W Hm).
  - now rewrite (sm_W Hm), (sm_A Hm) by auto.
Qed.
Lemma rl_params : same_params K B s (params_of m) (params_of m').
Proof. split; [exact (sm_lam Hm)|]. split; [exact rl_W_effective|exact (sm_g Hm)]. Qed.

Lemma rl_rate_all T F F' t k : filtered_as T K B s F F' -> (t < T)%nat -> (k < K)%nat ->
  rate_all m' F' t k = rate_all m F t (s k).
Proof.
  intros HF Ht Hk. unfold rate_all. rewrite (sm_K Hm), (sm_B Hm), (sm_lam Hm) by auto. f_equal.
  apply Rsum_ext; intros b Hb.
  apply (@Rsum_as K s (fun k1 => F t k1 b * (W_effective m k1 (s k) * dm_g m k1 (s k) b))); auto.
  intros k1 H1. rewrite HF, rl_W_effective, (sm_g Hm) by auto. reflexivity.
Qed.
Lemma rl_rate_proc T F F' t k : filtered_as T K B s F F' -> (t < T)%nat -> (k < K)%nat ->
  rate_proc m' F' t k = rate_proc m F t (s k).
Proof.
  intros HF Ht Hk. unfold rate_proc. rewrite (sm_K Hm), (sm_B Hm), (sm_lam Hm) by auto. f_equal.
  apply (@Rsum_as K s (fun k1 => Rsum B (fun b => F t k1 b * (W_effective m k1 (s k) * dm_g m k1 (s k) b)))); auto.
  intros k1 H1. apply Rsum_ext; intros b Hb. rewrite HF, rl_W_effective, (sm_g Hm) by auto. reflexivity.
Qed.

(** Filtering commutes with the relabelling. *)
Lemma rl_convolve T S_ S' : series_as T K s S_ S' ->
  match convolve_with_basis T K S_ (dm_L m) (dm_B m) (dm_bas m),
        convolve_with_basis T (dm_K m') S' (dm_L m') (dm_B m') (dm_bas m') with
  | Ok F, Ok F' => filtered_as T K B s F F'
  | Raise e, Raise e' => e = e'
  | _, _ => False
  end.
Proof.
  intros HS. rewrite (sm_K Hm), (sm_L Hm), (sm_B Hm).
  destruct (Nat.eq_dec T 0) as [HT|HT]; [unfold convolve_with_basis; rewrite HT, !Bool.orb_true_r; reflexivity|].
  destruct (Nat.eq_dec K 0) as [HK|HK];
    [unfold convolve_with_basis; fold K; rewrite HK, !Bool.orb_true_r; reflexivity|].
  destruct (Nat.eq_dec (dm_L m) 0) as [HL|HL]; [unfold convolve_with_basis; rewrite HL; reflexivity|].
  destruct (Nat.eq_dec B 0) as [HB|HB];
    [unfold convolve_with_basis; fold B; rewrite HB, !Bool.orb_true_r; reflexivity|].
  destruct (@convolve_ok T K S_ (dm_L m) B (dm_bas m)) as (F & EF); try lia.
  destruct (@convolve_ok T K S' (dm_L m) B (dm_bas m')) as (F' & EF'); try lia.
  fold K B. rewrite EF, EF'. intros t k b Ht Hk Hb.
  rewrite (@convolve_causal _ _ _ _ _ _ _ EF), (@convolve_causal _ _ _ _ _ _ _ EF') by (auto; apply Hs; auto).
  unfold causal_conv. apply Rsum_ext; intros l Hl. rewrite (sm_bas Hm), HS by (auto; lia). reflexivity.
Qed.

Lemma rl_data_nth j : match nth_error (dm_data m) j, nth_error (dm_data m') j with
  | Some d, Some d' => same_data K B s d d' | None, None => True | _, _ => False end.
Proof.
  pose proof (sm_data Hm) as H. unfold same_datasets in H. fold K B in H.
  revert j H. generalize (dm_data m), (dm_data m'). intros l l' j H.
  revert j. induction H as [|d d' l l' H1 H2 IH]; intros [|j]; cbn; auto. apply IH.
Qed.
Lemma rl_data_len : length (dm_data m') = length (dm_data m).
Proof. pose proof (sm_data Hm) as H. unfold same_datasets in H. induction H; cbn; congruence. Qed.

Lemma rl_rate_input index S_ S' T :
  series_as T K s S_ S' ->
  match rate_input m index (Some (sval_of T K S_)) None, rate_input m' index (Some (sval_of T K S')) None with
  | Ok (T1, F), Ok (T2, F') => T1 = T /\ T2 = T /\ filtered_as T K B s F F'
  | Raise e, Raise e' => e = e'
  | _, _ => False
  end.
Proof.
  intros HS. unfold rate_input, sval_of. cbn [sv_isarray sv_dims sv_at negb].
  pose proof (rl_convolve HS) as H. rewrite (sm_K Hm) in *. fold K B in H |- *.
  destruct (convolve_with_basis T K S_ (dm_L m) B (dm_bas m)) as [F|e];
  destruct (convolve_with_basis T K S' (dm_L m') (dm_B m') (dm_bas m')) as [F'|e']; cbn; try contradiction; auto.
  rewrite Nat.eqb_refl. auto.
Qed.
Lemma rl_rate_input_data index :
  match rate_input m index None None, rate_input m' index None None with
  | Ok (T1, F), Ok (T2, F') => T1 = T2 /\ filtered_as T1 K B s F F'
  | Raise e, Raise e' => e = e'
  | _, _ => False
  end.
Proof.
  unfold rate_input. rewrite rl_data_len. destruct (negb _); [reflexivity|].
  destruct (py_index _ index) as [j|]; [|reflexivity].
  pose proof (rl_data_nth j) as H.
  destruct (nth_error (dm_data m) j), (nth_error (dm_data m') j); try contradiction; auto.
  split; [symmetry; apply (sd_T H)|apply (sd_F H)].
Qed.
End MODEL.

(** C120 (rates): the rates of the relabelled model on the relabelled counts, or on one of its relabelled data sets,
    are the rates of the original under the new labels; both calls succeed or fail together. *)
Theorem C120_rates s m m' index T S_ S' :
  relabelling (dm_K m) s -> same_model s m m' -> series_as T (dm_K m) s S_ S' ->
  match compute_rate m index (Some (sval_of T (dm_K m) S_)) None,
        compute_rate m' index (Some (sval_of T (dm_K m) S')) None with
  | Ok (T1, R1), Ok (T2, R2) => T1 = T /\ T2 = T /\ series_as T (dm_K m) s R1 R2
  | Raise e, Raise e' => e = e'
  | _, _ => False
  end /\
  match compute_rate m index None None, compute_rate m' index None None with
  | Ok (T1, R1), Ok (T2, R2) => T1 = T2 /\ series_as T1 (dm_K m) s R1 R2
  | Raise e, Raise e' => e = e'
  | _, _ => False
  end.
Proof.
  intros Hs Hm HS. unfold compute_rate. split.
  - pose proof (rl_rate_input Hs Hm index HS) as H.
    destruct (rate_input m index _ None) as [[T1 F]|e]; destruct (rate_input m' index _ None) as [[T2 F']|e'];
      try contradiction; auto. cbn [bindr fst snd]. destruct H as (-> & -> & HF). split; [reflexivity|]. split; [reflexivity|].
    intros t k Ht Hk. eapply rl_rate_all; eauto.
  - pose proof (rl_rate_input_data Hm index) as H.
    destruct (rate_input m index _ None) as [[T1 F]|e]; destruct (rate_input m' index _ None) as [[T2 F']|e'];
      try contradiction; auto. cbn [bindr fst snd]. destruct H as (<- & HF). split; [reflexivity|].
    intros t k Ht Hk. eapply rl_rate_all; eauto.
Qed.

(** C120 (rate of one process): asking the relabelled model for process k is asking the original for process s k. *)
Theorem C120_rate_of_process s m m' index k :
  relabelling (dm_K m) s -> same_model s m m' -> (k < dm_K m)%nat ->
  match compute_rate_proc m index (Z.of_nat (s k)) None None, compute_rate_proc m' index (Z.of_nat k) None None with
  | Ok (T1, R1), Ok (T2, R2) => T1 = T2 /\ forall t, (t < T1)%nat -> R2 t = R1 t
  | Raise e, Raise e' => e = e'
  | _, _ => False
  end.
Proof.
  intros Hs Hm Hk. unfold compute_rate_proc.
  pose proof (rl_rate_input_data Hm index) as H.
  destruct (rate_input m index _ None) as [[T1 F]|e]; destruct (rate_input m' index _ None) as [[T2 F']|e'];
    try contradiction; auto. cbn [bindr fst snd]. destruct H as (<- & HF).
  rewrite (sm_K Hm). assert (Hsk : (s k < dm_K m)%nat) by (apply Hs; auto).
  assert (G : forall j, (j < dm_K m)%nat ->
            negb (Z.ltb (Z.of_nat j) (Z.of_nat (dm_K m))) = false /\ py_index (dm_K m) (Z.of_nat j) = Some j).
  { intros j Hj. split.
    - apply Bool.negb_false_iff, Z.ltb_lt. lia.
    - unfold py_index. rewrite (proj2 (Z.leb_le 0 (Z.of_nat j))) by lia.
      rewrite (proj2 (Z.ltb_lt _ _)) by lia. cbn [andb]. now rewrite Nat2Z.id. }
  destruct (G _ Hk) as [-> ->], (G _ Hsk) as [-> ->]. split; [reflexivity|].
  intros t Ht. eapply rl_rate_proc; eauto.
Qed.

(** C120 (likelihood): the training likelihood over any selection of data sets, and the held-out likelihood of
    relabelled counts, do not change. *)
Lemma ll_sum_as s m m' l acc :
  relabelling (dm_K m) s -> same_model s m m' -> ll_sum m' l acc = ll_sum m l acc.
Proof.
  intros Hs Hm. revert acc. induction l as [|i l IH]; intros acc; [reflexivity|]. cbn [ll_sum].
  assert (E : ll_at m' i = ll_at m i).
  { unfold ll_at. rewrite (rl_data_len Hm). destruct (py_index _ i) as [j|]; [|reflexivity].
    pose proof (rl_data_nth Hm j) as H.
    destruct (nth_error (dm_data m) j) as [d|], (nth_error (dm_data m') j) as [d'|]; try contradiction; auto.
    f_equal. apply (rl_pa_ll Hs H). exact (rl_params Hm). }
  rewrite E. destruct (ll_at m i); cbn; [apply IH|reflexivity].
Qed.
Theorem C120_likelihood s m m' ix T S_ S' :
  relabelling (dm_K m) s -> same_model s m m' -> series_as T (dm_K m) s S_ S' ->
  log_likelihood m' ix = log_likelihood m ix /\
  fst (heldout_log_likelihood m' (sval_of T (dm_K m) S') None) =
  fst (heldout_log_likelihood m (sval_of T (dm_K m) S_) None).
Proof.
  intros Hs Hm HS. split.
  - unfold log_likelihood. destruct ix; rewrite ?(rl_data_len Hm); eapply ll_sum_as; eauto.
  - unfold heldout_log_likelihood. cbn [fst].
    destruct (C120_rates 0 Hs Hm HS) as [H _].
    destruct (compute_rate m 0 _ None) as [[T1 R1]|e]; destruct (compute_rate m' 0 _ None) as [[T2 R2]|e'];
      try contradiction; cbn [bindr fst snd]; [|now rewrite H].
    destruct H as (-> & -> & HR). f_equal. unfold poisson_ll. apply esum_ext; intros t Ht.
    rewrite (sm_dt Hm), (sm_K Hm). cbn [sv_at sval_of].
    apply (@esum_as (dm_K m) s (fun k => esub (emul (Fin (IZR (S_ t k))) (elog (Fin (R1 t k)))) (Fin (R1 t k * dm_dt m)))); auto.
    intros k Hk. rewrite HS, HR by auto. reflexivity.
Qed.

(** C120 (adding data): adding the relabelled counts to the relabelled model succeeds exactly when the original call
    does, and gives the relabelled model. *)
Lemma same_data_mk K B s dt T S_ S' F F' :
  series_as T K s S_ S' -> filtered_as T K B s F F' ->
  same_data K B s (mk_parents K B dt T S_ F) (mk_parents K B dt T S' F').
Proof. intros HS HF. constructor; cbn; auto. Qed.
Lemma offsets_lt fuel T n off o : In o (offsets fuel T n off) -> (o < T)%nat.
Proof.
  revert off. induction fuel as [|f IH]; intros off; cbn [offsets]; [intros []|].
  destruct (Nat.ltb_spec off T); [|intros []]. intros [<-|H1]; [assumption|now apply IH in H1].
Qed.
Lemma batches_as K B s dt T S_ S' F F' mb :
  series_as T K s S_ S' -> filtered_as T K B s F F' ->
  match batches K B dt T S_ F mb, batches K B dt T S' F' mb with
  | Ok l, Ok l' => same_datasets K B s l l'
  | Raise e, Raise e' => e = e'
  | _, _ => False
  end.
Proof.
  intros HS HF. unfold batches. destruct mb as [n|].
  - destruct (Z.eqb n 0); [reflexivity|]. destruct (Z.ltb n 0); [constructor|].
    pose proof (fun o => @offsets_lt T T (Z.to_nat n) 0 o) as Ho.
    unfold same_datasets. induction (offsets T T (Z.to_nat n) 0) as [|o l IH]; cbn [map]; constructor.
    + assert (o < T)%nat by (apply Ho; now left).
      apply same_data_mk.
      * intros t k Ht Hk. unfold slice2. apply HS; lia.
      * intros t k b Ht Hk Hb. unfold slice3. apply HF; lia.
    + apply IH. intros; apply Ho; now right.
  - constructor; [|constructor]. now apply same_data_mk.
Qed.
Theorem C120_add_data s m m' T S_ S' mb :
  relabelling (dm_K m) s -> same_model s m m' -> series_as T (dm_K m) s S_ S' ->
  match add_data m (sval_of T (dm_K m) S_) None mb, add_data m' (sval_of T (dm_K m) S') None mb with
  | Ok m1, Ok m1' => same_model s m1 m1'
  | Raise e, Raise e' => e = e'
  | _, _ => False
  end.
Proof.
  intros Hs Hm HS. unfold add_data.
  assert (E : check_S (dm_K m') (sval_of T (dm_K m) S') = check_S (dm_K m) (sval_of T (dm_K m) S_)).
  { rewrite (sm_K Hm). unfold check_S, sval_of. cbn [sv_isarray sv_dims sv_isint sv_at negb].
    destruct (Nat.eqb (dm_K m) (dm_K m)); [|reflexivity]. cbn [negb].
    destruct (Nat.eqb T 0 || Nat.eqb (dm_K m) 0)%bool; [reflexivity|].
    rewrite (@forall_lt_ext T (fun t => forall_lt (dm_K m) (fun k => Z.leb 0 (S' t k)))
               (fun t => forall_lt (dm_K m) (fun k => Z.leb 0 (S_ t k)))); [reflexivity|].
    intros t Ht. apply (@forall_as (dm_K m) s (fun k => Z.leb 0 (S_ t k))); auto.
    intros k Hk. now rewrite HS by auto. }
  rewrite E. destruct (check_S (dm_K m) (sval_of T (dm_K m) S_)) as [T1|e] eqn:E1; [|reflexivity].
  assert (T1 = T) as ->.
  { unfold check_S, sval_of in E1. cbn in E1. destruct (Nat.eqb (dm_K m) (dm_K m)); [|discriminate].
    cbn in E1. destruct (Nat.eqb T 0 || Nat.eqb (dm_K m) 0)%bool; [discriminate|].
    destruct (forall_lt T _); [|discriminate]. now inversion E1. }
  cbn [bindr]. unfold get_F. pose proof (rl_convolve Hs Hm HS) as H. cbn [sv_at sval_of].
  destruct (convolve_with_basis T (dm_K m) S_ _ _ _) as [F|e];
    destruct (convolve_with_basis T (dm_K m') S' _ _ _) as [F'|e']; try contradiction; cbn [bindr]; auto.
  pose proof (@batches_as (dm_K m) (dm_B m) s (dm_dt m) T S_ S' F F' mb HS H) as Hb.
  rewrite (sm_K Hm), (sm_B Hm), (sm_dt Hm).
  destruct (batches _ _ _ T S_ F mb) as [l|e]; destruct (batches _ _ _ T S' F' mb) as [l'|e'];
    try contradiction; cbn [bindr]; auto.
  destruct Hm. constructor; cbn; auto. apply Forall2_app; auto.
Qed.

(** C120 (simulation): with the same draws handed to the same processes, the simulated counts and rates are the
    relabelled ones, and the debugger trap fires in both runs or in neither. *)
Lemma gen_loop_as s m m' pois pois' :
  relabelling (dm_K m) s -> same_model s m m' ->
  (forall t k x, (k < dm_K m)%nat -> pois' t k x = pois t (s k) x) ->
  forall l, (forall t k, (k < dm_K m)%nat ->
    gs_S (fold_left (gen_step m' pois') l (gen_init m')) t k = gs_S (fold_left (gen_step m pois) l (gen_init m)) t (s k) /\
    gs_R (fold_left (gen_step m' pois') l (gen_init m')) t k = gs_R (fold_left (gen_step m pois) l (gen_init m)) t (s k)) ->
  forall t0, (forall t k, (k < dm_K m)%nat ->
    gs_S (fold_left (gen_step m' pois') (l ++ [t0]) (gen_init m')) t k
      = gs_S (fold_left (gen_step m pois) (l ++ [t0]) (gen_init m)) t (s k) /\
    gs_R (fold_left (gen_step m' pois') (l ++ [t0]) (gen_init m')) t k
      = gs_R (fold_left (gen_step m pois) (l ++ [t0]) (gen_init m)) t (s k)).
Proof.
  intros Hs Hm Hp l IH t0 t k Hk. rewrite !fold_left_app. cbn [fold_left].
  set (st := fold_left (gen_step m pois) l (gen_init m)) in *.
  set (st' := fold_left (gen_step m' pois') l (gen_init m')) in *.
  assert (ES : forall j, (j < dm_K m)%nat -> pois' t0 j (gs_R st' t0 j * dm_dt m') = pois t0 (s j) (gs_R st t0 (s j) * dm_dt m)).
  { intros j Hj. rewrite Hp by auto. destruct (IH t0 j Hj) as [_ ->]. now rewrite (sm_dt Hm). }
  unfold gen_step. cbn [gs_S gs_R]. split.
  - destruct (Nat.eqb t t0); [now apply ES|now apply IH].
  - rewrite (sm_L Hm). destruct (Nat.leb t0 t && Nat.ltb t (t0 + dm_L m))%bool; [|now apply IH].
    destruct (IH t k Hk) as [_ ->]. f_equal. rewrite (sm_K Hm).
    apply (@Rsum_as (dm_K m) s (fun k1 => gen_H m (t - t0) (s k) k1 * IZR (pois t0 k1 (gs_R st t0 k1 * dm_dt m)))); auto.
    intros k1 H1. rewrite ES by auto. f_equal. unfold gen_H.
    rewrite (rl_W_effective Hm) by auto. rewrite (sm_B Hm). f_equal. apply Rsum_ext; intros b Hb.
    rewrite (sm_bas Hm), (sm_g Hm) by auto. reflexivity.
Qed.
Theorem C120_simulation s m m' pois pois' T :
  relabelling (dm_K m) s -> same_model s m m' ->
  (forall t k x, (k < dm_K m)%nat -> pois' t k x = pois t (s k) x) ->
  match generate m pois false T, generate m' pois' false T with
  | Ok (_, S1, R1), Ok (_, S2, R2) => series_as T (dm_K m) s S1 S2 /\ series_as T (dm_K m) s R1 R2
  | Raise e, Raise e' => e = e'
  | _, _ => False
  end.
Proof.
  intros Hs Hm Hp.
  assert (G : forall n t k, (k < dm_K m)%nat ->
    gs_S (gen_loop m' pois' n) t k = gs_S (gen_loop m pois n) t (s k) /\
    gs_R (gen_loop m' pois' n) t k = gs_R (gen_loop m pois n) t (s k)).
  { induction n as [|n IH]; intros t k Hk; unfold gen_loop in *.
    - cbn. split; [reflexivity|]. now rewrite (sm_lam Hm) by auto.
    - rewrite seq_S. eapply gen_loop_as; eauto. }
  unfold generate. rewrite (sm_Li Hm). destruct (negb (dm_L_int m)); [reflexivity|].
  rewrite (sm_K Hm).
  rewrite (@forall_lt_ext T (fun t => forall_lt (dm_K m) (fun k => Z.ltb (gs_S (gen_loop m' pois' T) t k) 1000))
             (fun t => forall_lt (dm_K m) (fun k => Z.ltb (gs_S (gen_loop m pois T) t k) 1000))).
  - destruct (negb _); [reflexivity|]. split; intros t k Ht Hk; now apply G.
  - intros t Ht. apply (@forall_as (dm_K m) s (fun k => Z.ltb (gs_S (gen_loop m pois T) t k) 1000)); auto.
    intros k Hk. f_equal. now apply G.
Qed.

(* ------------------------------------------------------------------ *)
(** ** Gibbs sampling *)

Lemma pool_as K B s (f f' : parents -> R) data data' :
  (forall d d', same_data K B s d d' -> f' d' = f d) -> same_datasets K B s data data' -> pool f' data' = pool f data.
Proof.
  intros H HD. unfold pool. generalize 0. induction HD as [|d d' l l' H1 H2 IH]; intros a; cbn; [reflexivity|].
  rewrite (H _ _ H1). apply IH.
Qed.

(** C120 (parents): the multinomial requested for the events of process k in a bin -- how many events and with what
    probabilities over background and (process, basis function) pairs -- is the one requested for process s k. *)
Theorem C120_parent_request s m m' d d' k r :
  relabelling (dm_K m) s -> same_model s m m' -> same_data (dm_K m) (dm_B m) s d d' ->
  (k < dm_K m)%nat -> (r < pa_Tk d' k)%nat ->
  let same_request rq rq' :=
    fst (rq' : Z * vec) = fst (rq : Z * vec) /\ snd rq' 0%nat = snd rq 0%nat /\
    forall k1 b, (k1 < dm_K m)%nat -> (b < dm_B m)%nat ->
      snd rq' (1 + (k1 * dm_B m + b))%nat = snd rq (1 + (s k1 * dm_B m + b))%nat in
  pa_Tk d' k = pa_Tk d (s k) /\
  same_request (request_python d (params_of m) (s k) r) (request_python d' (params_of m') k r) /\
  same_request (request_gsl d (params_of m) (s k) r) (request_gsl d' (params_of m') k r).
Proof.
  intros Hs Hm Hd Hk Hr. cbv zeta. split; [now apply (rl_Tk Hd)|]. split.
  - apply (rl_request Hs Hd); auto. exact (rl_params Hm).
  - apply (rl_request_gsl Hs Hd); auto. exact (rl_params Hm).
Qed.

(** C120 (background rates, impulse responses, weights): the gamma and Dirichlet parameters requested are those of
    the original process or pair. *)
Theorem C120_gibbs_requests K B s n n' A A' data data' :
  same_net K s n n' -> mat_as K s A A' -> same_datasets K B s data data' ->
  (forall alpha beta k, (k < K)%nat -> bias_request alpha beta data' k = bias_request alpha beta data (s k)) /\
  (forall gamma i j b, (i < K)%nat -> (j < K)%nat -> (b < B)%nat ->
     ir_request gamma data' i j b = ir_request gamma data (s i) (s j) b) /\
  (forall i j, (i < K)%nat -> (j < K)%nat ->
     ss_W_request n' A' data' i j = ss_W_request n A data (s i) (s j)) /\
  (forall kappa0 nu0 i j, (i < K)%nat -> (j < K)%nat ->
     mix_W_request kappa0 nu0 n' A' data' i j = mix_W_request kappa0 nu0 n A data (s i) (s j)) /\
  (forall lgam kappa0 nu0 u u' i j, (i < K)%nat -> (j < K)%nat -> u' i j = u (s i) (s j) ->
     mix_resample_A lgam kappa0 nu0 n' u' data' i j = mix_resample_A lgam kappa0 nu0 n u data (s i) (s j)).
Proof.
  intros (HP & HV & Hk) HA HD.
  assert (M : forall i j, (i < K)%nat -> (j < K)%nat -> mix_ss data' i j = mix_ss data (s i) (s j)).
  { intros i j Hi Hj. unfold mix_ss. f_equal; f_equal; eapply pool_as; try exact HD.
    - intros d d' Hd. f_equal. now apply (rl_weight0 Hd).
    - intros d d' Hd. unfold weight_ss1. f_equal. now apply (rl_Ns Hd). }
  repeat apply conj.
  - intros alpha beta k Hk1. unfold bias_request. f_equal.
    + f_equal. f_equal. eapply pool_as; [|exact HD]. intros d d' Hd. f_equal. now apply (rl_bkgd0 Hd).
    + f_equal. f_equal. f_equal. eapply pool_as; [|exact HD]. intros d d' Hd. now apply (rl_bkgd1 Hd).
  - intros gamma i j b Hi Hj Hb. unfold ir_request. f_equal. f_equal. eapply pool_as; [|exact HD].
    intros d d' Hd. f_equal. now apply (rl_ir Hd).
  - intros i j Hi Hj. pose proof (M i j Hi Hj) as E. unfold mix_ss in E. apply pair_equal_spec in E. destruct E as [E0 E1].
    unfold ss_W_request. rewrite E0, E1, HV, Hk, HA by auto. reflexivity.
  - intros kappa0 nu0 i j Hi Hj. unfold mix_W_request. rewrite M, HV, Hk, HA by auto. reflexivity.
  - intros lgam kappa0 nu0 u u' i j Hi Hj Hu. unfold mix_resample_A. rewrite M, HV, Hk, HP, Hu by auto. reflexivity.
Qed.

(** C120 (adjacency): reconsidering the edge (i, j) of the relabelled model with the uniform the original used for
    (s i, s j) gives the relabelled result. *)
Lemma upd2_as {A} K s (f f' : nat -> nat -> A) i j x :
  relabelling K s -> (i < K)%nat -> (j < K)%nat -> mat_as K s f f' -> mat_as K s (upd2 f (s i) (s j) x) (upd2 f' i j x).
Proof.
  intros Hs Hi Hj H a b Ha Hb. unfold upd2. rewrite !(@relabelling_eqb K s) by auto.
  destruct (Nat.eqb a i && Nat.eqb b j)%bool; [reflexivity|now apply H].
Qed.
Lemma with_A_as s m m' A A' : same_model s m m' -> mat_as (dm_K m) s A A' -> same_model s (with_A m A) (with_A m' A').
Proof. intros Hm HA. destruct Hm. constructor; cbn; auto. Qed.
Lemma data_ll_as s m m' data data' A A' k :
  relabelling (dm_K m) s -> same_model s m m' -> same_datasets (dm_K m) (dm_B m) s data data' ->
  mat_as (dm_K m) s A A' -> (k < dm_K m)%nat -> data_ll m' data' A' k = data_ll m data A (s k).
Proof.
  intros Hs Hm HD HA Hk. unfold data_ll. generalize (Fin 0).
  induction HD as [|d d' l l' H1 H2 IH]; intros a; cbn [fold_left]; [reflexivity|].
  rewrite (@rl_ll_single (dm_K m) (dm_B m) s d d' Hs H1 (params_of (with_A m A)) (params_of (with_A m' A'))); auto.
  pose proof (with_A_as Hm HA) as Hm'. exact (rl_params Hm').
Qed.
Theorem C120_edge_update s m m' n n' data data' u u' A A' i j :
  relabelling (dm_K m) s -> same_model s m m' -> same_net (dm_K m) s n n' ->
  same_datasets (dm_K m) (dm_B m) s data data' -> mat_as (dm_K m) s A A' ->
  (i < dm_K m)%nat -> (j < dm_K m)%nat -> u' i j = u (s i) (s j) ->
  mat_as (dm_K m) s (edge_step (data_ll m data) (n_P n) u A (s i) (s j))
                    (edge_step (data_ll m' data') (n_P n') u' A' i j).
Proof.
  intros Hs Hm (HP & _) HD HA Hi Hj Hu. unfold edge_step.
  pose proof (@upd2_as bool _ s A A' i j false Hs Hi Hj HA) as H0.
  pose proof (@upd2_as bool _ s _ _ i j true Hs Hi Hj H0) as H1.
  rewrite (data_ll_as Hs Hm HD H0) by auto. rewrite (data_ll_as Hs Hm HD H1) by auto.
  rewrite HP, Hu by auto. now apply upd2_as.
Qed.

(** A block model under new labels: node labels move with the nodes, everything about blocks stays. *)
Record same_sbm (s : nat -> nat) (b b' : sbm) : Prop := {
  sb1 : sb_K b' = sb_K b; sb2 : sb_C b' = sb_C b; sb3 : sb_pi b' = sb_pi b; sb4 : sb_tau0 b' = sb_tau0 b;
  sb5 : sb_tau1 b' = sb_tau1 b; sb6 : sb_kappa b' = sb_kappa b; sb7 : sb_alpha b' = sb_alpha b;
  sb8 : sb_beta b' = sb_beta b; sb9 : sb_allow b' = sb_allow b; sb10 : sb_m b' = sb_m b;
  sb11 : sb_p b' = sb_p b; sb12 : sb_v b' = sb_v b; sb13 : sb_fixed b' = sb_fixed b;
  sb_lab : vec_as (sb_K b) s (sb_c b) (sb_c b') }.
Definition same_netobj (s : nat -> nat) (o o' : netobj) : Prop :=
  match o, o' with
  | NetSbm f b, NetSbm f' b' => f' = f /\ same_sbm s b b'
  | NetEr e, NetEr e' => e' = e
  | _, _ => False
  end.
Definition netobj_K (o : netobj) : nat := match o with NetSbm _ b => sb_K b | NetEr e => e_K e end.

(** C120 (the network as the weights see it). *)
Theorem C120_network_view s o o' :
  relabelling (netobj_K o) s -> same_netobj s o o' -> same_net (netobj_K o) s (net_view o) (net_view o').
Proof.
  intros Hs. destruct o as [f b|e], o' as [f' b'|e']; cbn; try contradiction.
  - intros [-> H]. split; [|split].
    + intros i j Hi Hj. cbn. unfold sbm_P. rewrite (sb9 H), (sb11 H). unfold ix, fill_diagonal.
      destruct (negb (sb_allow b)); rewrite ?(@relabelling_eqb (sb_K b) s) by auto; rewrite !(sb_lab H) by auto; reflexivity.
    + intros i j Hi Hj. cbn. unfold sbm_V, ix. rewrite (sb12 H), !(sb_lab H) by auto. reflexivity.
    + cbn. apply (sb6 H).
  - intros ->. split; [|split].
    + intros i j Hi Hj. cbn. unfold er_P, fill_diagonal.
      destruct (negb (e_allow e)); rewrite ?(@relabelling_eqb (e_K e) s) by auto; reflexivity.
    + intros i j Hi Hj. reflexivity.
    + reflexivity.
Qed.

(** C120 (network updates): the requests for block parameters do not change; the label of node k is asked for with
    the log probabilities of node s k. *)
Theorem C120_network_requests s b b' A A' W W' :
  relabelling (sb_K b) s -> same_sbm s b b' -> mat_as (sb_K b) s A A' -> mat_as (sb_K b) s W W' ->
  (forall c1 c2, p_request b' A' c1 c2 = p_request b A c1 c2) /\
  (forall c1 c2, v_request b' A' W' c1 c2 = v_request b A W c1 c2) /\
  (forall c, m_request b' c = m_request b c) /\
  (forall lgam c c' k ck, (k < sb_K b)%nat -> vec_as (sb_K b) s c c' ->
     c_request lgam b' A' W' c' k ck = c_request lgam b A W c (s k) ck).
Proof.
  intros Hs H HA HW.
  assert (G : forall M M' c1 c2, mat_as (sb_K b) s M M' ->
            block_sum (sb_K b') (sb_c b') c1 c2 M' = block_sum (sb_K b) (sb_c b) c1 c2 M).
  { intros M M' c1 c2 HM. unfold block_sum. rewrite (sb1 H).
    apply (@Rsum2_as (sb_K b) s (fun i j => if ((sb_c b i =? c1) && (sb_c b j =? c2))%nat then M i j else 0)); auto.
    intros i j Hi Hj. cbv beta. rewrite !(sb_lab H), HM by auto. reflexivity. }
  repeat apply conj.
  - intros c1 c2. unfold p_request. rewrite (sb4 H), (sb5 H).
    rewrite (G (fun i j => b2R (A i j)) (fun i j => b2R (A' i j))), (G (fun i j => 1 - b2R (A i j)) (fun i j => 1 - b2R (A' i j)));
      [reflexivity| |]; intros i j Hi Hj; cbv beta; now rewrite HA by auto.
  - intros c1 c2. unfold v_request. rewrite (sb6 H), (sb7 H), (sb8 H).
    rewrite (G (fun i j => b2R (A i j)) (fun i j => b2R (A' i j))),
      (G (fun i j => if A i j then W i j else 0) (fun i j => if A' i j then W' i j else 0)); [reflexivity| |];
      intros i j Hi Hj; cbv beta; rewrite ?HA, ?HW by auto; reflexivity.
  - intros c. unfold m_request. rewrite (sb3 H), (sb1 H). f_equal.
    apply (@Rsum_as (sb_K b) s (fun k => if (sb_c b k =? c)%nat then 1 else 0)); auto.
    intros k Hk. now rewrite (sb_lab H) by auto.
  - intros lgam c c' k ck Hk Hc. unfold c_request. cbv zeta. rewrite (sb1 H), (sb6 H), (sb10 H), (sb11 H), (sb12 H).
    assert (Hu : forall j, (j < sb_K b)%nat -> upd c' k ck j = upd c (s k) ck (s j)).
    { intros j Hj. unfold upd. rewrite (@relabelling_eqb (sb_K b) s) by auto. destruct (Nat.eqb j k); auto. }
    f_equal. f_equal. f_equal; [f_equal; [f_equal|]|].
    + apply (@Rsum_as (sb_K b) s (fun j => bernoulli_lp (sb_p b ck (upd c (s k) ck j)) (b2R (A (s k) j)))); auto.
      intros j Hj. now rewrite Hu, HA by auto.
    + apply (@Rsum_as (sb_K b) s (fun j => bernoulli_lp (sb_p b (upd c (s k) ck j) ck) (b2R (A j (s k))))); auto.
      intros j Hj. now rewrite Hu, HA by auto.
    + apply (@Rsum_as (sb_K b) s (fun j => b2R (A (s k) j) * gamma_lp lgam (sb_kappa b) (sb_v b ck (upd c (s k) ck j)) (W (s k) j))); auto.
      intros j Hj. now rewrite Hu, HA, HW by auto.
    + apply (@Rsum_as (sb_K b) s (fun j => b2R (A j (s k)) * gamma_lp lgam (sb_kappa b) (sb_v b (upd c (s k) ck j) ck) (W j (s k)))); auto.
      intros j Hj. now rewrite Hu, HA, HW by auto.
Qed.

(** C120 (log probability): the joint log probability of the model and of its network do not change. *)
Theorem C120_log_probability lgam s st st' :
  relabelling (dm_K (gi_m st)) s -> netobj_K (gi_net st) = dm_K (gi_m st) ->
  same_model s (gi_m st) (gi_m st') -> same_netobj s (gi_net st) (gi_net st') -> gi_h st' = gi_h st ->
  log_probability lgam st' = log_probability lgam st /\
  net_log_probability lgam (gi_net st') = net_log_probability lgam (gi_net st).
Proof.
  intros Hs HK Hm Hn Hh. split.
  - unfold log_probability.
    destruct (C120_likelihood (T := 0) (S_ := fun _ _ => 0%Z) (S' := fun _ _ => 0%Z) All Hs Hm) as [-> _];
      [intros t k Ht; lia|].
    destruct (log_likelihood (gi_m st) All) as [ll|e]; cbn [bindr]; [|reflexivity]. f_equal. f_equal.
    assert (Hv : same_net (dm_K (gi_m st)) s (net_view (gi_net st)) (net_view (gi_net st')))
      by (rewrite <- HK in *; now apply C120_network_view).
    destruct Hv as (HP & HV & Hk). unfold log_prior. rewrite Hh, (sm_mix Hm), (sm_K Hm). f_equal.
    destruct (dm_mix (gi_m st)).
    + unfold mix_weights_ll. f_equal; [f_equal|]; apply (@esum2_as (dm_K (gi_m st)) s); auto; intros i j Hi Hj; cbv beta;
        rewrite ?HP, ?HV, ?Hk, ?(sm_A Hm), ?(sm_W Hm) by auto; reflexivity.
    + unfold ss_weights_ll. f_equal; [f_equal; f_equal|]; apply (@esum2_as (dm_K (gi_m st)) s); auto; intros i j Hi Hj; cbv beta;
        rewrite ?HP, ?HV, ?Hk, ?(sm_A Hm), ?(sm_W Hm) by auto; reflexivity.
  - destruct (gi_net st) as [f b|e], (gi_net st') as [f' b'|e']; cbn in Hn; try contradiction; [|now rewrite Hn].
    destruct Hn as [-> H]. cbn [net_log_probability]. destruct f; [reflexivity|].
    unfold sbm_log_probability. rewrite (sb1 H), (sb2 H), (sb3 H), (sb4 H), (sb5 H), (sb7 H), (sb8 H), (sb10 H), (sb11 H), (sb12 H).
    destruct (dirichlet_lp _ _ _ _ _) as [d|]; cbn [bindr]; [|reflexivity].
    destruct (beta_lp _ _ _ _ _) as [be|]; cbn [bindr]; [|reflexivity]. f_equal. f_equal.
    apply (@esum_as (sb_K b) s (fun k => elog (Fin (sb_m b (sb_c b k))))).
    + cbn in HK. now rewrite HK.
    + intros k Hk. now rewrite (sb_lab H) by auto.
Qed.

(* ------------------------------------------------------------------ *)
(** ** Mean field *)

(** The same variational state under new labels.  For a block model the soft labels move with the nodes. *)
Definition same_mfnet (s : nat -> nat) (K : nat) (o o' : mfnet) : Prop :=
  match o, o' with
  | MfSbm fp b f, MfSbm fp' b' f' =>
      fp' = fp /\ sb_K b = K /\ same_sbm s b b' /\ (forall k c, (k < K)%nat -> mf_m f' k c = mf_m f (s k) c) /\
      mf_pi f' = mf_pi f /\ mf_tau0 f' = mf_tau0 f /\ mf_tau1 f' = mf_tau1 f /\
      mf_alpha f' = mf_alpha f /\ mf_beta f' = mf_beta f
  | MfEr e, MfEr e' => e' = e /\ e_K e = K
  | _, _ => False
  end.
Record same_mfw (s : nat -> nat) (K : nat) (w w' : mfw) : Prop := {
  sw_p : mat_as K s (w_p w) (w_p w');
  sw_k0 : mat_as K s (w_kappa0 w) (w_kappa0 w'); sw_v0 : mat_as K s (w_v0 w) (w_v0 w');
  sw_k1 : mat_as K s (w_kappa1 w) (w_kappa1 w'); sw_v1 : mat_as K s (w_v1 w) (w_v1 w') }.
Record same_mfmodel (s : nat -> nat) (m m' : mfmodel) : Prop := {
  sf_h : mm_h m' = mm_h m;
  sf_ba : vec_as (mh_K (mm_h m)) s (mb_alpha (mm_bias m)) (mb_alpha (mm_bias m'));
  sf_bb : vec_as (mh_K (mm_h m)) s (mb_beta (mm_bias m)) (mb_beta (mm_bias m'));
  sf_g : ten_as (mh_K (mm_h m)) (mh_B (mm_h m)) s (mm_gamma m) (mm_gamma m');
  sf_w : same_mfw s (mh_K (mm_h m)) (mm_w m) (mm_w m');
  sf_net : same_mfnet s (mh_K (mm_h m)) (mm_net m) (mm_net m');
  sf_data : same_datasets (mh_K (mm_h m)) (mh_B (mm_h m)) s (mm_data m) (mm_data m');
  sf_off : mm_off m' = mm_off m }.

Record same_netexp (s : nat -> nat) (K : nat) (n n' : netexp) : Prop := {
  sx_k : ne_kappa n' = ne_kappa n; sx_p : mat_as K s (ne_lnp n) (ne_lnp n');
  sx_np : mat_as K s (ne_lnnotp n) (ne_lnnotp n'); sx_v : mat_as K s (ne_v n) (ne_v n');
  sx_lv : mat_as K s (ne_lnv n) (ne_lnv n'); sx_a : ne_allow n' = ne_allow n }.

Lemma view_as psi s K o o' :
  relabelling K s -> same_mfnet s K o o' ->
  match mfnet_view psi o, mfnet_view psi o' with
  | Ok n, Ok n' => same_netexp s K n n'
  | Raise e, Raise e' => e = e'
  | _, _ => False
  end.
Proof.
  intros Hs. destruct o as [fp b f|e], o' as [fp' b' f'|e']; cbn [same_mfnet]; try contradiction.
  - intros (-> & HK & H & Hm & H1 & H2 & H3 & H4 & H5). cbn [mfnet_view].
    assert (HP : mat_as K s (sbm_P b) (sbm_P b')).
    { intros i j Hi Hj. unfold sbm_P. rewrite (sb9 H), (sb11 H). unfold ix, fill_diagonal.
      destruct (negb (sb_allow b)); rewrite ?(@relabelling_eqb K s) by auto; rewrite !(sb_lab H) by (rewrite HK; auto); reflexivity. }
    assert (HV : mat_as K s (sbm_V b) (sbm_V b')).
    { intros i j Hi Hj. unfold sbm_V, ix. rewrite (sb12 H), !(sb_lab H) by (rewrite HK; auto). reflexivity. }
    assert (HM : forall M, mat_as K s (block_mean (sb_C b) (mf_m f) M) (block_mean (sb_C b) (mf_m f') M)).
    { intros M i j Hi Hj. unfold block_mean. apply Rsum_ext; intros c1 _. apply Rsum_ext; intros c2 _. now rewrite !Hm by auto. }
    constructor; cbn.
    + apply (sb6 H).
    + intros i j Hi Hj. destruct fp; [unfold fsbm_expected_log_p|unfold sbm_expected_log_p]; rewrite (sb9 H), ?(sb13 H), ?(sb2 H), ?H2, ?H3;
        unfold efill_diagonal; destruct (negb (sb_allow b)); rewrite ?(@relabelling_eqb K s) by auto;
        try destruct (Nat.eqb i j); try destruct (sb_fixed b); rewrite ?HP by auto; try reflexivity; f_equal; now apply HM.
    + intros i j Hi Hj. destruct fp; [unfold fsbm_expected_log_notp|unfold sbm_expected_log_notp]; rewrite (sb9 H), ?(sb13 H), ?(sb2 H), ?H2, ?H3;
        unfold efill_diagonal; destruct (negb (sb_allow b)); rewrite ?(@relabelling_eqb K s) by auto;
        try destruct (Nat.eqb i j); try destruct (sb_fixed b); rewrite ?HP by auto; try reflexivity; f_equal; now apply HM.
    + intros i j Hi Hj. unfold sbm_expected_v. rewrite (sb13 H), (sb2 H), H4, H5. destruct (sb_fixed b); [now apply HV|now apply HM].
    + intros i j Hi Hj. unfold sbm_expected_log_v. rewrite (sb13 H), (sb2 H), H4, H5.
      destruct (sb_fixed b); [now rewrite HV by auto|now apply HM].
    + apply (sb9 H).
  - intros [-> HK]. cbn [mfnet_view]. destruct (er_expected_v e) as [v|x]; cbn [bindr]; [|reflexivity].
    destruct (er_expected_log_v psi e) as [lv|x]; cbn [bindr]; [|reflexivity].
    assert (HP : mat_as K s (er_P e) (er_P e)).
    { intros i j Hi Hj. unfold er_P, fill_diagonal. destruct (negb (e_allow e)); rewrite ?(@relabelling_eqb K s) by auto; reflexivity. }
    constructor; cbn; try reflexivity; intros i j Hi Hj; rewrite ?(HP i j) by auto; reflexivity.
Qed.

(** The weight update given related networks and data. *)
Lemma weights_as lgam s K B kappa0 nu0 n n' data data' frac step w w' :
  same_netexp s K n n' -> same_datasets K B s data data' -> same_mfw s K w w' ->
  match weights_sgd lgam kappa0 nu0 n data frac step w, weights_sgd lgam kappa0 nu0 n' data' frac step w' with
  | Ok w1, Ok w1' => same_mfw s K w1 w1'
  | Raise e, Raise e' => e = e'
  | _, _ => False
  end.
Proof.
  intros Hn HD Hw. unfold weights_sgd, meanfieldupdate_kappa_v.
  destruct HD as [|d d' l l' H1 H2]; [reflexivity|].
  assert (HD : same_datasets K B s (d :: l) (d' :: l')) by (constructor; auto).
  set (data := d :: l) in *. set (data' := d' :: l') in *. cbn [bindr].
  assert (E0 : forall i j, (i < K)%nat -> (j < K)%nat -> pool (fun d => exp_weight_ss0 d i j) data' = pool (fun d => exp_weight_ss0 d (s i) (s j)) data).
  { intros i j Hi Hj. eapply pool_as; [|exact HD]. intros a a' Ha. now apply (rl_eweight0 Ha). }
  assert (E1 : forall i, (i < K)%nat -> pool (fun d => IZR (pa_Ns d i)) data' = pool (fun d => IZR (pa_Ns d (s i))) data).
  { intros i Hi. eapply pool_as; [|exact HD]. intros a a' Ha. f_equal. now apply (rl_Ns Ha). }
  set (w1 := {| w_p := w_p w; w_kappa0 := _; w_v0 := _; w_kappa1 := _; w_v1 := _ |}).
  set (w1' := {| w_p := w_p w'; w_kappa0 := _; w_v0 := _; w_kappa1 := _; w_v1 := _ |}).
  assert (Hw1 : same_mfw s K w1 w1').
  { constructor; intros i j Hi Hj; unfold w1, w1'; cbn [w_p w_kappa0 w_v0 w_kappa1 w_v1]; rewrite ?(sw_p Hw), ?(sw_k0 Hw), ?(sw_v0 Hw), ?(sw_k1 Hw), ?(sw_v1 Hw), ?E0, ?E1, ?(sx_k Hn), ?(sx_v Hn) by auto; reflexivity. }
  clearbody w1 w1'. constructor; cbn; try apply Hw1.
  intros i j Hi Hj. rewrite (sw_p Hw1) by auto. do 3 f_equal. unfold logit_p.
  rewrite (sx_p Hn), (sx_np Hn), (sx_k Hn), (sx_lv Hn), (sw_k0 Hw1), (sw_v0 Hw1), (sw_k1 Hw1), (sw_v1 Hw1) by auto. reflexivity.
Qed.
Lemma gamma_as s K B gamma data data' frac step mg mg' :
  same_datasets K B s data data' -> ten_as K B s mg mg' ->
  ten_as K B s (mf_update_gamma gamma data frac step mg) (mf_update_gamma gamma data' frac step mg').
Proof.
  intros HD Hg i j b Hi Hj Hb. unfold mf_update_gamma. rewrite Hg by auto. f_equal. f_equal. f_equal.
  eapply pool_as; [|exact HD]. intros d d' Hd. now apply (rl_eir Hd).
Qed.
Lemma bias_as s K B alpha beta data data' frac step b b' :
  same_datasets K B s data data' -> vec_as K s (mb_alpha b) (mb_alpha b') -> vec_as K s (mb_beta b) (mb_beta b') ->
  match mf_update_lambda0 alpha beta data frac step b, mf_update_lambda0 alpha beta data' frac step b' with
  | Ok x, Ok x' => vec_as K s (mb_alpha x) (mb_alpha x') /\ vec_as K s (mb_beta x) (mb_beta x')
  | Raise e, Raise e' => e = e'
  | _, _ => False
  end.
Proof.
  intros HD Ha Hb. unfold mf_update_lambda0. destruct HD as [|d d' l l' H1 H2]; [reflexivity|].
  assert (HD : same_datasets K B s (d :: l) (d' :: l')) by (constructor; auto). cbn [mb_alpha mb_beta]. split; intros k Hk; cbn [mb_alpha mb_beta].
  - rewrite Ha by auto. f_equal. f_equal. f_equal. eapply pool_as; [|exact HD]. intros a a' Hd. now apply (rl_ebkgd0 Hd).
  - rewrite Hb by auto. f_equal. f_equal. f_equal. eapply pool_as; [|exact HD]. intros a a' Hd. unfold exp_bkgd_ss1. now rewrite (sd_T Hd), (sd_dt Hd).
Qed.

Definition same_mf_in (K B : nat) (s : nat -> nat) (e e' : mf_in) : Prop :=
  vec_as K s (e_lam e) (e_lam e') /\ mat_as K s (e_W e) (e_W e') /\ ten_as K B s (e_g e) (e_g e').
Lemma allow_as s K o o' : same_mfnet s K o o' -> mfnet_allow o' = mfnet_allow o.
Proof.
  destruct o as [fp b f|e], o' as [fp' b' f'|e']; cbn; try contradiction; [intros (_ & _ & H & _); apply (sb9 H)|intros [-> _]; reflexivity].
Qed.
Lemma lnW_as psi s K al w w' : relabelling K s -> same_mfw s K w w' ->
  mat_as K s (expected_log_W psi al w) (expected_log_W psi al w') /\ mat_as K s (expected_W al w) (expected_W al w').
Proof.
  intros Hs Hw. split; intros i j Hi Hj; unfold expected_log_W, expected_W, efill_diagonal, fill_diagonal, w_A, expected_log_W_given_A, expected_W_given_A;
    destruct (negb al); rewrite ?(@relabelling_eqb K s) by auto; rewrite ?(sw_p Hw), ?(sw_k0 Hw), ?(sw_v0 Hw), ?(sw_k1 Hw), ?(sw_v1 Hw) by auto; reflexivity.
Qed.
Lemma lng_as psi s K B g g' : ten_as K B s g g' -> ten_as K B s (expected_log_g psi B g) (expected_log_g psi B g').
Proof.
  intros Hg i j b Hi Hj Hb. unfold expected_log_g. rewrite Hg by auto. f_equal. f_equal. apply Rsum_ext; intros; now apply Hg.
Qed.
Lemma mf_in_as psi s m m' : relabelling (mh_K (mm_h m)) s -> same_mfmodel s m m' ->
  same_mf_in (mh_K (mm_h m)) (mh_B (mm_h m)) s (mf_in_of psi m) (mf_in_of psi m').
Proof.
  intros Hs Hm. split; [|split]; cbn.
  - intros k Hk. unfold expected_log_lambda0. now rewrite (sf_ba Hm), (sf_bb Hm) by auto.
  - intros i j Hi Hj. rewrite (@allow_as s _ _ _ (sf_net Hm)).
    now rewrite (proj1 (@lnW_as psi s _ (mfnet_allow (mm_net m)) _ _ Hs (sf_w Hm))) by auto.
  - intros i j b Hi Hj Hb. rewrite (sf_h Hm). f_equal. apply (lng_as psi (sf_g Hm)); auto.
Qed.

Lemma mf_norm_as K B s p p' e e' k r : relabelling K s -> same_data K B s p p' -> same_mf_in K B s e e' ->
  (k < K)%nat -> (r < pa_Tk p' k)%nat -> mf_norm p' e' k r = mf_norm p e (s k) r.
Proof.
  intros Hs Hp (Hl & HW & Hg) Hk Hr. unfold mf_norm. rewrite Hl by auto. f_equal.
  rewrite (sd_K Hp), (sd_K' Hp), (sd_B Hp), (sd_B' Hp), !Rsum_mul.
  apply (@Rsum_as K s (fun k1 => Rsum B (fun b => pkb p e (s k) r (k1 * B + b)))); auto.
  intros k1 H1. apply Rsum_ext; intros b Hb. unfold pkb.
  rewrite (sd_B Hp), (sd_B' Hp), !div_idx, !mod_idx by auto. rewrite (rl_Fs Hp), HW, Hg by auto. reflexivity.
Qed.

Lemma mf_update_as K B s p p' e e' :
  relabelling K s -> same_data K B s p p' -> same_mf_in K B s e e' ->
  match mf_update_python p e, mf_update_python p' e' with
  | Ok x, Ok x' => same_data K B s x x'
  | Raise a, Raise a' => a = a'
  | _, _ => False
  end.
Proof.
  intros Hs Hp He. unfold mf_update_python.
  assert (E : all_rows p' (fun k r => negb (Reqb (mf_norm p' e' k r) 0)) = all_rows p (fun k r => negb (Reqb (mf_norm p e k r) 0))).
  { unfold all_rows. rewrite (sd_K Hp), (sd_K' Hp).
    apply (@forall_as K s (fun k => forall_lt (pa_Tk p k) (fun r => negb (Reqb (mf_norm p e k r) 0)))); auto.
    intros k Hk. rewrite (rl_Tk Hp) by auto. apply forall_lt_ext. intros r Hr.
    rewrite (@mf_norm_as K B s p p' e e') by (auto; now rewrite (rl_Tk Hp) by auto). reflexivity. }
  rewrite E. destruct (negb (all_rows p _)); [reflexivity|].
  assert (TK : forall x Z, pa_Tk (set_EZ x Z) = pa_Tk x) by reflexivity.
  pose proof He as (Hl & HW & Hg).
  constructor; cbn [set_EZ pa_T pa_K pa_B pa_dt pa_S pa_F pa_Z pa_EZ]; try apply Hp.
  - intros k r Hk Hr. rewrite TK in Hr. assert (Hr' : (r < pa_Tk p' k)%nat) by now rewrite (rl_Tk Hp) by auto.
    rewrite (@mf_norm_as K B s p p' e e'), (rl_Ss Hp), Hl by auto. reflexivity.
  - intros k r k1 b Hk Hr H1 Hb. rewrite TK in Hr. assert (Hr' : (r < pa_Tk p' k)%nat) by now rewrite (rl_Tk Hp) by auto.
    cbn [Nat.add]. rewrite (@mf_norm_as K B s p p' e e'), (rl_Ss Hp) by auto. f_equal. f_equal.
    unfold pkb. rewrite (sd_B Hp), (sd_B' Hp), !div_idx, !mod_idx by auto. rewrite (rl_Fs Hp), HW, Hg by auto. reflexivity.
Qed.
Lemma mf_parents_as K B s e e' data data' :
  relabelling K s -> same_mf_in K B s e e' -> same_datasets K B s data data' ->
  match mf_parents e data, mf_parents e' data' with
  | Ok x, Ok x' => same_datasets K B s x x'
  | Raise a, Raise a' => a = a'
  | _, _ => False
  end.
Proof.
  intros Hs He HD. induction HD as [|d d' l l' H1 H2 IH]; cbn [mf_parents]; [constructor|].
  pose proof (mf_update_as Hs H1 He) as H.
  destruct (mf_update_python d e) as [x|a], (mf_update_python d' e') as [x'|a']; try contradiction; cbn [bindr]; auto.
  destruct (mf_parents e l) as [y|a], (mf_parents e' l') as [y'|a']; try contradiction; cbn [bindr]; auto.
  constructor; auto.
Qed.

(** C120 (mean field): one coordinate-descent update of the gamma-mixture model with an Erdos-Renyi network gives
    the relabelled state, failing exactly when the original fails. *)
Theorem C120_mf_step lgam psi s m m' :
  relabelling (mh_K (mm_h m)) s -> same_mfmodel s m m' -> (exists e, mm_net m = MfEr e) ->
  match mf_batch_step lgam psi m, mf_batch_step lgam psi m' with
  | Ok x, Ok x' => same_mfmodel s x x'
  | Raise a, Raise a' => a = a'
  | _, _ => False
  end.
Proof.
  intros Hs Hm (e & He). unfold mf_batch_step. rewrite (sf_h Hm).
  pose proof (mf_parents_as Hs (mf_in_as psi Hs Hm) (sf_data Hm)) as HD.
  destruct (mf_parents _ (mm_data m)) as [data|a], (mf_parents _ (mm_data m')) as [data'|a']; try contradiction; cbn [bindr]; auto.
  pose proof (@bias_as s _ _ (mh_alpha (mm_h m)) (mh_beta (mm_h m)) data data' 1 1 _ _ HD (sf_ba Hm) (sf_bb Hm)) as HB.
  unfold bias_mf. destruct (mf_update_lambda0 _ _ data _ _ _) as [b|a], (mf_update_lambda0 _ _ data' _ _ _) as [b'|a']; try contradiction; cbn [bindr]; auto.
  pose proof (@view_as psi s _ _ _ Hs (sf_net Hm)) as HV.
  destruct (mfnet_view psi (mm_net m)) as [n|a], (mfnet_view psi (mm_net m')) as [n'|a']; try contradiction; cbn [bindr]; auto.
  pose proof (@weights_as lgam s _ _ (mh_kappa0 (mm_h m)) (mh_nu0 (mm_h m)) n n' data data' 1 1 _ _ HV HD (sf_w Hm)) as HW.
  unfold weights_sgd in HW. unfold weights_mf.
  destruct (do w1 <- meanfieldupdate_kappa_v _ _ n data _ _ _;; _) as [w|a], (do w1 <- meanfieldupdate_kappa_v _ _ n' data' _ _ _;; _) as [w'|a'];
    try contradiction; cbn [bindr]; auto.
  pose proof (sf_net Hm) as HN. rewrite He in HN |- *. destruct (mm_net m') as [|e']; cbn [same_mfnet] in HN; [contradiction|].
  destruct HN as [-> HK]. cbn [mfnet_batch].
  assert (EU : er_meanfieldupdate e (wstats_of psi w') 1 = er_meanfieldupdate e (wstats_of psi w) 1).
  { unfold er_meanfieldupdate. destruct (e_alpha e); [|reflexivity]. destruct (e_beta e); [|reflexivity].
    rewrite HK. cbn [wstats_of ws_A ws_W].
    rewrite (@Rsum2_as (mh_K (mm_h m)) s (fun i j => w_A w i j * e_kappa e) (fun i j => w_A w' i j * e_kappa e)),
      (@Rsum2_as (mh_K (mm_h m)) s (fun i j => w_A w i j * expected_W_given_A w 1 i j) (fun i j => w_A w' i j * expected_W_given_A w' 1 i j)); auto;
      intros i j Hi Hj; unfold w_A, expected_W_given_A; rewrite ?(sw_p HW), ?(sw_k0 HW), ?(sw_v0 HW), ?(sw_k1 HW), ?(sw_v1 HW) by auto; reflexivity. }
  rewrite EU. destruct (er_meanfieldupdate e (wstats_of psi w) 1) as [e1|a] eqn:E1; cbn [bindr]; [|reflexivity].
  assert (HK1 : e_K e1 = e_K e).
  { unfold er_meanfieldupdate in E1. destruct (e_alpha e), (e_beta e), (e_mf e) as [[? ?]|]; inversion E1; reflexivity. }
  constructor; cbn [mm_h mm_bias mm_gamma mm_w mm_net mm_data mm_off]; auto.
  - apply HB.
  - apply HB.
  - apply gamma_as; [exact HD|apply (sf_g Hm)].
  - cbn. split; [reflexivity|congruence].
  - apply (sf_off Hm).
Qed.

(** C120 (bound): the reported variational bound does not change, whatever the network prior. *)
Theorem C120_vlb lgam psi s m m' :
  relabelling (mh_K (mm_h m)) s -> same_mfmodel s m m' -> mf_get_vlb lgam psi m' = mf_get_vlb lgam psi m.
Proof.
  intros Hs Hm. unfold mf_get_vlb. rewrite (sf_h Hm). set (h := mm_h m) in *. set (K := mh_K h) in *. set (B := mh_B h) in *.
  assert (HL : vec_as K s (expected_log_lambda0 psi (mm_bias m)) (expected_log_lambda0 psi (mm_bias m')) /\
               vec_as K s (expected_lambda0 (mm_bias m)) (expected_lambda0 (mm_bias m'))).
  { split; intros k Hk; unfold expected_log_lambda0, expected_lambda0; now rewrite (sf_ba Hm), (sf_bb Hm) by auto. }
  destruct HL as [HL1 HL2].
  destruct (@lnW_as psi s K (mfnet_allow (mm_net m)) _ _ Hs (sf_w Hm)) as [HW1 HW2].
  pose proof (lng_as psi (sf_g Hm)) as HG. fold K B in HG.
  assert (E1 : forall a, fold_left (fun v d => eadd v (data_vlb psi m' d)) (mm_data m') a =
               fold_left (fun v d => eadd v (data_vlb psi m d)) (mm_data m) a).
  { pose proof (sf_data Hm) as HD. fold h K B in HD. induction HD as [|d d' l l' H1 H2 IH]; intros a; cbn [fold_left]; [reflexivity|].
    rewrite IH. f_equal. f_equal. unfold data_vlb. rewrite (sd_K H1), (sd_K' H1), (@allow_as s _ _ _ (sf_net Hm)), (sf_h Hm). fold h B.
    apply (@esum_as K s (fun k => cy_vlb_er_k d (expected_log_lambda0 psi (mm_bias m)) (expected_lambda0 (mm_bias m))
      (expected_log_W psi (mfnet_allow (mm_net m)) (mm_w m)) (expected_W (mfnet_allow (mm_net m)) (mm_w m)) (expected_log_g psi B (mm_gamma m)) k)); auto.
    intros k Hk. unfold cy_vlb_er_k. rewrite (sd_T H1), (sd_K H1), (sd_K' H1), (sd_B H1), (sd_B' H1), HL1, HL2, (rl_Tk H1) by auto.
    f_equal; [f_equal; f_equal|].
    - apply (@Rsum_as K s (fun k1 => - IZR (pa_Ns d k1) * expected_W (mfnet_allow (mm_net m)) (mm_w m) k1 (s k))); auto.
      intros k1 Hk1. now rewrite (rl_Ns H1), HW2 by auto.
    - apply esum_ext. intros r Hr. assert (Hr' : (r < pa_Tk d' k)%nat) by now rewrite (rl_Tk H1) by auto.
      rewrite (sd_EZ0 H1), (rl_Ss H1) by auto. f_equal.
      apply (@esum_as K s (fun k1 => esum B (fun b =>
            let c := (1 + (k1 * B + b))%nat in
            eadd (emul (Fin (pa_EZ d (s k) r c)) (eadd (eadd (Fin (ln (pa_Fs d (s k) r k1 b + eps32)))
               (expected_log_W psi (mfnet_allow (mm_net m)) (mm_w m) k1 (s k))) (Fin (expected_log_g psi B (mm_gamma m) k1 (s k) b))))
                 (Fin (- pa_EZ d (s k) r c * ln (pa_EZ d (s k) r c / IZR (pa_Ss d (s k) r) + eps32)))))); auto.
      intros k1 Hk1. apply esum_ext; intros b Hb. cbv zeta.
      rewrite (sd_EZ H1), (rl_Fs H1), HW1, HG by auto. reflexivity. }
  rewrite E1.
  assert (E2 : bias_vlb lgam psi K (mh_alpha h) (mh_beta h) (mm_bias m') = bias_vlb lgam psi K (mh_alpha h) (mh_beta h) (mm_bias m)).
  { unfold bias_vlb. f_equal.
    - apply (@Rsum_as K s (fun k => gamma_negentropy_with lgam (mh_alpha h) (expected_log_lambda0 psi (mm_bias m) k)
         (expected_lambda0 (mm_bias m) k) (mh_beta h) (ln (mh_beta h)))); auto. intros k Hk. now rewrite HL1, HL2 by auto.
    - apply (@Rsum_as K s (fun k => gamma_negentropy lgam psi (mb_alpha (mm_bias m) k) (mb_beta (mm_bias m) k))); auto.
      intros k Hk. now rewrite (sf_ba Hm), (sf_bb Hm) by auto. }
  rewrite E2.
  assert (E3 : ir_vlb lgam psi K B (mh_gamma h) (mm_gamma m') = ir_vlb lgam psi K B (mh_gamma h) (mm_gamma m)).
  { assert (SQ : forall (f f' : nat -> nat -> R), mat_as K s f f' ->
               Rsum (K * K) (fun r => f' (r / K)%nat (r mod K)%nat) = Rsum (K * K) (fun r => f (r / K)%nat (r mod K)%nat)).
    { intros f f' Hf. rewrite !Rsum_mul.
      rewrite (@Rsum_ext K _ (fun i => Rsum K (f' i))), (@Rsum_ext K (fun k => Rsum K (fun b => f ((k * K + b) / K)%nat ((k * K + b) mod K)%nat)) (fun i => Rsum K (f i))).
      - now apply (@Rsum2_as K s).
      - intros i Hi. apply Rsum_ext; intros j Hj. now rewrite div_idx, mod_idx by auto.
      - intros i Hi. apply Rsum_ext; intros j Hj. now rewrite div_idx, mod_idx by auto. }
    assert (GS : forall i j, (i < K)%nat -> (j < K)%nat -> Rsum B (mm_gamma m' i j) = Rsum B (mm_gamma m (s i) (s j))).
    { intros i j Hi Hj. apply Rsum_ext; intros b Hb. now apply (sf_g Hm). }
    unfold ir_vlb, dirichlet_negentropy, dirichlet_negentropy_with, flat3. f_equal.
    - f_equal. apply (@SQ (fun i j => Rsum B (fun b => (mh_gamma h b - 1) * expected_log_g psi B (mm_gamma m) i j b))
                          (fun i j => Rsum B (fun b => (mh_gamma h b - 1) * expected_log_g psi B (mm_gamma m') i j b))).
      intros i j Hi Hj. apply Rsum_ext; intros b Hb. now rewrite HG by auto.
    - f_equal; [f_equal|].
      + apply (@SQ (fun i j => lgam (Rsum B (mm_gamma m i j))) (fun i j => lgam (Rsum B (mm_gamma m' i j)))).
        intros i j Hi Hj. now rewrite GS by auto.
      + f_equal. apply (@SQ (fun i j => Rsum B (fun b => lgam (mm_gamma m i j b))) (fun i j => Rsum B (fun b => lgam (mm_gamma m' i j b)))).
        intros i j Hi Hj. apply Rsum_ext; intros b Hb. now rewrite (sf_g Hm) by auto.
      + destruct (K * K =? 1)%nat eqn:E11.
        * apply Nat.eqb_eq in E11. assert (EK : K = 1%nat) by (destruct K as [|[|?]]; cbn in E11; lia).
          rewrite EK. cbn [Nat.mul Nat.add Rsum]. f_equal. apply Rsum_ext; intros b Hb.
          assert (S0 : s 0%nat = 0%nat) by (destruct Hs as [Hs _]; specialize (Hs 0%nat); fold h K in Hs; lia).
          assert (G0 : forall b, (b < B)%nat -> mm_gamma m' 0%nat 0%nat b = mm_gamma m 0%nat 0%nat b)
            by (intros b0 Hb0; rewrite (sf_g Hm), S0 by (auto; fold h K; lia); reflexivity).
          unfold dirichlet_mean_log. cbn. rewrite G0 by auto. f_equal. f_equal. f_equal. apply Rsum_ext; intros; now apply G0.
        * apply (@SQ (fun i j => Rsum B (fun b => (mm_gamma m i j b - 1) * (psi (mm_gamma m i j b) - psi (Rsum B (mm_gamma m i j)))))
                     (fun i j => Rsum B (fun b => (mm_gamma m' i j b - 1) * (psi (mm_gamma m' i j b) - psi (Rsum B (mm_gamma m' i j)))))).
          intros i j Hi Hj. apply Rsum_ext; intros b Hb. now rewrite (sf_g Hm), GS by auto. }
  rewrite E3.
  pose proof (@view_as psi s _ _ _ Hs (sf_net Hm)) as HV.
  destruct (mfnet_view psi (mm_net m)) as [n|a], (mfnet_view psi (mm_net m')) as [n'|a']; try contradiction; cbn [bindr]; [|now rewrite HV].
  assert (E4 : weights_vlb lgam psi K (mh_kappa0 h) (mh_nu0 h) n' (mm_w m') = weights_vlb lgam psi K (mh_kappa0 h) (mh_nu0 h) n (mm_w m)).
  { pose proof (sf_w Hm) as Hw. fold h K in Hw.
    assert (X : forall f f', mat_as K s f f' -> e2sum K f' = e2sum K f) by (intros f f' Hf; now apply (@esum2_as K s)).
    unfold weights_vlb.
    rewrite (@forall2_as K s (fun i j => p_in_01 (w_p (mm_w m) i j)) (fun i j => p_in_01 (w_p (mm_w m') i j)));
      [|auto|intros i j Hi Hj; cbv beta; now rewrite (sw_p Hw) by auto].
    destruct (guard _ _); cbn [bindr]; [|reflexivity]. f_equal. repeat apply (f_equal2 esub) || apply (f_equal2 eadd) || idtac.
    all: try reflexivity; apply X; intros i j Hi Hj; unfold expected_log_W_given_A, expected_W_given_A;
      rewrite ?(sw_p Hw), ?(sw_k0 Hw), ?(sw_v0 Hw), ?(sw_k1 Hw), ?(sw_v1 Hw), ?(sx_k HV), ?(sx_p HV), ?(sx_np HV), ?(sx_v HV), ?(sx_lv HV) by auto; reflexivity. }
  rewrite E4. destruct (weights_vlb _ _ _ _ _ n _) as [wv|a]; cbn [bindr]; [|reflexivity].
  assert (E5 : mfnet_vlb lgam psi (mm_net m') = mfnet_vlb lgam psi (mm_net m)).
  { pose proof (sf_net Hm) as HN. fold h K in HN. destruct (mm_net m) as [fp b f|e], (mm_net m') as [fp' b' f'|e']; cbn [same_mfnet] in HN; try contradiction.
    - destruct HN as (-> & HK & H & HM & H1 & H2 & H3 & H4 & H5). cbn [mfnet_vlb]. destruct fp; [reflexivity|]. f_equal.
      unfold sbm_vlb. rewrite (sb1 H), (sb2 H), (sb3 H), (sb4 H), (sb5 H), (sb7 H), (sb8 H), H1, H2, H3, H4, H5. f_equal. f_equal. f_equal.
      rewrite HK. apply (@Rsum_as K s (fun k => discrete_negentropy (sb_C b) (mf_m f k) (Some (mf_m f k))
         (Some (fun c => Fin (psi (mf_pi f c) - psi (Rsum (sb_C b) (mf_pi f))))) - discrete_negentropy (sb_C b) (mf_m f k) None None)); auto.
      intros k Hk. assert (HE : mf_m f' k = mf_m f (s k)) by (apply FunctionalExtensionality.functional_extensionality; intros c; now apply HM).
      now rewrite HE.
    - destruct HN as [-> _]. reflexivity. }
  now rewrite E5.
Qed.

(* ------------------------------------------------------------------ *)
(** ** The hypotheses can be met *)

Definition rename_cols {A} (B : nat) (s : nat -> nat) (Z : nat -> nat -> nat -> A) : nat -> nat -> nat -> A :=
  fun k r c => match c with
               | O => Z (s k) r 0%nat
               | S i => Z (s k) r (1 + (s (i / B) * B + i mod B))%nat
               end.
Definition rename_data (s : nat -> nat) (p : parents) : parents :=
  {| pa_T := pa_T p; pa_K := pa_K p; pa_B := pa_B p; pa_dt := pa_dt p;
     pa_S := fun t k => pa_S p t (s k); pa_F := fun t k b => pa_F p t (s k) b;
     pa_Z := rename_cols (pa_B p) s (pa_Z p); pa_EZ := rename_cols (pa_B p) s (pa_EZ p) |}.
Definition rename_model (s : nat -> nat) (m : dmodel) : dmodel :=
  {| dm_K := dm_K m; dm_B := dm_B m; dm_dt := dm_dt m; dm_L := dm_L m; dm_L_int := dm_L_int m;
     dm_bas := dm_bas m; dm_mix := dm_mix m; dm_A := fun i j => dm_A m (s i) (s j); dm_W := fun i j => dm_W m (s i) (s j);
     dm_g := fun i j b => dm_g m (s i) (s j) b; dm_lam := fun k => dm_lam m (s k);
     dm_data := map (rename_data s) (dm_data m) |}.
Lemma rename_data_same K B s p : pa_K p = K -> pa_B p = B -> same_data K B s p (rename_data s p).
Proof.
  intros HK HB. constructor; cbn [rename_data pa_T pa_K pa_B pa_dt pa_S pa_F pa_Z pa_EZ rename_cols]; auto.
  - intros t k Ht Hk. reflexivity.
  - intros t k b Ht Hk Hb. reflexivity.
  - intros k r k1 b Hk Hr H1 Hb. cbn [Nat.add rename_cols]. rewrite HB, div_idx, mod_idx by auto. reflexivity.
  - intros k r k1 b Hk Hr H1 Hb. cbn [Nat.add rename_cols]. rewrite HB, div_idx, mod_idx by auto. reflexivity.
Qed.
(** Every model whose data sets have its dimensions has a relabelled counterpart. *)
Theorem C120_relabelled_exists s m :
  (forall d, In d (dm_data m) -> pa_K d = dm_K m /\ pa_B d = dm_B m) -> exists m', same_model s m m'.
Proof.
  intros H. exists (rename_model s m). constructor; cbn; auto; try (intros i j Hi Hj; reflexivity);
    try (intros i j b Hi Hj Hb; reflexivity); try (intros k Hk; reflexivity).
  - unfold same_datasets. induction (dm_data m) as [|d l IH]; cbn; constructor.
    + apply rename_data_same; apply H; now left.
    + apply IH. intros; apply H; now right.
Qed.

(** Swapping the two processes of [ex_m]: the edge 0 -> 1 becomes 1 -> 0, the data set is accepted, and the likelihood
    is the same. *)
Definition swap01 (k : nat) : nat := match k with O => 1%nat | S O => 0%nat | _ => k end.
Lemma swap01_ok : relabelling 2 swap01.
Proof.
  split.
  - intros [|[|k]] Hk; cbn; lia.
  - intros [|[|i]] [|[|j]] Hi Hj; cbn; lia.
Qed.
Example C120_nonvacuous :
  exists m m' m1 m1', relabelling (dm_K m) swap01 /\ same_model swap01 m m' /\
    dm_A m 0%nat 1%nat = true /\ dm_A m' 0%nat 1%nat = false /\ dm_A m' 1%nat 0%nat = true /\
    add_data m (sval_of 3 2 ex_S) None None = Ok m1 /\
    add_data m' (sval_of 3 2 (fun t k => ex_S t (swap01 k))) None None = Ok m1' /\
    length (dm_data m1) = 1%nat /\ same_model swap01 m1 m1' /\
    log_likelihood m1' All = log_likelihood m1 All.
Proof.
  assert (Hm : same_model swap01 ex_m (rename_model swap01 ex_m)).
  { constructor; cbn; auto; try (intros i j Hi Hj; reflexivity); try (intros i j b Hi Hj Hb; reflexivity). all: try constructor; auto. all: try (intros k Hk; reflexivity). }
  assert (HS : series_as 3 2 swap01 ex_S (fun t k => ex_S t (swap01 k))) by (intros t k Ht Hk; reflexivity).
  pose proof (@C120_add_data swap01 ex_m _ 3 ex_S _ None swap01_ok Hm HS) as H. cbn [dm_K ex_m] in H.
  destruct (add_data ex_m (sval_of 3 2 ex_S) None None) as [m1|e] eqn:E1.
  - destruct (add_data (rename_model swap01 ex_m) _ None None) as [m1'|e] eqn:E1'; [|contradiction].
    exists ex_m, (rename_model swap01 ex_m), m1, m1'. split; [exact swap01_ok|]. repeat (split; [solve [auto]|]). split; [|split; [exact H|]].
    + unfold add_data in E1. destruct (check_S _ _); [|discriminate]. cbn [bindr] in E1.
      destruct (get_F _ _ _ _); [|discriminate]. cbn in E1. inversion E1. reflexivity.
    + destruct (@C120_likelihood swap01 m1 m1' All 3 ex_S (fun t k => ex_S t (swap01 k))) as [E _]; auto.
      * assert (EK : dm_K m1 = 2%nat). { unfold add_data in E1. destruct (check_S _ _); [|discriminate]. cbn [bindr] in E1.
          destruct (get_F _ _ _ _); [|discriminate]. cbn in E1. inversion E1. reflexivity. }
        rewrite EK. exact swap01_ok.
      * intros t k Ht Hk. reflexivity.
  - exfalso. unfold add_data in E1. cbn [dm_K ex_m] in E1.
    assert (C : check_S 2 (sval_of 3 2 ex_S) = Ok 3%nat) by reflexivity.
    cbn [ex_m dm_K] in E1. rewrite C in E1. cbn [bindr get_F] in E1.
    destruct (@convolve_ok 3 2 ex_S 2 1 (dm_bas ex_m)) as (F & EF); try lia.
    cbn [dm_K dm_L dm_B sv_at sval_of ex_m] in E1. change (fun l _ : nat => if Nat.eqb l 1 then 1 else 0) with (dm_bas ex_m) in E1.
    rewrite EF in E1. discriminate.
Qed.

Print Assumptions C120_rates.
Print Assumptions C120_rate_of_process.
Print Assumptions C120_likelihood.
Print Assumptions C120_add_data.
Print Assumptions C120_simulation.
Print Assumptions C120_parent_request.
Print Assumptions C120_gibbs_requests.
Print Assumptions C120_edge_update.
Print Assumptions C120_network_view.
Print Assumptions C120_network_requests.
Print Assumptions C120_log_probability.
Print Assumptions C120_mf_step.
Print Assumptions C120_vlb.
Print Assumptions C120_relabelled_exists.
