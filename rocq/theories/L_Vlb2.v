(** * L_Vlb2: the bound as a sum of conjugate blocks. *)
From Coq Require Import FunctionalExtensionality.
From Verif Require Import Prelude ExtReal Arrays Spec_Vlb M_Basis M_Parents M_Discrete M_Gibbs M_Dist M_Network M_MeanField M_Vlb
  L_Basis L_Discrete L_Parents L_Gibbs L_Network L_Vlb Props_Discrete Props_Parents Props_Gibbs Props_Network Props_MeanField.
Set Implicit Arguments.
Open Scope R_scope.

(** Expected counts that satisfy what every mean-field update of the parents establishes. *)
Definition counts_ok (p : parents) : Prop :=
  (forall k r c, (k < pa_K p)%nat -> (r < pa_Tk p k)%nat -> (c < 1 + pa_K p * pa_B p)%nat -> 0 <= pa_EZ p k r c) /\
  (forall k r, (k < pa_K p)%nat -> (r < pa_Tk p k)%nat -> Rsum (1 + pa_K p * pa_B p) (pa_EZ p k r) = IZR (pa_S p (pa_row p k r) k)) /\
  (forall k r k1 b, (k < pa_K p)%nat -> (r < pa_Tk p k)%nat -> (k1 < pa_K p)%nat -> (b < pa_B p)%nat ->
     pa_F p (pa_row p k r) k1 b = 0 -> pa_EZ p k r (1 + (k1 * pa_B p + b))%nat = 0).

(** The part of a data set's bound that does not involve any parameter. *)
Definition ent_k (p : parents) (k : nat) : R :=
  Rsum (pa_Tk p k) (fun r => - pa_EZ p k r 0%nat * ntn_log (pa_EZ p k r 0%nat / IZR (pa_Ss p k r)))
  + Rsum (pa_Tk p k) (fun r => Rsum (pa_K p * pa_B p) (fun i =>
      pa_EZ p k r (S i) * ntn_log (pa_Fs p k r (i / pa_B p)%nat (i mod pa_B p)%nat)))
  + Rsum (pa_Tk p k) (fun r => Rsum (pa_K p * pa_B p) (fun i => - pa_EZ p k r (S i) * ntn_log (pa_EZ p k r (S i) / IZR (pa_Ss p k r)))).
Lemma vlb_python_k_split p x k : nonneg_F p -> counts_ok p -> (k < pa_K p)%nat ->
  vlb_python_k p x k = ent_k p k
    + (exp_bkgd_ss0 p k * x_ln_lam x k - INR (pa_T p) * x_lam x k)
    + Rsum (pa_K p) (fun k1 => exp_weight_ss0 p k1 k * x_ln_W x k1 k - IZR (pa_Ns p k1) * x_W x k1 k)
    + Rsum (pa_K p) (fun k1 => Rsum (pa_B p) (fun b => exp_ir_ss p k1 k b * x_ln_g x k1 k b)).
Proof.
  intros HF (_ & _ & H0) Hk. unfold vlb_python_k, ent_k. cbv zeta.
  assert (E1 : Rsum (pa_Tk p k) (fun r => Rsum (pa_K p * pa_B p) (fun i =>
      pa_EZ p k r (S i) * nan_to_num (eadd (eadd (elog (Fin (pa_Fs p k r (i / pa_B p)%nat (i mod pa_B p)%nat))) (Fin (x_ln_W x (i / pa_B p)%nat k)))
         (Fin (x_ln_g x (i / pa_B p)%nat k (i mod pa_B p)%nat)))))
    = Rsum (pa_Tk p k) (fun r => Rsum (pa_K p * pa_B p) (fun i => pa_EZ p k r (S i) * ntn_log (pa_Fs p k r (i / pa_B p)%nat (i mod pa_B p)%nat)))
      + Rsum (pa_Tk p k) (fun r => Rsum (pa_K p * pa_B p) (fun i => pa_EZ p k r (S i) * (x_ln_W x (i / pa_B p)%nat k + x_ln_g x (i / pa_B p)%nat k (i mod pa_B p)%nat)))).
  { rewrite <- Rsum_plus. apply Rsum_ext; intros r Hr. rewrite <- Rsum_plus. apply Rsum_ext; intros i Hi.
    destruct (idx_bound _ _ Hi) as [B1 B2]. destruct (@pa_row_in p k r Hr) as [B3 _].
    unfold pa_Fs. destruct (HF _ _ _ B3 B1 B2) as [HP|HP].
    - unfold ntn_log. rewrite elog_fin by exact HP. cbn [eadd nan_to_num]. ring.
    - pose proof (H0 k r _ _ Hk Hr B1 B2 (eq_sym HP)) as HZ. rewrite idx_eq in HZ by lia. cbn [Nat.add] in HZ. rewrite HZ. ring. }
  rewrite E1. clear E1.
  assert (E2 : Rsum (pa_Tk p k) (fun r => Rsum (pa_K p * pa_B p) (fun i => pa_EZ p k r (S i) * (x_ln_W x (i / pa_B p)%nat k + x_ln_g x (i / pa_B p)%nat k (i mod pa_B p)%nat)))
    = Rsum (pa_K p) (fun k1 => exp_weight_ss0 p k1 k * x_ln_W x k1 k) + Rsum (pa_K p) (fun k1 => Rsum (pa_B p) (fun b => exp_ir_ss p k1 k b * x_ln_g x k1 k b))).
  { rewrite Rsum_swap, Rsum_mul, <- Rsum_plus. apply Rsum_ext; intros k1 Hk1. unfold exp_weight_ss0. rewrite <- Rsum_scal_r, <- Rsum_plus.
    apply Rsum_ext; intros b Hb. rewrite div_idx, mod_idx by auto. unfold exp_ir_ss. rewrite Rsum_scal_r. cbn [Nat.add]. ring. }
  rewrite E2. clear E2. rewrite Rsum_minus. unfold exp_bkgd_ss0. rewrite Rsum_scal_r. ring.
Qed.

(** Pooled over the data sets. *)
Definition ent (p : parents) : R := Rsum (pa_K p) (ent_k p).
Definition total_T (data : list parents) : R := pool (fun d => INR (pa_T d)) data.
Definition total_py (x : mf_exp) (data : list parents) : R := lsum (map (fun d => vlb_python d x) data).
Lemma total_py_split K B x data : (forall d, In d data -> pa_K d = K /\ pa_B d = B /\ nonneg_F d /\ counts_ok d) ->
  total_py x data = pool ent data
    + Rsum K (fun k => pool (fun d => exp_bkgd_ss0 d k) data * x_ln_lam x k - total_T data * x_lam x k)
    + Rsum K (fun k1 => Rsum K (fun k2 => pool (fun d => exp_weight_ss0 d k1 k2) data * x_ln_W x k1 k2
                                         - pool (fun d => IZR (pa_Ns d k1)) data * x_W x k1 k2))
    + Rsum K (fun k1 => Rsum K (fun k2 => Rsum B (fun b => pool (fun d => exp_ir_ss d k1 k2 b) data * x_ln_g x k1 k2 b))).
Proof.
  intros H. unfold total_py, total_T. rewrite !pool_lsum.
  rewrite (@Rsum_ext K _ (fun k => lsum (map (fun d => exp_bkgd_ss0 d k) data) * x_ln_lam x k - lsum (map (fun d => INR (pa_T d)) data) * x_lam x k))
    by (intros; now rewrite pool_lsum).
  rewrite (@Rsum2_ext K _ (fun k1 k2 => lsum (map (fun d => exp_weight_ss0 d k1 k2) data) * x_ln_W x k1 k2
       - lsum (map (fun d => IZR (pa_Ns d k1)) data) * x_W x k1 k2)) by (intros; now rewrite !pool_lsum).
  rewrite (@Rsum2_ext K (fun k1 k2 => Rsum B _) (fun k1 k2 => Rsum B (fun b => lsum (map (fun d => exp_ir_ss d k1 k2 b) data) * x_ln_g x k1 k2 b)))
    by (intros; apply Rsum_ext; intros; now rewrite pool_lsum).
  induction data as [|d data IH]; cbn [map lsum].
  - rewrite (@Rsum_0 K), (@Rsum_0 K), (@Rsum_0 K).
    + ring.
    + intros. apply Rsum_0. intros. apply Rsum_0. intros. ring.
    + intros. apply Rsum_0. intros. ring.
    + intros. ring.
  - rewrite IH by (intros; apply H; now right). clear IH. destruct (H d (or_introl eq_refl)) as (EK & EB & HF & HC).
    assert (Ee : ent d = Rsum K (ent_k d)) by (unfold ent; now rewrite EK). unfold vlb_python. rewrite (@Rsum_ext (pa_K d) _ (fun k => ent_k d k
      + (exp_bkgd_ss0 d k * x_ln_lam x k - INR (pa_T d) * x_lam x k)
      + Rsum (pa_K d) (fun k1 => exp_weight_ss0 d k1 k * x_ln_W x k1 k - IZR (pa_Ns d k1) * x_W x k1 k)
      + Rsum (pa_K d) (fun k1 => Rsum (pa_B d) (fun b => exp_ir_ss d k1 k b * x_ln_g x k1 k b))))
      by (intros; now apply vlb_python_k_split).
    rewrite EK, EB, !Rsum_plus. rewrite (Rsum_swap K K (fun k k1 => _ * x_ln_W x k1 k - _)), (Rsum_swap K K (fun k k1 => Rsum B _)).
    rewrite Ee.
    rewrite (@Rsum_ext K (fun k => (exp_bkgd_ss0 d k + _) * _ - _)
      (fun k => (exp_bkgd_ss0 d k * x_ln_lam x k - INR (pa_T d) * x_lam x k)
        + (lsum (map (fun d => exp_bkgd_ss0 d k) data) * x_ln_lam x k - lsum (map (fun d => INR (pa_T d)) data) * x_lam x k))) by (intros; ring).
    rewrite (@Rsum2_ext K (fun k1 k2 => (exp_weight_ss0 d k1 k2 + _) * _ - _)
      (fun k1 k2 => (exp_weight_ss0 d k1 k2 * x_ln_W x k1 k2 - IZR (pa_Ns d k1) * x_W x k1 k2)
        + (lsum (map (fun d => exp_weight_ss0 d k1 k2) data) * x_ln_W x k1 k2 - lsum (map (fun d => IZR (pa_Ns d k1)) data) * x_W x k1 k2))) by (intros; ring).
    rewrite (@Rsum2_ext K (fun k1 k2 => Rsum B (fun b => (exp_ir_ss d k1 k2 b + _) * _))
      (fun k1 k2 => Rsum B (fun b => exp_ir_ss d k1 k2 b * x_ln_g x k1 k2 b)
        + Rsum B (fun b => lsum (map (fun d => exp_ir_ss d k1 k2 b) data) * x_ln_g x k1 k2 b)))
      by (intros; rewrite <- Rsum_plus; apply Rsum_ext; intros; ring).
    rewrite !Rsum_plus, !Rsum2_plus. ring.
Qed.
