(** * L_Vlb5: the model's bound as a real number, and the effect of each update on it. *)
From Coq Require Import FunctionalExtensionality.
From Verif Require Import Prelude ExtReal Arrays Spec_Vlb M_Basis M_Parents M_Discrete M_Gibbs M_Dist M_Network M_MeanField M_Vlb
  L_Basis L_Discrete L_Parents L_Gibbs L_Network L_Vlb L_Vlb2 L_Vlb3 L_Vlb4 Props_Discrete Props_Parents Props_Gibbs Props_Network Props_MeanField.
Set Implicit Arguments.
Open Scope R_scope.

(** The expectations the bound reads. *)
Definition x_of (psi : R -> R) (m : mfmodel) : mf_exp :=
  {| x_ln_lam := expected_log_lambda0 psi (mm_bias m); x_lam := expected_lambda0 (mm_bias m);
     x_ln_W := fun i j => fval (expected_log_W psi (mfnet_allow (mm_net m)) (mm_w m) i j);
     x_W := expected_W (mfnet_allow (mm_net m)) (mm_w m);
     x_ln_g := expected_log_g psi (mh_B (mm_h m)) (mm_gamma m) |}.

(** The compiled bound of a data set splits like the python one, without any condition. *)
Definition cent_k (p : parents) (k : nat) : R :=
  Rsum (pa_Tk p k) (fun r => - pa_EZ p k r 0%nat * ln (pa_EZ p k r 0%nat / IZR (pa_Ss p k r) + eps32)
    + Rsum (pa_K p) (fun k1 => Rsum (pa_B p) (fun b =>
        pa_EZ p k r (1 + (k1 * pa_B p + b))%nat * ln (pa_Fs p k r k1 b + eps32)
        + - pa_EZ p k r (1 + (k1 * pa_B p + b))%nat * ln (pa_EZ p k r (1 + (k1 * pa_B p + b))%nat / IZR (pa_Ss p k r) + eps32)))).
Lemma cy_vlb_k_split p x k :
  cy_vlb_k p x k = cent_k p k
    + (exp_bkgd_ss0 p k * x_ln_lam x k - INR (pa_T p) * x_lam x k)
    + Rsum (pa_K p) (fun k1 => exp_weight_ss0 p k1 k * x_ln_W x k1 k - IZR (pa_Ns p k1) * x_W x k1 k)
    + Rsum (pa_K p) (fun k1 => Rsum (pa_B p) (fun b => exp_ir_ss p k1 k b * x_ln_g x k1 k b)).
Proof.
  unfold cy_vlb_k, cent_k. fold eps32. cbv zeta.
  assert (E : Rsum (pa_Tk p k) (fun r => Rsum (pa_K p) (fun k1 => Rsum (pa_B p) (fun b =>
       pa_EZ p k r (1 + (k1 * pa_B p + b))%nat * (x_ln_W x k1 k + x_ln_g x k1 k b))))
     = Rsum (pa_K p) (fun k1 => exp_weight_ss0 p k1 k * x_ln_W x k1 k) + Rsum (pa_K p) (fun k1 => Rsum (pa_B p) (fun b => exp_ir_ss p k1 k b * x_ln_g x k1 k b))).
  { rewrite Rsum_swap, <- Rsum_plus. apply Rsum_ext; intros k1 Hk1. rewrite Rsum_swap. unfold exp_weight_ss0. rewrite <- Rsum_scal_r, <- Rsum_plus.
    apply Rsum_ext; intros b Hb. unfold exp_ir_ss. rewrite Rsum_scal_r. ring. }
  transitivity (- INR (pa_T p) * x_lam x k + Rsum (pa_K p) (fun k1 => - IZR (pa_Ns p k1) * x_W x k1 k)
    + Rsum (pa_Tk p k) (fun r => pa_EZ p k r 0%nat * x_ln_lam x k
       + (- pa_EZ p k r 0%nat * ln (pa_EZ p k r 0%nat / IZR (pa_Ss p k r) + eps32)
          + Rsum (pa_K p) (fun k1 => Rsum (pa_B p) (fun b =>
             pa_EZ p k r (1 + (k1 * pa_B p + b))%nat * ln (pa_Fs p k r k1 b + eps32)
             + - pa_EZ p k r (1 + (k1 * pa_B p + b))%nat * ln (pa_EZ p k r (1 + (k1 * pa_B p + b))%nat / IZR (pa_Ss p k r) + eps32))))
       + Rsum (pa_K p) (fun k1 => Rsum (pa_B p) (fun b => pa_EZ p k r (1 + (k1 * pa_B p + b))%nat * (x_ln_W x k1 k + x_ln_g x k1 k b))))).
  { f_equal. apply Rsum_ext; intros r Hr. rewrite (Rplus_assoc _ _ (Rsum _ _)), !Rplus_assoc. do 2 f_equal. rewrite <- Rsum_plus.
    apply Rsum_ext; intros k1 Hk1. rewrite <- Rsum_plus. apply Rsum_ext; intros b Hb. ring. }
  rewrite !(Rsum_plus (pa_Tk p k)), E. unfold exp_bkgd_ss0. rewrite <- !Rsum_scal_r, Rsum_minus.
  assert (E2 : Rsum (pa_K p) (fun k1 => - IZR (pa_Ns p k1) * x_W x k1 k) = - Rsum (pa_K p) (fun k1 => IZR (pa_Ns p k1) * x_W x k1 k))
    by (rewrite <- Rsum_opp; apply Rsum_ext; intros; ring).
  rewrite E2. ring.
Qed.

Definition cent (p : parents) : R := Rsum (pa_K p) (cent_k p).
Definition total_cy (x : mf_exp) (data : list parents) : R := lsum (map (fun d => cy_vlb d x) data).
Lemma total_cy_split K B x data : (forall d, In d data -> pa_K d = K /\ pa_B d = B) ->
  total_cy x data = pool cent data
    + Rsum K (fun k => pool (fun d => exp_bkgd_ss0 d k) data * x_ln_lam x k - total_T data * x_lam x k)
    + Rsum K (fun k1 => Rsum K (fun k2 => pool (fun d => exp_weight_ss0 d k1 k2) data * x_ln_W x k1 k2
                                         - pool (fun d => IZR (pa_Ns d k1)) data * x_W x k1 k2))
    + Rsum K (fun k1 => Rsum K (fun k2 => Rsum B (fun b => pool (fun d => exp_ir_ss d k1 k2 b) data * x_ln_g x k1 k2 b))).
Proof.
  intros H. unfold total_cy, total_T. rewrite !pool_lsum.
  rewrite (@Rsum_ext K _ (fun k => lsum (map (fun d => exp_bkgd_ss0 d k) data) * x_ln_lam x k - lsum (map (fun d => INR (pa_T d)) data) * x_lam x k))
    by (intros; now rewrite pool_lsum).
  rewrite (@Rsum2_ext K _ (fun k1 k2 => lsum (map (fun d => exp_weight_ss0 d k1 k2) data) * x_ln_W x k1 k2
       - lsum (map (fun d => IZR (pa_Ns d k1)) data) * x_W x k1 k2)) by (intros; now rewrite !pool_lsum).
  rewrite (@Rsum2_ext K (fun k1 k2 => Rsum B _) (fun k1 k2 => Rsum B (fun b => lsum (map (fun d => exp_ir_ss d k1 k2 b) data) * x_ln_g x k1 k2 b)))
    by (intros; apply Rsum_ext; intros; now rewrite pool_lsum).
  induction data as [|d data IH]; cbn [map lsum].
  - rewrite (@Rsum_0 K), (@Rsum_0 K), (@Rsum_0 K).
    + ring.
    + intros. apply Rsum_0. intros. apply Rsum_0. intros. ring.
    + intros. apply Rsum_0. intros. ring.
    + intros. ring.
  - rewrite IH by (intros; apply H; now right). clear IH. destruct (H d (or_introl eq_refl)) as (EK & EB).
    assert (Ee : cent d = Rsum K (cent_k d)) by (unfold cent; now rewrite EK). unfold cy_vlb. rewrite (@Rsum_ext (pa_K d) _ (fun k => cent_k d k
      + (exp_bkgd_ss0 d k * x_ln_lam x k - INR (pa_T d) * x_lam x k)
      + Rsum (pa_K d) (fun k1 => exp_weight_ss0 d k1 k * x_ln_W x k1 k - IZR (pa_Ns d k1) * x_W x k1 k)
      + Rsum (pa_K d) (fun k1 => Rsum (pa_B d) (fun b => exp_ir_ss d k1 k b * x_ln_g x k1 k b))))
      by (intros; now apply cy_vlb_k_split).
    rewrite EK, EB, !Rsum_plus. rewrite (Rsum_swap K K (fun k k1 => _ * x_ln_W x k1 k - _)), (Rsum_swap K K (fun k k1 => Rsum B _)).
    rewrite Ee.
    rewrite (@Rsum_ext K (fun k => (exp_bkgd_ss0 d k + _) * _ - _)
      (fun k => (exp_bkgd_ss0 d k * x_ln_lam x k - INR (pa_T d) * x_lam x k)
        + (lsum (map (fun d => exp_bkgd_ss0 d k) data) * x_ln_lam x k - lsum (map (fun d => INR (pa_T d)) data) * x_lam x k))) by (intros; ring).
    rewrite (@Rsum2_ext K (fun k1 k2 => (exp_weight_ss0 d k1 k2 + _) * _ - _)
      (fun k1 k2 => (exp_weight_ss0 d k1 k2 * x_ln_W x k1 k2 - IZR (pa_Ns d k1) * x_W x k1 k2)
        + (lsum (map (fun d => exp_weight_ss0 d k1 k2) data) * x_ln_W x k1 k2 - lsum (map (fun d => IZR (pa_Ns d k1)) data) * x_W x k1 k2))) by (intros; ring).
    rewrite (@Rsum2_ext K (fun k1 k2 => Rsum B (fun b => (exp_ir_ss d k1 k2 b + _) * _))
      (fun k1 k2 => Rsum B (fun b => exp_ir_ss d k1 k2 b * x_ln_g x k1 k2 b)
        + Rsum B (fun b => lsum (map (fun d => exp_ir_ss d k1 k2 b) data) * x_ln_g x k1 k2 b)))
      by (intros; rewrite <- Rsum_plus; apply Rsum_ext; intros; ring).
    rewrite !Rsum_plus, !Rsum2_plus. ring.
Qed.

(** With self-connections allowed nothing in a data set's bound is infinite. *)
Lemma data_vlb_fin psi m d : mfnet_allow (mm_net m) = true -> data_vlb psi m d = Fin (cy_vlb d (x_of psi m)).
Proof.
  intros Ha. unfold data_vlb, cy_vlb. apply esum_fin. intros k Hk. unfold cy_vlb_er_k, cy_vlb_k.
  rewrite (esum_fin _ (fun r =>
      pa_EZ d k r 0%nat * x_ln_lam (x_of psi m) k + - pa_EZ d k r 0%nat * ln (pa_EZ d k r 0%nat / IZR (pa_Ss d k r) + eps32)
      + Rsum (pa_K d) (fun k1 => Rsum (pa_B d) (fun b =>
          let c := (1 + (k1 * pa_B d + b))%nat in
          pa_EZ d k r c * (ln (pa_Fs d k r k1 b + / 10 ^ 32) + x_ln_W (x_of psi m) k1 k + x_ln_g (x_of psi m) k1 k b)
          + - pa_EZ d k r c * ln (pa_EZ d k r c / IZR (pa_Ss d k r) + / 10 ^ 32))))).
  - reflexivity.
  - intros r Hr.
    rewrite (esum_fin _ (fun k1 => Rsum (pa_B d) (fun b =>
          let c := (1 + (k1 * pa_B d + b))%nat in
          pa_EZ d k r c * (ln (pa_Fs d k r k1 b + / 10 ^ 32) + x_ln_W (x_of psi m) k1 k + x_ln_g (x_of psi m) k1 k b)
          + - pa_EZ d k r c * ln (pa_EZ d k r c / IZR (pa_Ss d k r) + / 10 ^ 32)))); [reflexivity|].
    intros k1 Hk1. apply esum_fin. intros b Hb. cbv zeta. cbn [x_of x_ln_W x_ln_g]. rewrite Ha. reflexivity.
Qed.
Lemma fold_data psi m data acc : mfnet_allow (mm_net m) = true ->
  fold_left (fun v d => eadd v (data_vlb psi m d)) data (Fin acc) = Fin (acc + total_cy (x_of psi m) data).
Proof.
  intros Ha. revert acc. induction data as [|d data IH]; intros acc; cbn [fold_left]; unfold total_cy; cbn [map lsum].
  - now rewrite Rplus_0_r.
  - rewrite data_vlb_fin by auto. cbn [eadd]. rewrite IH. unfold total_cy. f_equal. ring.
Qed.

(** Networks for which the bound is finite: nothing forbidden, probabilities inside (0,1), parameters not frozen. *)
Definition net_good (no : mfnet) : Prop :=
  match no with
  | MfEr n => e_allow n = true /\ 0 < e_p n < 1
  | MfSbm fp s f => fp = false /\ sb_allow s = true /\ sb_fixed s = false
  end.
Lemma net_good_allow no : net_good no -> mfnet_allow no = true.
Proof. destruct no; cbn; intuition. Qed.

Section V.
Variables lgam psi : R -> R.
Hypothesis GF : gamma_functions lgam psi.

(** The network's share and the part of the weights' share that depends on the network. *)
Definition net_value (no : mfnet) : R :=
  match mfnet_vlb lgam psi no with Ok v => v | Raise _ => 0 end.
Definition view (no : mfnet) : netexp :=
  match mfnet_view psi no with Ok n => n | Raise _ => {| ne_kappa := 0; ne_lnp := fun _ _ => NaN; ne_lnnotp := fun _ _ => NaN; ne_v := fun _ _ => 0; ne_lnv := fun _ _ => 0; ne_allow := false |} end.
Lemma net_good_facts K no : mfnet_ok K no -> net_good no ->
  mfnet_view psi no = Ok (view no) /\ net_finite K (view no) /\ mfnet_vlb lgam psi no = Ok (net_value no).
Proof.
  destruct no as [fp s f|n]; cbn [mfnet_ok net_good].
  - intros (EK & HP & HV & HS) (-> & Ha & Hf). split; [reflexivity|]. split; [|reflexivity].
    intros i j Hi Hj. unfold view. cbn [mfnet_view ne_lnp ne_lnnotp]. unfold sbm_expected_log_p, sbm_expected_log_notp. rewrite Ha, Hf. now cbn.
  - intros (EK & _ & Hk & a & b & ma & mb & Ea & Eb & Em & _) [Ha Hp]. unfold view, net_value.
    cbn [mfnet_view mfnet_vlb]. unfold er_expected_v, er_expected_log_v, er_get_vlb. rewrite Ea, Eb, Em. cbn [bindr].
    split; [reflexivity|]. split; [|reflexivity]. intros i j Hi Hj. cbn [ne_lnp ne_lnnotp]. unfold er_P. rewrite Ha. cbn [negb].
    rewrite !elog_fin by lra. now cbn.
Qed.
Definition vlb_R (m : mfmodel) : R :=
  let h := mm_h m in
  total_cy (x_of psi m) (mm_data m) + bias_vlb lgam psi (mh_K h) (mh_alpha h) (mh_beta h) (mm_bias m)
  + ir_vlb lgam psi (mh_K h) (mh_B h) (mh_gamma h) (mm_gamma m)
  + wv_R lgam psi (mh_K h) (mh_kappa0 h) (mh_nu0 h) (view (mm_net m)) (mm_w m) + net_value (mm_net m).
Lemma get_vlb_fin m : w_ok (mh_K (mm_h m)) (mm_w m) -> mfnet_ok (mh_K (mm_h m)) (mm_net m) -> net_good (mm_net m) ->
  mf_get_vlb lgam psi m = Ok (Fin (vlb_R m)).
Proof.
  intros Hw Hn Hg. destruct (@net_good_facts _ _ Hn Hg) as (E1 & E2 & E3). unfold mf_get_vlb. cbv zeta.
  rewrite fold_data by (now apply net_good_allow). cbn [eadd]. rewrite E1. cbn [bindr]. rewrite weights_vlb_fin by auto. cbn [bindr eadd].
  rewrite E3. cbn [bindr eadd]. unfold vlb_R. cbv zeta. do 2 f_equal. ring.
Qed.

(** The bound, block by block. *)
Definition lin_bias (data : list parents) (K : nat) (b : mfbias) : R :=
  Rsum K (fun k => pool (fun d => exp_bkgd_ss0 d k) data * expected_log_lambda0 psi b k - total_T data * expected_lambda0 b k).
Definition lin_w (data : list parents) (K : nat) (w : mfw) : R :=
  Rsum K (fun k1 => Rsum K (fun k2 => pool (fun d => exp_weight_ss0 d k1 k2) data
        * (w_A w k1 k2 * expected_log_W_given_A psi w 1 k1 k2 + (1 - w_A w k1 k2) * expected_log_W_given_A psi w 0 k1 k2)
     - pool (fun d => IZR (pa_Ns d k1)) data * (w_A w k1 k2 * expected_W_given_A w 1 k1 k2 + (1 - w_A w k1 k2) * expected_W_given_A w 0 k1 k2))).
Definition lin_ir (data : list parents) (K B : nat) (mg : ten) : R :=
  Rsum K (fun k1 => Rsum K (fun k2 => Rsum B (fun b => pool (fun d => exp_ir_ss d k1 k2 b) data * expected_log_g psi B mg k1 k2 b))).
Lemma vlb_R_blocks m : let h := mm_h m in
  mfnet_allow (mm_net m) = true -> (forall d, In d (mm_data m) -> pa_K d = mh_K h /\ pa_B d = mh_B h) ->
  vlb_R m = pool cent (mm_data m)
    + (lin_bias (mm_data m) (mh_K h) (mm_bias m) + bias_vlb lgam psi (mh_K h) (mh_alpha h) (mh_beta h) (mm_bias m))
    + (lin_ir (mm_data m) (mh_K h) (mh_B h) (mm_gamma m) + ir_vlb lgam psi (mh_K h) (mh_B h) (mh_gamma h) (mm_gamma m))
    + (lin_w (mm_data m) (mh_K h) (mm_w m) + wv_R lgam psi (mh_K h) (mh_kappa0 h) (mh_nu0 h) (view (mm_net m)) (mm_w m))
    + net_value (mm_net m).
Proof.
  intros h Ha Hd. unfold vlb_R. fold h. rewrite (@total_cy_split (mh_K h) (mh_B h)) by auto. cbn [x_of x_ln_lam x_lam x_ln_W x_W x_ln_g]. rewrite Ha.
  unfold lin_bias, lin_w, lin_ir. unfold expected_log_W, expected_W. cbn [negb fval]. fold h. ring.
Qed.
End V.
