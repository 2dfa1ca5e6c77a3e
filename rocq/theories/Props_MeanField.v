(** * Props_MeanField: properties C36-C39. *)
From Verif Require Import Prelude ExtReal Arrays Spec_Basis Spec_Discrete Spec_Parents Spec_Gibbs Spec_Network
  M_Basis M_Parents M_Discrete M_Gibbs M_Dist M_Network M_MeanField L_Basis L_Discrete L_Parents L_Gibbs L_Network
  Props_Discrete Props_Parents Props_Gibbs Props_Network.
Set Implicit Arguments.
Open Scope R_scope.

(* ------------------------------------------------------------------ *)
(** ** C39 *)

(** The mixture of the conditional means, between them, zero on a forbidden diagonal. *)
Theorem C39_expected_weights :
  forall allow w i j p, w_p w i j = Fin p -> 0 <= p <= 1 ->
  let mean1 := w_kappa1 w i j / w_v1 w i j in
  let mean0 := w_kappa0 w i j / w_v0 w i j in
  expected_W_given_A w 1 i j = mean1 /\ expected_W_given_A w 0 i j = mean0 /\
  ((allow = true \/ i <> j) ->
     expected_W allow w i j = p * mean1 + (1 - p) * mean0 /\
     Rmin mean0 mean1 <= expected_W allow w i j <= Rmax mean0 mean1) /\
  (allow = false -> expected_W allow w i i = 0).
Proof.
  intros allow w i j p Ep Hp mean1 mean0.
  assert (E1 : expected_W_given_A w 1 i j = mean1) by (unfold expected_W_given_A; fold mean1 mean0; ring).
  assert (E0 : expected_W_given_A w 0 i j = mean0) by (unfold expected_W_given_A; fold mean1 mean0; ring).
  split; [exact E1|]. split; [exact E0|]. split.
  - intros Hd. assert (E : expected_W allow w i j = p * mean1 + (1 - p) * mean0).
    { unfold expected_W, fill_diagonal. rewrite <- E1, <- E0. unfold w_A.
      destruct allow; cbn [negb]; [rewrite Ep; reflexivity|].
      destruct (Nat.eqb_spec i j); [destruct Hd; congruence|]. rewrite Ep. reflexivity. }
    split; [exact E|]. rewrite E. unfold Rmin, Rmax. destruct (Rle_dec mean0 mean1); split; nra.
  - intros ->. unfold expected_W, fill_diagonal. cbn [negb]. now rewrite Nat.eqb_refl.
Qed.
Print Assumptions C39_expected_weights.
Definition ex_mfw : mfw :=
  {| w_p := fun _ _ => Fin (1/4); w_kappa0 := fun _ _ => 1/10; w_v0 := fun _ _ => 10; w_kappa1 := fun _ _ => 3; w_v1 := fun _ _ => 2 |}.
Example C39_nonvacuous : w_p ex_mfw 0%nat 1%nat = Fin (1/4) /\ expected_W false ex_mfw 0%nat 1%nat <> 0.
Proof. split; [reflexivity|]. unfold expected_W, fill_diagonal, expected_W_given_A, w_A. cbn. lra. Qed.

(* ------------------------------------------------------------------ *)
(** ** C37 *)

(** Number of minibatches in an epoch: the least N with N * mb >= T. *)
Definition epoch (T mb : nat) : nat := ((T + mb - 1) / mb)%nat.
Lemma epoch_spec T mb : (0 < mb)%nat -> (0 < T)%nat ->
  (0 < epoch T mb)%nat /\ (T <= epoch T mb * mb)%nat /\ ((epoch T mb - 1) * mb < T)%nat.
Proof.
  intros Hm HT. unfold epoch. pose proof (Nat.div_mod (T + mb - 1) mb ltac:(lia)).
  pose proof (Nat.mod_upper_bound (T + mb - 1) mb ltac:(lia)). set (q := ((T + mb - 1) / mb)%nat) in *. nia.
Qed.
Lemma epoch_iff T mb j : (0 < mb)%nat -> (0 < T)%nat -> ((j < epoch T mb)%nat <-> (j * mb < T)%nat).
Proof. intros Hm HT. destruct (epoch_spec Hm HT) as (H1 & H2 & H3). nia. Qed.

(** The offsets visited by successive calls. *)
Fixpoint offset_seq (T mb n : nat) : nat :=
  match n with O => next_offset T mb None | S n' => next_offset T mb (Some (offset_seq T mb n')) end.
Lemma offset_closed T mb n : (0 < mb)%nat -> (0 < T)%nat -> offset_seq T mb n = ((n mod epoch T mb) * mb)%nat.
Proof.
  intros Hm HT. destruct (epoch_spec Hm HT) as (H1 & H2 & H3). set (N := epoch T mb) in *.
  induction n as [|n IH]; [now rewrite Nat.mod_0_l by lia|]. cbn [offset_seq next_offset]. rewrite IH.
  pose proof (Nat.mod_upper_bound n N ltac:(lia)) as Hb. pose proof (Nat.div_mod n N ltac:(lia)) as Hdm.
  set (r := (n mod N)%nat) in *. set (q := (n / N)%nat) in *.
  replace (S n) with (S r + q * N)%nat by lia. rewrite Nat.mod_add by lia.
  destruct (Nat.eq_dec (S r) N) as [E|E].
  - rewrite E, Nat.mod_same by lia. destruct (Nat.leb_spec T (r * mb + mb)); [reflexivity|nia].
  - rewrite Nat.mod_small by lia. destruct (Nat.leb_spec T (r * mb + mb)) as [Hle|]; [|lia].
    exfalso. assert (S r < N)%nat by lia. apply (epoch_iff (S r) Hm HT) in H. nia.
Qed.

Lemma mf_sgd_off lgam psi mb step m m' : mf_sgd_step lgam psi mb step m = Ok m' ->
  exists d, mm_data m = [d] /\ mm_data m' = [d] /\ mm_off m' = Some (next_offset (pa_T d) mb (mm_off m)).
Proof.
  unfold mf_sgd_step. destruct (mm_data m) as [|d [|? ?]]; try discriminate. intros H.
  cbv zeta in H. apply bindr_ok in H as (p & _ & H). apply bindr_ok in H as (b & _ & H).
  apply bindr_ok in H as (n & _ & H). apply bindr_ok in H as (w & _ & H).
  apply bindr_ok in H as (no & _ & H). injection H as <-. exists d. auto.
Qed.

(** After n+1 steps the n-th slice has been processed: it starts at (n mod N) * mb. *)
Theorem C37_offsets :
  forall lgam psi mb steps m m' d,
  mm_off m = None -> mm_data m = [d] -> (0 < mb)%nat -> (0 < pa_T d)%nat -> steps <> [] ->
  mf_run lgam psi (map (OpSgd mb) steps) m = Ok m' ->
  mm_data m' = [d] /\
  mm_off m' = Some (((length steps - 1) mod epoch (pa_T d) mb) * mb)%nat.
Proof.
  intros lgam psi mb steps m m' d H0 Hd Hm HT Hne Hrun.
  assert (G : forall steps m n, mm_data m = [d] -> (match n with O => None | S n' => Some (offset_seq (pa_T d) mb n') end) = mm_off m ->
     mf_run lgam psi (map (OpSgd mb) steps) m = Ok m' ->
     mm_data m' = [d] /\ mm_off m' = match (n + length steps)%nat with O => None | S k => Some (offset_seq (pa_T d) mb k) end).
  { clear steps m H0 Hd Hne Hrun. induction steps as [|s steps IH]; intros m n Hd Ho H.
    - cbn in H. injection H as <-. split; [exact Hd|]. rewrite Nat.add_0_r. auto.
    - cbn [map mf_run mf_op_step] in H. apply bindr_ok in H as (m1 & H1 & H2).
      apply mf_sgd_off in H1 as (d' & E1 & E2 & E3). rewrite Hd in E1. injection E1 as <-.
      destruct (IH m1 (S n) E2) as [G1 G2]; [|exact H2|].
      + rewrite E3, <- Ho. destruct n; reflexivity.
      + split; [exact G1|]. rewrite G2. cbn [length]. now rewrite Nat.add_succ_r. }
  destruct (G steps m 0%nat Hd ltac:(auto) Hrun) as [G1 G2]. split; [exact G1|]. rewrite G2.
  destruct steps as [|s steps]; [congruence|]. cbn [length Nat.add]. rewrite offset_closed by auto.
  do 3 f_equal. lia.
Qed.
Print Assumptions C37_offsets.

(** One epoch tiles the data: every bin lies in exactly one slice, slices are non-empty, and their fractions
    add up to one. *)
Theorem C37_slices_tile :
  forall T mb, (0 < mb)%nat -> (0 < T)%nat ->
  let N := epoch T mb in
  let start j := (j * mb)%nat in
  (0 < N)%nat /\
  (forall j, (j < N)%nat -> (start j < sgd_end T mb (start j) <= T)%nat) /\
  (forall t, (t < T)%nat -> exists! j, (j < N)%nat /\ (start j <= t < sgd_end T mb (start j))%nat) /\
  (forall j, (S j < N)%nat -> sgd_end T mb (start j) = start (S j)) /\ sgd_end T mb (start (N - 1)%nat) = T /\
  Rsum N (fun j => INR (sgd_end T mb (start j) - start j) / INR T) = 1.
Proof.
  intros T mb Hm HT N start. destruct (epoch_spec Hm HT) as (H1 & H2 & H3). fold N in H1, H2, H3.
  assert (Hend : forall j, (j < N)%nat -> sgd_end T mb (start j) = Nat.min (S j * mb) T) by (intros; unfold sgd_end, start; f_equal; lia).
  assert (Hlt : forall j, (j < N)%nat -> (j * mb < T)%nat) by (intros j Hj; now apply (epoch_iff j Hm HT)).
  split; [exact H1|]. split; [|split; [|split; [|split]]].
  - intros j Hj. rewrite Hend by auto. specialize (Hlt j Hj). unfold start. lia.
  - intros t Ht. exists (t / mb)%nat. pose proof (Nat.div_mod t mb ltac:(lia)) as Hdm.
    pose proof (Nat.mod_upper_bound t mb ltac:(lia)) as Hb. set (q := (t / mb)%nat) in *.
    assert (Hq : (q < N)%nat) by (apply (epoch_iff q Hm HT); nia).
    split; [split; [exact Hq|]; rewrite Hend by auto; unfold start; nia|].
    intros j [Hj Hin]. rewrite Hend in Hin by auto. unfold start in Hin. nia.
  - intros j Hj. rewrite Hend by lia. specialize (Hlt (S j) Hj). unfold start. lia.
  - rewrite Hend by lia. replace (S (N - 1)) with N by lia. lia.
  - rewrite Rsum_div. assert (HTR : INR T <> 0) by (apply not_0_INR; lia).
    assert (E : forall n, (n <= N)%nat -> Rsum n (fun j => INR (sgd_end T mb (start j) - start j)) = INR (Nat.min (n * mb) T)).
    { induction n as [|n IH]; intros Hn; [reflexivity|]. cbn [Rsum]. rewrite IH by lia. rewrite Hend by lia. unfold start.
      specialize (Hlt n ltac:(lia)). rewrite <- plus_INR. f_equal. lia. }
    rewrite E by lia. rewrite Nat.min_r by lia. now apply Rinv_r.
Qed.
Print Assumptions C37_slices_tile.
Example C37_nonvacuous : epoch 7 3 = 3%nat /\ sgd_end 7 3 6 = 7%nat /\ offset_seq 7 3 4 = 3%nat.
Proof. auto. Qed.

(* ------------------------------------------------------------------ *)
(** ** C36 *)

(** Component by component: with fraction 1 and step 1 the stochastic update is the batch update, and that is
    prior plus expected statistics, whatever the previous variational parameters were. *)
Theorem C36_components :
  forall lgam psi alpha beta gamma kappa0 nu0 n data b mg w,
  bias_sgd alpha beta data 1 1 b = bias_mf alpha beta data b /\
  ir_sgd gamma data 1 1 mg = ir_mf gamma data mg /\
  weights_sgd lgam kappa0 nu0 n data 1 1 w = weights_mf lgam kappa0 nu0 n data w /\
  (forall ws no, (forall s f, no <> MfSbm true s f) -> mfnet_sgd lgam psi 1 1 ws no = mfnet_batch lgam psi ws no) /\
  (data <> [] ->
   (exists b', bias_mf alpha beta data b = Ok b' /\
      forall k, mb_alpha b' k = alpha + pool (fun d => exp_bkgd_ss0 d k) data /\
                mb_beta b' k = beta + pool (fun d => INR (pa_T d) * pa_dt d) data) /\
   (forall k1 k2 c, ir_mf gamma data mg k1 k2 c = gamma c + pool (fun d => exp_ir_ss d k1 k2 c) data) /\
   (exists w', weights_mf lgam kappa0 nu0 n data w = Ok w' /\
      forall k1 k2,
        w_kappa0 w' k1 k2 = kappa0 + pool (fun d => exp_weight_ss0 d k1 k2) data /\
        w_kappa1 w' k1 k2 = ne_kappa n + pool (fun d => exp_weight_ss0 d k1 k2) data /\
        w_v0 w' k1 k2 = nu0 + pool (fun d => IZR (pa_Ns d k1)) data /\
        w_v1 w' k1 k2 = ne_v n k1 k2 + pool (fun d => IZR (pa_Ns d k1)) data)).
Proof.
  intros lgam psi alpha beta gamma kappa0 nu0 n data b mg w.
  split; [reflexivity|]. split; [reflexivity|]. split; [reflexivity|]. split.
  { intros ws [[|] s f|m] H; [now destruct (H s f)|reflexivity|reflexivity]. }
  intros Hd. destruct data as [|d data]; [congruence|]. split; [|split].
  - eexists. split; [reflexivity|]. intros k. cbn [mb_alpha mb_beta]. rewrite !mix_step_1. unfold Rdiv. rewrite !Rinv_1, !Rmult_1_r.
    split; reflexivity.
  - intros k1 k2 c. unfold ir_mf, mf_update_gamma. rewrite mix_step_1. unfold Rdiv. now rewrite Rinv_1, Rmult_1_r.
  - eexists. split; [reflexivity|]. intros k1 k2. cbn [meanfieldupdate_p w_kappa0 w_kappa1 w_v0 w_v1]. rewrite !mix_step_1.
    unfold Rdiv. rewrite !Rinv_1, !Rmult_1_r. repeat split.
Qed.
Print Assumptions C36_components.

(** Whole model: one sgd_step over the whole data set with unit step leaves exactly the variational state of one
    coordinate-descent step (networks other than the fixed-sparsity block model, see below). *)
Theorem C36_full_batch_step_partial :
  forall lgam psi mb m d,
  mm_data m = [d] -> mm_off m = None -> (0 < pa_T d <= mb)%nat -> pa_K d = mh_K (mm_h m) -> pa_B d = mh_B (mm_h m) ->
  (forall s f, mm_net m <> MfSbm true s f) ->
  match mf_batch_step lgam psi m, mf_sgd_step lgam psi mb 1 m with
  | Ok m1, Ok m2 => mm_bias m1 = mm_bias m2 /\ mm_gamma m1 = mm_gamma m2 /\ mm_w m1 = mm_w m2 /\ mm_net m1 = mm_net m2
  | Raise e1, Raise e2 => e1 = e2
  | _, _ => False
  end.
Proof.
  intros lgam psi mb m d Hd Ho HT EK EB Hn. unfold mf_batch_step, mf_sgd_step. rewrite Hd, Ho. cbn [next_offset].
  replace (sgd_end (pa_T d) mb 0 - 0)%nat with (pa_T d) by (unfold sgd_end; lia).
  replace (INR (pa_T d) / INR (pa_T d)) with 1 by (field; apply not_0_INR; lia).
  rewrite <- EK, <- EB. destruct d as [T K B dt S_ F Z_ EZ_]. cbn [pa_T pa_K pa_B pa_dt pa_S pa_F] in *.
  change (slice2 0 S_) with S_. change (slice3 0 F) with F. cbn [mf_parents].
  set (e := mf_in_of psi m).
  set (d := {| pa_T := T; pa_K := K; pa_B := B; pa_dt := dt; pa_S := S_; pa_F := F; pa_Z := Z_; pa_EZ := EZ_ |}).
  set (p := mk_parents K B dt T S_ F).
  unfold mf_update_python.
  change (all_rows d (fun k r => negb (Reqb (mf_norm d e k r) 0))) with (all_rows p (fun k r => negb (Reqb (mf_norm p e k r) 0))).
  destruct (negb (all_rows p _)); [reflexivity|]. cbn [bindr].
  match goal with |- context [bias_mf _ _ [?x] _] => set (d' := x) end.
  match goal with |- context [bias_sgd _ _ [?x] _ _ _] => set (p' := x) end.
  cbn [bias_mf bias_sgd mf_update_lambda0 bindr].
  destruct (mfnet_view psi (mm_net m)) as [n|]; [|reflexivity]. cbn [bindr].
  change (weights_sgd lgam (mh_kappa0 (mm_h m)) (mh_nu0 (mm_h m)) n [p'] 1 1 (mm_w m))
    with (weights_mf lgam (mh_kappa0 (mm_h m)) (mh_nu0 (mm_h m)) n [d'] (mm_w m)).
  destruct (weights_mf _ _ _ _ _ _) as [w|]; [|reflexivity]. cbn [bindr].
  assert (E : mfnet_sgd lgam psi 1 1 (wstats_of psi w) (mm_net m) = mfnet_batch lgam psi (wstats_of psi w) (mm_net m)).
  { destruct (mm_net m) as [[|] s f|nn]; [now destruct (Hn s f)|reflexivity|reflexivity]. }
  rewrite E. destruct (mfnet_batch _ _ _ _) as [no|]; [|reflexivity]. cbn [bindr]. repeat split; reflexivity.
Qed.
Print Assumptions C36_full_batch_step_partial.

(** With the fixed-sparsity block model the batch update changes the sparsity parameters and the unit-step
    stochastic update does not. *)
Theorem C36_fixed_sparsity_refuted : forall lgam psi, exists s f w, mf_valid s f /\ stats_ok (sb_K s) w /\
  exists f1 f2, mfnet_batch lgam psi w (MfSbm true s f) = Ok (MfSbm true s f1) /\
    mfnet_sgd lgam psi 1 1 w (MfSbm true s f) = Ok (MfSbm true s f2) /\
    mf_tau1 f1 0%nat 0%nat <> mf_tau1 f2 0%nat 0%nat.
Proof.
  intros lgam psi. exists (ex_sbm true), (mf_init (ex_sbm true) (fun _ _ => 1/2)),
    {| ws_A := fun _ _ => 1; ws_W := fun _ _ => 1; ws_lnW := fun _ _ => 0 |}.
  split; [apply C34_nonvacuous|]. split; [intros i j _ _; cbn; lra|].
  do 2 eexists. split; [reflexivity|]. split; [reflexivity|].
  unfold sbm_mf_batch, sbm_mf_sgd, when. cbn [up_p up_v up_m up_c no_p all_flags].
  assert (G : forall f w, mf_tau1 (mf_update_c lgam psi (ex_sbm true) f w 1) = mf_tau1 f).
  { intros g w. unfold mf_update_c. generalize (seq 0 (sb_K (ex_sbm true))). intros l. revert g.
    induction l as [|k l IH]; intros g; [auto|]. cbn [fold_left]. rewrite IH. reflexivity. }
  rewrite !G. cbn [mf_update_p mf_update_v mf_update_m mf_tau1]. rewrite mix_step_1. unfold tau1_hat. cbn. lra.
Qed.
Print Assumptions C36_fixed_sparsity_refuted.

(* ------------------------------------------------------------------ *)
(** ** C38 *)

Definition p_lo : R := / 10 ^ 8.
Definition p_hi : R := 1 - / 10 ^ 8.
Definition w_ok (K : nat) (w : mfw) : Prop :=
  forall i j, (i < K)%nat -> (j < K)%nat ->
    0 < w_kappa0 w i j /\ 0 < w_v0 w i j /\ 0 < w_kappa1 w i j /\ 0 < w_v1 w i j /\
    exists p, w_p w i j = Fin p /\ p_lo <= p <= p_hi.
(** A network with valid priors and variational parameters; Erdos-Renyi needs a gamma prior on its scale. *)
Definition mfnet_ok (K : nat) (no : mfnet) : Prop :=
  match no with
  | MfSbm _ s f => sb_K s = K /\ prior_pos s /\ mf_valid s f /\ sbm_valid s
  | MfEr n => e_K n = K /\ 0 <= e_p n <= 1 /\ 0 < e_kappa n /\
      exists a b ma mb, e_alpha n = Some a /\ e_beta n = Some b /\ e_mf n = Some (ma, mb) /\ 0 < a /\ 0 < b /\ 0 < ma /\ 0 < mb
  end.
Definition mfhyp_ok (h : mfhyp) : Prop :=
  0 < mh_alpha h /\ 0 < mh_beta h /\ (forall b, (b < mh_B h)%nat -> 0 < mh_gamma h b) /\ 0 < mh_kappa0 h /\ 0 < mh_nu0 h.
Definition mfdata_ok (h : mfhyp) (d : parents) : Prop :=
  pa_K d = mh_K h /\ pa_B d = mh_B h /\ (0 < pa_T d)%nat /\ 0 < pa_dt d /\ nonneg_F d /\ fits d.
(** Variational parameters in their domains. *)
Record mf_ok (m : mfmodel) : Prop := {
  ok_bias : forall k, (k < mh_K (mm_h m))%nat -> 0 < mb_alpha (mm_bias m) k /\ 0 < mb_beta (mm_bias m) k;
  ok_gamma : forall k1 k2 b, (k1 < mh_K (mm_h m))%nat -> (k2 < mh_K (mm_h m))%nat -> (b < mh_B (mm_h m))%nat ->
      0 < mm_gamma m k1 k2 b;
  ok_w : w_ok (mh_K (mm_h m)) (mm_w m);
  ok_net : mfnet_ok (mh_K (mm_h m)) (mm_net m);
  ok_hyp : mfhyp_ok (mm_h m);
  ok_data : forall d, In d (mm_data m) -> mfdata_ok (mm_h m) d;
  ok_off : forall o d, mm_off m = Some o -> mm_data m = [d] -> (o < pa_T d)%nat }.

Lemma p_lo_bounds : 0 < p_lo < 1 /\ p_lo <= p_hi < 1 /\ 0 < p_hi.
Proof.
  unfold p_hi, p_lo. assert (0 < / 10 ^ 8 <= / 10); [|lra]. split; [apply Rinv_0_lt_compat, pow_lt; lra|].
  apply Rinv_le_contravar; lra.
Qed.
Definition not_nan (x : er) : Prop := x <> NaN.
Lemma elogistic_range x : x <> NaN -> exists y, elogistic x = Fin y /\ 0 <= y <= 1.
Proof.
  intros H. unfold elogistic. destruct x as [a| | |]; [| | |congruence].
  - cbn [eopp eexp eadd]. pose proof (exp_pos (- a)). rewrite ediv_fin by lra. eexists. split; [reflexivity|].
    split; [apply Rlt_le, Rdiv_lt_0_compat; lra|]. apply Rmult_le_reg_r with (1 + exp (- a)); [lra|].
    unfold Rdiv. rewrite Rmult_assoc, Rinv_l by lra. lra.
  - cbn [eopp eexp eadd]. rewrite ediv_fin by lra. eexists. split; [reflexivity|]. lra.
  - cbn [eopp eexp eadd ediv]. eexists. split; [reflexivity|]. lra.
Qed.
Lemma eclip_range y : exists z, eclip p_lo p_hi (Fin y) = Fin z /\ p_lo <= z <= p_hi /\ (p_lo <= y <= p_hi -> z = y).
Proof.
  unfold eclip. rewrite emax_fin, emin_fin. eexists. split; [reflexivity|]. destruct p_lo_bounds as (_ & ? & _).
  unfold Rmin, Rmax. destruct (Rle_dec y p_lo), (Rle_dec _ p_hi); repeat split; try lra; destruct (Rle_dec y p_lo); lra.
Qed.
Lemma elogit_fin p : p_lo <= p <= p_hi -> elogit (Fin p) = Fin (ln p - ln (1 - p)).
Proof.
  intros H. destruct p_lo_bounds as (? & ? & ?). unfold elogit. rewrite ediv_fin by lra.
  replace (p / 1) with p by field. rewrite esub_fin, !elog_fin by lra. now rewrite esub_fin.
Qed.

(** One update of the edge probabilities with a positive step. *)
Lemma update_p_ok lgam kappa0 nu0 n step w i j p :
  0 < step <= 1 -> esub (ne_lnp n i j) (ne_lnnotp n i j) <> NaN -> w_p w i j = Fin p -> p_lo <= p <= p_hi ->
  exists p', w_p (meanfieldupdate_p lgam kappa0 nu0 n step w) i j = Fin p' /\ p_lo <= p' <= p_hi.
Proof.
  intros Hs Hn Hp Hr. cbn [meanfieldupdate_p w_p]. rewrite Hp, elogit_fin, emul_fin by auto.
  set (x := logit_p lgam kappa0 nu0 n w i j).
  assert (Hx : x <> NaN). { unfold x, logit_p. destruct (esub (ne_lnp n i j) (ne_lnnotp n i j)); cbn; congruence. }
  assert (Hm : eadd (Fin ((1 - step) * (ln p - ln (1 - p)))) (emul (Fin step) x) <> NaN).
  { assert (E : Rltb 0 step = true) by (apply Rltb_true; lra).
    destruct x; cbn; unfold einf_sign; rewrite ?E; congruence. }
  destruct (elogistic_range Hm) as (y & -> & Hy). destruct (eclip_range y) as (z & E & Hz & _).
  exists z. split; [exact E|exact Hz].
Qed.

Lemma mfnet_view_ok psi K no : mfnet_ok K no -> exists n, mfnet_view psi no = Ok n /\ 0 < ne_kappa n /\
  ne_allow n = mfnet_allow no /\
  forall i j, (i < K)%nat -> (j < K)%nat -> 0 < ne_v n i j /\ esub (ne_lnp n i j) (ne_lnnotp n i j) <> NaN /\
    (i = j -> mfnet_allow no = false -> esub (ne_lnp n i j) (ne_lnnotp n i j) = NInf).
Proof.
  assert (L : forall x, 0 <= x <= 1 -> esub (elog (Fin x)) (elog (Fin (1 - x))) <> NaN).
  { intros x Hx. destruct (Req_dec x 0) as [->|]; [rewrite elog_0, Rminus_0_r, elog_fin by lra; cbn; congruence|].
    rewrite elog_fin by lra. destruct (Req_dec x 1) as [->|]; [rewrite Rminus_diag_eq by reflexivity; rewrite elog_0; cbn; congruence|].
    rewrite elog_fin by lra. cbn. congruence. }
  destruct no as [fp s f|n]; cbn [mfnet_ok].
  - intros (EK & HP & Hv & Hs). eexists. split; [reflexivity|]. cbn [ne_kappa ne_allow mfnet_allow ne_v ne_lnp ne_lnnotp].
    split; [apply HP|]. split; [reflexivity|]. intros i j Hi Hj. subst K.
    destruct Hs as (Hl & _ & Hpv). destruct (Hpv _ _ (Hl i Hi) (Hl j Hj)) as [Hp Hvv].
    assert (HPr : 0 <= sbm_P s i j <= 1).
    { unfold sbm_P, ix, fill_diagonal. destruct (negb (sb_allow s)); [destruct (i =? j)%nat; [lra|exact Hp]|exact Hp]. }
    split; [|split].
    + unfold sbm_expected_v. destruct (sb_fixed s); [exact Hvv|]. destruct Hv as (Hm & Hpi & Ht).
      unfold block_mean. destruct (Hm i Hi) as [Mi1 Mi2]. destruct (Hm j Hj) as [Mj1 Mj2].
      (* positive average of positive numbers *)
      assert (Q : forall c1 c2, (c1 < sb_C s)%nat -> (c2 < sb_C s)%nat -> 0 < mf_alpha f c1 c2 / mf_beta f c1 c2).
      { intros c1 c2 H1 H2. apply Rdiv_lt_0_compat; apply Ht; auto. }
      assert (N : forall c1 c2, (c1 < sb_C s)%nat -> (c2 < sb_C s)%nat -> 0 <= mf_m f i c1 * mf_m f j c2 * (mf_alpha f c1 c2 / mf_beta f c1 c2)).
      { intros c1 c2 H1 H2. apply Rmult_le_pos; [apply Rmult_le_pos; auto|]. left. auto. }
      assert (exists c1, (c1 < sb_C s)%nat /\ 0 < mf_m f i c1) as (c1 & Hc1 & P1).
      { destruct (forall_lt (sb_C s) (fun c => Rleb (mf_m f i c) 0)) eqn:E.
        - exfalso. rewrite forall_lt_true in E. assert (Rsum (sb_C s) (mf_m f i) = 0); [|lra].
          apply Rsum_0. intros c Hc. specialize (E c Hc). apply Rleb_true in E. specialize (Mi1 c Hc). lra.
        - apply forall_lt_false in E as (c & Hc & E). apply Rleb_false in E. eauto. }
      assert (exists c2, (c2 < sb_C s)%nat /\ 0 < mf_m f j c2) as (c2 & Hc2 & P2).
      { destruct (forall_lt (sb_C s) (fun c => Rleb (mf_m f j c) 0)) eqn:E.
        - exfalso. rewrite forall_lt_true in E. assert (Rsum (sb_C s) (mf_m f j) = 0); [|lra].
          apply Rsum_0. intros c Hc. specialize (E c Hc). apply Rleb_true in E. specialize (Mj1 c Hc). lra.
        - apply forall_lt_false in E as (c & Hc & E). apply Rleb_false in E. eauto. }
      eapply Rlt_le_trans; [|apply (Rsum_term_le (fun c1 => Rsum (sb_C s) (fun c2 => mf_m f i c1 * mf_m f j c2 * (mf_alpha f c1 c2 / mf_beta f c1 c2))) (i := c1)); [|exact Hc1]].
      * cbn beta. eapply Rlt_le_trans; [|apply (Rsum_term_le (fun c2 => mf_m f i c1 * mf_m f j c2 * (mf_alpha f c1 c2 / mf_beta f c1 c2)) (i := c2)); [|exact Hc2]].
        -- cbn beta. apply Rmult_lt_0_compat; [apply Rmult_lt_0_compat; auto|auto].
        -- intros; apply N; auto.
      * intros c Hc. cbn beta. apply Rsum_nonneg. intros; apply N; auto.
    + destruct fp.
      * unfold fsbm_expected_log_p, fsbm_expected_log_notp, efill_diagonal. destruct (negb (sb_allow s)); [|apply L; auto].
        destruct (i =? j)%nat; [cbn; congruence|apply L; auto].
      * unfold sbm_expected_log_p, sbm_expected_log_notp, efill_diagonal. destruct (sb_fixed s), (negb (sb_allow s)); try (destruct (i =? j)%nat);
          try (apply L; auto); cbn; congruence.
    + intros -> Ha. destruct fp; [unfold fsbm_expected_log_p, fsbm_expected_log_notp|unfold sbm_expected_log_p, sbm_expected_log_notp];
        unfold efill_diagonal; rewrite Ha; cbn [negb]; now rewrite Nat.eqb_refl.
  - intros (EK & Hp & Hk & a & b & ma & mb & Ea & Eb & Em & Ha & Hb & Hma & Hmb).
    cbn [mfnet_view]. unfold er_expected_v, er_expected_log_v. rewrite Em. cbn [bindr]. eexists. split; [reflexivity|].
    cbn [ne_kappa ne_allow mfnet_allow ne_v ne_lnp ne_lnnotp]. split; [exact Hk|]. split; [reflexivity|].
    intros i j Hi Hj. split; [apply Rdiv_lt_0_compat; auto|]. split.
    + apply L. unfold er_P, fill_diagonal. destruct (negb (e_allow n)); [destruct (i =? j)%nat; lra|lra].
    + intros -> Hal. unfold er_P, fill_diagonal. rewrite Hal. cbn [negb]. rewrite Nat.eqb_refl, elog_0, Rminus_0_r, elog_fin by lra. reflexivity.
Qed.

Lemma mf_parents_ok e data :
  (forall d, In d data -> pa_nonneg d (e_lam e) (e_W e) (e_g e) /\ fits d) ->
  exists data', mf_parents e data = Ok data' /\ length data' = length data /\
    forall i p', nth_error data' i = Some p' -> exists p, nth_error data i = Some p /\ mf_update_python p e = Ok p'.
Proof.
  induction data as [|d data IH]; intros H; cbn [mf_parents].
  - exists []. split; [reflexivity|]. split; [reflexivity|]. intros [|i] p'; discriminate.
  - destruct (H d (or_introl eq_refl)) as [Hn Hf]. destruct (@C17_expected_counts d e Hn Hf) as (d' & E & _).
    destruct IH as (data' & E' & El & H'); [intros; apply H; now right|]. rewrite E. cbn [bindr]. rewrite E'. cbn [bindr].
    exists (d' :: data'). split; [reflexivity|]. split; [cbn; congruence|].
    intros [|i] p' Hp; cbn in *; [injection Hp as <-; eauto|apply H'; auto].
Qed.

(** Expected statistics of an updated data set are non-negative. *)
Lemma mf_updated_facts p e p' : pa_nonneg p (e_lam e) (e_W e) (e_g e) -> fits p -> mf_update_python p e = Ok p' ->
  p' = set_EZ p (pa_EZ p') /\
  forall k r c, (k < pa_K p)%nat -> (r < pa_Tk p k)%nat -> (c < 1 + pa_K p * pa_B p)%nat -> 0 <= pa_EZ p' k r c.
Proof.
  intros Hn Hf E. destruct (@C17_expected_counts p e Hn Hf) as (p2 & E2 & Ep & H). rewrite E in E2. injection E2 as <-.
  split; [exact Ep|]. intros k r c Hk Hr Hc. destruct (@pa_row_in p k r Hr) as [Ht _].
  destruct (H (pa_row p k r) k Ht Hk) as [H1 _]. specialize (H1 c Hc). unfold expected_attributed in H1.
  rewrite Ep in H1 |- *. cbn [set_EZ pa_EZ] in *.
  assert (E1 : Rsum (pa_Tk p k) (fun r0 => if Nat.eqb (pa_row p k r0) (pa_row p k r) then pa_EZ p' k r0 c else 0) = pa_EZ p' k r c).
  { transitivity (Rsum (pa_Tk p k) (fun r' => if Nat.eqb r' r then pa_EZ p' k r' c else 0)).
    - apply Rsum_ext. intros r' Hr'. destruct (Nat.eqb_spec (pa_row p k r') (pa_row p k r)) as [E1|E1], (Nat.eqb_spec r' r) as [E3|E3]; subst; try reflexivity; try congruence.
      exfalso. apply E3. eapply rows_inj; eauto.
    - rewrite (Rsum_ind (pa_Tk p k) r (fun r' => pa_EZ p' k r' c)). destruct (Nat.ltb_spec r (pa_Tk p k)); [reflexivity|lia]. }
  rewrite <- E1. exact H1.
Qed.

Definition upd_ok (h : mfhyp) (d : parents) : Prop :=
  pa_K d = mh_K h /\ pa_B d = mh_B h /\ 0 < pa_dt d /\ fits d /\
  forall k r c, (k < pa_K d)%nat -> (r < pa_Tk d k)%nat -> (c < 1 + pa_K d * pa_B d)%nat -> 0 <= pa_EZ d k r c.
Lemma pool_nonneg_mf {A} (f : A -> R) l : (forall x, In x l -> 0 <= f x) -> 0 <= pool f l.
Proof. intros H. rewrite pool_lsum. now apply lsum_map_nonneg. Qed.

(** The common part of both updates. *)
Lemma common_update lgam psi h data frac step bias mg w no :
  mfhyp_ok h -> data <> [] -> (forall d, In d data -> upd_ok h d) -> 0 < frac -> 0 < step <= 1 ->
  (forall k, (k < mh_K h)%nat -> 0 < mb_alpha bias k /\ 0 < mb_beta bias k) ->
  (forall k1 k2 b, (k1 < mh_K h)%nat -> (k2 < mh_K h)%nat -> (b < mh_B h)%nat -> 0 < mg k1 k2 b) ->
  w_ok (mh_K h) w -> mfnet_ok (mh_K h) no ->
  (exists b', bias_sgd (mh_alpha h) (mh_beta h) data frac step bias = Ok b' /\
     forall k, (k < mh_K h)%nat -> 0 < mb_alpha b' k /\ 0 < mb_beta b' k) /\
  (forall k1 k2 b, (k1 < mh_K h)%nat -> (k2 < mh_K h)%nat -> (b < mh_B h)%nat -> 0 < ir_sgd (mh_gamma h) data frac step mg k1 k2 b) /\
  exists n, mfnet_view psi no = Ok n /\
    exists w', weights_sgd lgam (mh_kappa0 h) (mh_nu0 h) n data frac step w = Ok w' /\ w_ok (mh_K h) w' /\
    forall (batch : bool), (batch = true -> step = 1) ->
    exists no', (if batch then mfnet_batch lgam psi (wstats_of psi w') no else mfnet_sgd lgam psi frac step (wstats_of psi w') no) = Ok no' /\
      mfnet_ok (mh_K h) no'.
Proof.
  intros (Ha & Hb & Hg & Hk0 & Hn0) Hne Hd Hf Hs Hbias Hmg Hw Hno.
  assert (Hs' : 0 <= step <= 1) by lra.
  assert (Hdiv : forall x, 0 <= x -> 0 <= x / frac) by (intros x Hx; apply Rmult_le_pos; [auto|left; apply Rinv_0_lt_compat; auto]).
  assert (Hwss : forall i j, (i < mh_K h)%nat -> (j < mh_K h)%nat -> 0 <= pool (fun d => exp_weight_ss0 d i j) data / frac).
  { intros i j Hi Hj. apply Hdiv, pool_nonneg_mf. intros d Hin. destruct (Hd d Hin) as (EK & EB & _ & _ & HE).
    unfold exp_weight_ss0. apply Rsum_nonneg. intros b Hb'. apply Rsum_nonneg. intros r Hr. apply HE; [lia|auto|nia]. }
  assert (HNs : forall i, (i < mh_K h)%nat -> 0 <= pool (fun d => IZR (pa_Ns d i)) data / frac).
  { intros i Hi. apply Hdiv, pool_nonneg_mf. intros d Hin. destruct (Hd d Hin) as (EK & _ & _ & Hfit & _).
    apply IZR_le. rewrite pa_Ns_sum. apply Zsum_nonneg. intros t Ht. apply Hfit; lia. }
  split; [|split].
  - unfold bias_sgd, mf_update_lambda0. destruct data as [|d0 data0] eqn:Ed; [congruence|]. rewrite <- Ed in *.
    eexists. split; [reflexivity|]. intros k Hk. destruct (Hbias k Hk) as [B1 B2]. cbn [mb_alpha mb_beta]. split.
    + apply mix_step_pos; auto. assert (0 <= pool (fun d => exp_bkgd_ss0 d k) data / frac); [|lra].
      apply Hdiv, pool_nonneg_mf. intros d Hin. destruct (Hd d Hin) as (EK & EB & _ & _ & HE).
      apply Rsum_nonneg. intros r Hr. apply HE; [lia|auto|lia].
    + apply mix_step_pos; auto. assert (0 <= pool (fun d => exp_bkgd_ss1 d k) data / frac); [|lra].
      apply Hdiv, pool_nonneg_mf. intros d Hin. destruct (Hd d Hin) as (_ & _ & Hdt & _). apply Rmult_le_pos; [apply pos_INR|lra].
  - intros k1 k2 b H1 H2 H3. unfold ir_sgd, mf_update_gamma. apply mix_step_pos; auto. specialize (Hg b H3).
    assert (0 <= pool (fun d => exp_ir_ss d k1 k2 b) data / frac); [|lra].
    apply Hdiv, pool_nonneg_mf. intros d Hin. destruct (Hd d Hin) as (EK & EB & _ & _ & HE).
    apply Rsum_nonneg. intros r Hr. apply HE; [lia|auto|nia].
  - destruct (@mfnet_view_ok psi _ _ Hno) as (n & En & Hkap & _ & Hv). exists n. split; [exact En|].
    unfold weights_sgd, meanfieldupdate_kappa_v. destruct data as [|d0 data0] eqn:Ed; [congruence|]. rewrite <- Ed in *. cbn [bindr].
    eexists. split; [reflexivity|]. set (w1 := {| w_p := w_p w |}).
    assert (Hw1 : w_ok (mh_K h) (meanfieldupdate_p lgam (mh_kappa0 h) (mh_nu0 h) n step w1)).
    { intros i j Hi Hj. destruct (Hw i j Hi Hj) as (W1 & W2 & W3 & W4 & p & Ep & Hp). destruct (Hv i j Hi Hj) as (V1 & V2 & _).
      specialize (Hwss i j Hi Hj). specialize (HNs i Hi). cbn [meanfieldupdate_p w_kappa0 w_v0 w_kappa1 w_v1 w1].
      split; [apply mix_step_pos; auto; lra|]. split; [apply mix_step_pos; auto; lra|].
      split; [apply mix_step_pos; auto; lra|]. split; [apply mix_step_pos; auto; lra|].
      exact (@update_p_ok lgam (mh_kappa0 h) (mh_nu0 h) n step w1 i j p Hs V2 Ep Hp). }
    split; [exact Hw1|]. set (w' := meanfieldupdate_p lgam (mh_kappa0 h) (mh_nu0 h) n step w1) in *.
    assert (Hst : stats_ok (mh_K h) (wstats_of psi w')).
    { intros i j Hi Hj. destruct (Hw1 i j Hi Hj) as (W1 & W2 & W3 & W4 & p & Ep & Hp). destruct p_lo_bounds as (? & ? & ?).
      cbn [wstats_of ws_A ws_W]. unfold w_A. rewrite Ep. cbn [fval]. split; [lra|]. unfold expected_W_given_A.
      assert (0 < w_kappa1 w' i j / w_v1 w' i j) by (apply Rdiv_lt_0_compat; auto). lra. }
    intros batch Hbt. destruct no as [fp s f|e]; cbn [mfnet_ok] in Hno.
    + destruct Hno as (EK & HP & Hval & Hsv).
      assert (Hrw : exists fl o, (if batch then mfnet_batch lgam psi (wstats_of psi w') (MfSbm fp s f)
                 else mfnet_sgd lgam psi frac step (wstats_of psi w') (MfSbm fp s f))
               = Ok (MfSbm fp s (mf_step lgam psi s f o)) /\ op_ok (sb_K s) o /\ fl = all_flags).
      { exists all_flags. destruct batch, fp.
        - exists (MBatch (no_p (no_p all_flags)) (wstats_of psi w')). split; [reflexivity|]. cbn. rewrite EK. auto.
        - exists (MBatch all_flags (wstats_of psi w')). split; [reflexivity|]. cbn. rewrite EK. auto.
        - exists (MSgd (no_p (no_p all_flags)) step (wstats_of psi w')). split; [reflexivity|]. cbn. rewrite EK. auto.
        - exists (MSgd all_flags step (wstats_of psi w')). split; [reflexivity|]. cbn. rewrite EK. auto. }
      destruct Hrw as (_ & o & Er & Hop & _). exists (MfSbm fp s (mf_step lgam psi s f o)). split; [exact Er|].
      cbn [mfnet_ok]. split; [exact EK|]. split; [exact HP|]. split; [|exact Hsv].
      apply (@C34_variational_parameters_valid lgam psi s f [o] HP Hval). intros o' [<-|[]]. exact Hop.
    + destruct Hno as (EK & Hp & Hk & a & b & ma & mb & Ea & Eb & Em & Hpa & Hpb & Hma & Hmb).
      assert (Hrw : (if batch then mfnet_batch lgam psi (wstats_of psi w') (MfEr e) else mfnet_sgd lgam psi frac step (wstats_of psi w') (MfEr e))
               = (do n' <- er_meanfieldupdate e (wstats_of psi w') step ;; Ok (MfEr n'))).
      { destruct batch; [rewrite (Hbt eq_refl)|]; reflexivity. }
      rewrite Hrw. unfold er_meanfieldupdate. rewrite Ea, Eb, Em. cbn [bindr]. eexists. split; [reflexivity|].
      cbn [mfnet_ok er_with_mf e_K e_p e_kappa e_alpha e_beta e_mf]. split; [exact EK|]. split; [exact Hp|]. split; [exact Hk|].
      do 4 eexists. split; [exact Ea|]. split; [exact Eb|]. split; [reflexivity|]. split; [exact Hpa|]. split; [exact Hpb|].
      rewrite EK. split; apply mix_step_pos; auto.
      * assert (0 <= Rsum (mh_K h) (fun i => Rsum (mh_K h) (fun j => ws_A (wstats_of psi w') i j * e_kappa e))); [|lra].
        apply Rsum2_nonneg. intros i j Hi Hj. destruct (Hst i j Hi Hj). apply Rmult_le_pos; lra.
      * assert (0 <= Rsum (mh_K h) (fun i => Rsum (mh_K h) (fun j => ws_A (wstats_of psi w') i j * ws_W (wstats_of psi w') i j))); [|lra].
        apply Rsum2_nonneg. intros i j Hi Hj. destruct (Hst i j Hi Hj). apply Rmult_le_pos; lra.
Qed.

Lemma mf_in_nonneg psi m d : mf_ok m -> pa_K d = mh_K (mm_h m) -> pa_B d = mh_B (mm_h m) -> nonneg_F d ->
  pa_nonneg d (e_lam (mf_in_of psi m)) (e_W (mf_in_of psi m)) (e_g (mf_in_of psi m)).
Proof.
  intros Hm EK EB HF. split; [|split; [|split; [|exact HF]]].
  - intros k _. cbn. apply exp_pos.
  - intros k1 k2 _ _. cbn. destruct (expected_log_W psi _ _ k1 k2) as [a| | |]; cbn; try lra. left. apply exp_pos.
  - intros k1 k2 b _ _ _. cbn. left. apply exp_pos.
Qed.
Lemma updated_ok psi m d d' : mf_ok m -> pa_K d = mh_K (mm_h m) -> pa_B d = mh_B (mm_h m) -> 0 < pa_dt d -> nonneg_F d -> fits d ->
  mf_update_python d (mf_in_of psi m) = Ok d' ->
  upd_ok (mm_h m) d' /\ d' = set_EZ d (pa_EZ d').
Proof.
  intros Hm EK EB Hdt HF Hfit E. assert (Hn := @mf_in_nonneg psi m d Hm EK EB HF).
  destruct (@mf_updated_facts d _ d' Hn Hfit E) as [Ed HE]. split; [|exact Ed]. rewrite Ed.
  split; [exact EK|]. split; [exact EB|]. split; [exact Hdt|]. split; [exact Hfit|]. exact HE.
Qed.

Definition mfop_ok (m : mfmodel) (o : mfop) : Prop :=
  match o with OpBatch => mm_data m <> [] | OpSgd mb step => length (mm_data m) = 1%nat /\ (0 < mb)%nat /\ 0 < step <= 1 end.

Lemma mf_step_ok lgam psi o m : mf_ok m -> mfop_ok m o ->
  exists m', mf_op_step lgam psi o m = Ok m' /\ mf_ok m' /\ mm_h m' = mm_h m /\ length (mm_data m') = length (mm_data m).
Proof.
  intros Hm Ho. pose proof Hm as [Hb Hg Hw Hno Hh Hd Hoff]. destruct o as [|mb step]; cbn [mf_op_step mfop_ok] in *.
  - unfold mf_batch_step. destruct (@mf_parents_ok (mf_in_of psi m) (mm_data m)) as (data & Ep & El & Hre).
    { intros d Hin. destruct (Hd d Hin) as (EK & EB & HT & Hdt & HF & Hfit). split; [|exact Hfit]. apply mf_in_nonneg; auto. }
    assert (Hu : forall d', In d' data -> upd_ok (mm_h m) d' /\ exists d, In d (mm_data m) /\ d' = set_EZ d (pa_EZ d')).
    { intros d' Hin. apply In_nth_error in Hin as (i & Hi). destruct (Hre i d' Hi) as (d & Hi' & E).
      apply nth_error_In in Hi'. destruct (Hd d Hi') as (EK & EB & HT & Hdt & HF & Hfit).
      destruct (@updated_ok psi m d d' Hm EK EB Hdt HF Hfit E) as [U1 U2]. eauto. }
    assert (Hne : data <> []) by (intros ->; destruct (mm_data m); [congruence|discriminate]).
    destruct (@common_update lgam psi (mm_h m) data 1 1 (mm_bias m) (mm_gamma m) (mm_w m) (mm_net m) Hh Hne
       (fun d Hi => proj1 (Hu d Hi)) ltac:(lra) ltac:(lra) Hb Hg Hw Hno) as ((b' & Eb & Hb') & Hg' & n & En & w' & Ew & Hw' & Hnet).
    destruct (Hnet true (fun _ => eq_refl)) as (no' & Eno & Hno'). cbv zeta. rewrite Ep. cbn [bindr].
    change (bias_mf (mh_alpha (mm_h m)) (mh_beta (mm_h m)) data (mm_bias m)) with (bias_sgd (mh_alpha (mm_h m)) (mh_beta (mm_h m)) data 1 1 (mm_bias m)).
    rewrite Eb. cbn [bindr]. rewrite En. cbn [bindr].
    change (weights_mf lgam (mh_kappa0 (mm_h m)) (mh_nu0 (mm_h m)) n data (mm_w m)) with (weights_sgd lgam (mh_kappa0 (mm_h m)) (mh_nu0 (mm_h m)) n data 1 1 (mm_w m)).
    rewrite Ew. cbn [bindr]. rewrite Eno. cbn [bindr]. eexists. split; [reflexivity|]. split; [|split; [reflexivity|exact El]].
    constructor; cbn [mm_h mm_bias mm_gamma mm_w mm_net mm_data mm_off]; auto.
    + intros d' Hin. destruct (Hu d' Hin) as (_ & d & Hin' & ->). apply (Hd d Hin').
    + intros o d' Eo E. subst data. destruct (mm_data m) as [|d [|? ?]] eqn:Ed; try discriminate.
      destruct (Hu d' (or_introl eq_refl)) as (_ & d2 & [<-|[]] & ->). apply (Hoff o d Eo eq_refl).
  - destruct Ho as (El & Hmb & Hs). unfold mf_sgd_step. destruct (mm_data m) as [|d [|? ?]] eqn:Ed; try discriminate. cbv zeta.
    destruct (Hd d (or_introl eq_refl)) as (EK & EB & HT & Hdt & HF & Hfit).
    set (off := next_offset (pa_T d) mb (mm_off m)).
    assert (Ho : (off < pa_T d)%nat).
    { unfold off, next_offset. destruct (mm_off m) as [o|]; [|auto]. destruct (Nat.leb_spec (pa_T d) (o + mb)); auto. }
    set (len := (sgd_end (pa_T d) mb off - off)%nat). assert (Hlen : (0 < len /\ off + len <= pa_T d)%nat) by (unfold len, sgd_end; lia).
    set (p := mk_parents (mh_K (mm_h m)) (mh_B (mm_h m)) (pa_dt d) len (slice2 off (pa_S d)) (slice3 off (pa_F d))).
    assert (HFp : nonneg_F p). { intros t k b Ht Hk Hb'. cbn in *. unfold slice3. apply HF; lia. }
    assert (Hfp : fits p). { intros t k Ht Hk. cbn in Ht, Hk |- *. unfold slice2. apply Hfit; lia. }
    destruct (@C17_expected_counts p (mf_in_of psi m)) as (p' & Ep & _); [apply mf_in_nonneg; auto|exact Hfp|].
    destruct (@updated_ok psi m p p' Hm eq_refl eq_refl Hdt HFp Hfp Ep) as [Hu _].
    assert (Hfrac : 0 < INR len / INR (pa_T d)) by (apply Rdiv_lt_0_compat; apply lt_0_INR; lia).
    destruct (@common_update lgam psi (mm_h m) [p'] (INR len / INR (pa_T d)) step (mm_bias m) (mm_gamma m) (mm_w m) (mm_net m) Hh
       ltac:(congruence) ltac:(intros x [<-|[]]; exact Hu) Hfrac Hs Hb Hg Hw Hno) as ((b' & Eb & Hb') & Hg' & n & En & w' & Ew & Hw' & Hnet).
    destruct (Hnet false ltac:(discriminate)) as (no' & Eno & Hno').
    rewrite Ep. cbn [bindr]. rewrite Eb. cbn [bindr]. rewrite En. cbn [bindr]. rewrite Ew. cbn [bindr]. rewrite Eno. cbn [bindr].
    eexists. split; [reflexivity|]. split; [|split; [reflexivity|cbn [mm_data]; now rewrite ?Ed]].
    constructor; cbn [mm_h mm_bias mm_gamma mm_w mm_net mm_data mm_off]; auto.
    intros o d' Eo E. injection Eo as <-. rewrite ?Ed in E. injection E as <-. exact Ho.
Qed.

(** No history of coordinate-descent steps and stochastic steps with step sizes in (0,1] raises, and every
    variational parameter stays in its domain.  Missing from the English statement: step size 0, where it is false
    (next theorem). *)
Theorem C38_parameters_positive_partial :
  forall lgam psi hist m, mf_ok m -> (forall o, In o hist -> mfop_ok m o) ->
  exists m', mf_run lgam psi hist m = Ok m' /\ mf_ok m'.
Proof.
  intros lgam psi hist. induction hist as [|o hist IH]; intros m Hm Ho; cbn [mf_run]; [eauto|].
  destruct (@mf_step_ok lgam psi o m Hm (Ho o (or_introl eq_refl))) as (m1 & E & Hm1 & _ & El). rewrite E. cbn [bindr].
  apply IH; [exact Hm1|]. intros o' Hin. specialize (Ho o' (or_intror Hin)). destruct o' as [|mb step]; cbn [mfop_ok] in *.
  - intros E0. rewrite E0 in El. destruct (mm_data m); [congruence|discriminate].
  - rewrite El. exact Ho.
Qed.
Print Assumptions C38_parameters_positive_partial.

(** The variational parameters a freshly built model starts from are in their domains. *)
Theorem C38_initial : forall K B alpha beta gamma kappa0 nu0 no n data,
  0 < alpha -> 0 < beta -> (forall b, (b < B)%nat -> 0 < gamma b) -> 0 < kappa0 -> 0 < nu0 ->
  mfnet_ok K no -> 0 < n_kappa n -> (forall i j, (i < K)%nat -> (j < K)%nat -> 0 < n_V n i j) ->
  let h := {| mh_K := K; mh_B := B; mh_alpha := alpha; mh_beta := beta; mh_gamma := gamma; mh_kappa0 := kappa0; mh_nu0 := nu0 |} in
  (forall d, In d data -> mfdata_ok h d) ->
  mf_ok {| mm_h := h; mm_bias := mfbias_init alpha beta; mm_gamma := mf_gamma_init gamma; mm_w := mfw_init kappa0 nu0 n;
           mm_net := no; mm_data := data; mm_off := None |}.
Proof.
  intros K B alpha beta gamma kappa0 nu0 no n data Ha Hb Hg Hk Hn Hno Hkap HV h Hd.
  constructor; cbn [mm_h mm_bias mm_gamma mm_w mm_net mm_data mm_off h mh_K mh_B]; auto.
  - intros k _. cbn. lra.
  - intros k1 k2 b _ _ H. unfold mf_gamma_init. specialize (Hg b H). lra.
  - intros i j Hi Hj. cbn. specialize (HV i j Hi Hj). repeat (split; [lra|]). eexists. split; [reflexivity|].
    unfold p_lo, p_hi. assert (E : 0 < / 10 ^ 8 <= / 10 ^ 3); [|assert (/ 10 ^ 3 <= / 10) by (apply Rinv_le_contravar; lra); lra].
    split; [apply Rinv_0_lt_compat, pow_lt; lra|]. apply Rinv_le_contravar; [apply pow_lt; lra|]. apply Rle_pow; [lra|lia].
  - repeat split; auto.
  - discriminate.
Qed.
Print Assumptions C38_initial.

(** With step size 0 and self-connections disallowed the diagonal edge probabilities become NaN. *)
Theorem C38_zero_step_refuted :
  forall lgam psi mb m m' k, mf_ok m -> (0 < mb)%nat -> mfnet_allow (mm_net m) = false -> (k < mh_K (mm_h m))%nat ->
  mf_sgd_step lgam psi mb 0 m = Ok m' -> w_p (mm_w m') k k = NaN.
Proof.
  intros lgam psi mb m m' k Hm Hmb Ha Hk H. unfold mf_sgd_step in H.
  destruct (mm_data m) as [|d [|? ?]]; try discriminate. cbv zeta in H.
  apply bindr_ok in H as (p & _ & H). apply bindr_ok in H as (b & _ & H). apply bindr_ok in H as (n & En & H).
  apply bindr_ok in H as (w & Ew & H). apply bindr_ok in H as (no & _ & H). injection H as <-. cbn [mm_w].
  destruct (@mfnet_view_ok psi _ _ (ok_net Hm)) as (n' & En' & _ & _ & Hv). rewrite En in En'. injection En' as <-.
  destruct (Hv k k Hk Hk) as (_ & _ & HN). specialize (HN eq_refl Ha).
  unfold weights_sgd in Ew. apply bindr_ok in Ew as (w1 & E1 & Ew). injection Ew as <-.
  cbn [meanfieldupdate_p w_p]. unfold logit_p. rewrite HN. cbn [eadd emul]. unfold einf_sign.
  assert (E0 : Rltb 0 0 = false) by (apply Rltb_false; lra). rewrite !E0, eadd_NaN_r. reflexivity.
Qed.
Print Assumptions C38_zero_step_refuted.

(** Hypotheses are met, and the refuted case is reached, by a two-process model with forbidden self-connections. *)
Definition ex_mfm : mfmodel :=
  {| mm_h := {| mh_K := 2; mh_B := 1; mh_alpha := 1; mh_beta := 1; mh_gamma := fun _ => 1; mh_kappa0 := 1/10; mh_nu0 := 10 |};
     mm_bias := mfbias_init 1 1; mm_gamma := mf_gamma_init (fun _ => 1);
     mm_w := mfw_init (1/10) 10 {| n_P := fun _ _ => 1/2; n_V := fun _ _ => 1; n_kappa := 1 |};
     mm_net := MfEr {| e_K := 2; e_p := 1/2; e_kappa := 1; e_alpha := Some 1; e_beta := Some 1; e_v := 1; e_allow := false; e_mf := Some (1, 1) |};
     mm_data := [ex_child]; mm_off := None |}.
Lemma ex_mfm_ok : mf_ok ex_mfm.
Proof.
  apply C38_initial; try lra; try (intros; cbn; lra).
  - split; [reflexivity|]. cbn. split; [lra|]. split; [lra|]. exists 1, 1, 1, 1. repeat split; lra.
  - intros d [<-|[]]. split; [reflexivity|]. split; [reflexivity|]. split; [cbn; lia|]. split; [cbn; lra|].
    split; [|].
    + intros t k b Ht Hk Hb. cbn. repeat match goal with |- context [if ?x then _ else _] => destruct x end; lra.
    + intros t k Ht Hk. cbn. repeat match goal with |- context [if ?x then _ else _] => destruct x end; lia.
Qed.
Example C38_nonvacuous : mf_ok ex_mfm /\ (forall o, In o [OpBatch; OpSgd 1 (1/2); OpSgd 1 1] -> mfop_ok ex_mfm o) /\
  mfnet_allow (mm_net ex_mfm) = false.
Proof.
  split; [exact ex_mfm_ok|]. split; [|reflexivity]. intros o [<-|[<-|[<-|[]]]]; cbn; [congruence| |]; (split; [reflexivity|split; [lia|lra]]).
Qed.

(* ------------------------------------------------------------------ *)
(** ** C36, the general rule *)

Lemma p_update_value lgam kappa0 nu0 n step w i j p l : w_p w i j = Fin p -> 0 < p < 1 ->
  logit_p lgam kappa0 nu0 n w i j = Fin l ->
  w_p (meanfieldupdate_p lgam kappa0 nu0 n step w) i j =
    Fin (Rmin (Rmax (/ (1 + exp (- ((1 - step) * ln (p / (1 - p)) + step * l)))) (/ 10 ^ 8)) (1 - / 10 ^ 8)).
Proof.
  intros Ep Hp El. cbn [meanfieldupdate_p w_p]. rewrite El, Ep. unfold elogit. rewrite ediv_fin by lra.
  replace (p / 1) with p by field. unfold esub at 2. cbn [eopp eadd]. rewrite !elog_fin by lra. unfold esub. cbn [eopp eadd emul].
  unfold elogistic. cbn [eopp eexp eadd].
  rewrite ediv_fin by (match goal with |- 1 + exp ?x <> 0 => pose proof (exp_pos x); lra end).
  unfold eclip. rewrite emax_fin, emin_fin.
  replace (ln (p / (1 - p))) with (ln p + - ln (1 + - p)).
  2:{ unfold Rdiv. rewrite ln_mult, ln_Rinv by (try apply Rinv_0_lt_compat; lra). reflexivity. }
  f_equal. f_equal. f_equal. unfold Rdiv. now rewrite Rmult_1_l.
Qed.

(** With fraction f and step e, every natural parameter moves to (1-e) old + e (prior + statistics/f), i.e. the
    statistics of the minibatch are scaled up to the size of the whole data set; the log odds of the edges move the
    same way, and the probability is clipped to [1e-8, 1-1e-8]. *)
Theorem C36_stochastic_rule :
  forall lgam alpha beta gamma kappa0 nu0 n data b mg w frac step, data <> [] -> 0 < frac ->
  let toward old prior stat := (1 - step) * old + step * (prior + / frac * lsum (map stat data)) in
  (exists b', bias_sgd alpha beta data frac step b = Ok b' /\
     forall k, mb_alpha b' k = toward (mb_alpha b k) alpha (fun d => exp_bkgd_ss0 d k) /\
               mb_beta b' k = toward (mb_beta b k) beta (fun d => INR (pa_T d) * pa_dt d)) /\
  (forall k1 k2 c, ir_sgd gamma data frac step mg k1 k2 c = toward (mg k1 k2 c) (gamma c) (fun d => exp_ir_ss d k1 k2 c)) /\
  (exists w', weights_sgd lgam kappa0 nu0 n data frac step w = Ok w' /\
     forall k1 k2,
       w_kappa0 w' k1 k2 = toward (w_kappa0 w k1 k2) kappa0 (fun d => exp_weight_ss0 d k1 k2) /\
       w_kappa1 w' k1 k2 = toward (w_kappa1 w k1 k2) (ne_kappa n) (fun d => exp_weight_ss0 d k1 k2) /\
       w_v0 w' k1 k2 = toward (w_v0 w k1 k2) nu0 (fun d => IZR (pa_Ns d k1)) /\
       w_v1 w' k1 k2 = toward (w_v1 w k1 k2) (ne_v n k1 k2) (fun d => IZR (pa_Ns d k1)) /\
       forall p l, w_p w k1 k2 = Fin p -> 0 < p < 1 -> logit_p lgam kappa0 nu0 n w' k1 k2 = Fin l ->
         let x := (1 - step) * ln (p / (1 - p)) + step * l in
         w_p w' k1 k2 = Fin (Rmin (Rmax (/ (1 + exp (- x))) (/ 10 ^ 8)) (1 - / 10 ^ 8))).
Proof.
  intros lgam alpha beta gamma kappa0 nu0 n data b mg w frac step Hd Hf toward.
  assert (G : forall old prior stat, mix_step step old (prior + pool stat data / frac) = toward old prior stat).
  { intros old prior stat. unfold mix_step, toward. rewrite pool_lsum. unfold Rdiv. ring. }
  destruct data as [|d0 data]; [congruence|]. split; [|split].
  - eexists. split; [reflexivity|]. intros k. cbn [mb_alpha mb_beta]. rewrite !G. split; reflexivity.
  - intros k1 k2 c. unfold ir_sgd, mf_update_gamma. apply G.
  - eexists. split; [reflexivity|]. intros k1 k2.
    match goal with |- context [meanfieldupdate_p ?a ?b ?c ?d ?e ?w1] => pose proof (@p_update_value a b c d e w1 k1 k2) as PU end.
    cbn [meanfieldupdate_p w_kappa0 w_kappa1 w_v0 w_v1]. rewrite !G.
    split; [reflexivity|]. split; [reflexivity|]. split; [unfold toward; ring|]. split; [reflexivity|].
    intros p l Ep Hp El. exact (PU p l Ep Hp El).
Qed.
Print Assumptions C36_stochastic_rule.
