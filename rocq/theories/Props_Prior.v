(** * Props_Prior: properties C87-C89, log priors and log_probability. *)
From Coq Require Import Permutation.
From Verif Require Import Prelude ExtReal Arrays Spec_Discrete Spec_Gibbs Spec_Network Spec_Joint M_Basis M_Parents M_Discrete M_Gibbs M_Dist M_Network M_Sweep M_Continuous M_Prior
  Spec_Continuous L_Continuous L_Network L_Discrete Props_Discrete Props_Dist Props_Network Props_Continuous.
Set Implicit Arguments.
Open Scope R_scope.

Lemma esum2_fin K f g : (forall i j, (i < K)%nat -> (j < K)%nat -> f i j = Fin (g i j)) ->
  esum K (fun i => esum K (fun j => f i j)) = Fin (Rsum K (fun i => Rsum K (fun j => g i j))).
Proof. intros H. apply esum_fin. intros i Hi. apply esum_fin. intros j Hj. now apply H. Qed.
Lemma Rsum_single n f i : (i < n)%nat -> (forall j, (j < n)%nat -> j <> i -> f j = 0) -> Rsum n f = f i.
Proof.
  induction n as [|n IH]; intros Hi H; [lia|]. cbn [Rsum]. destruct (Nat.eq_dec i n) as [->|Hne].
  - rewrite (@Rsum_0 n f). ring. intros. apply H; lia.
  - rewrite IH, (H n) by (intros; try apply H; lia). ring.
Qed.
Lemma lp_W_fin lgam kappa v w : 0 < v -> 0 < w -> lp_W_cell lgam kappa v w = Fin (gamma_lpdf lgam kappa v w).
Proof. intros Hv Hw. unfold lp_W_cell, gamma_lpdf. rewrite !elog_fin by auto. cbn. f_equal; try ring. Qed.
Lemma lp_A_fin p a : 0 < p < 1 -> lp_A_cell p a = Fin (bern_ll p a).
Proof. intros H. unfold lp_A_cell. rewrite !elog_fin by lra. destruct a; cbn; f_equal; try ring. Qed.

(* ------------------------------------------------------------------ *)
(** ** C87: the reported log priors are the log densities *)

(** Background rates: independent Gamma(alpha, beta). *)
Theorem C87_bias : forall lgam K alpha beta x, (forall k, (k < K)%nat -> 0 < x k) ->
  bias_ll lgam K alpha beta x = Fin (bias_lp lgam K alpha beta x).
Proof.
  intros lgam K alpha beta x H. unfold bias_ll, bias_lp.
  rewrite (@esum_fin K _ (fun k => (alpha - 1) * ln (x k) - beta * x k)).
  2:{ intros k Hk. rewrite elog_fin by auto. cbn. f_equal; try ring. }
  cbn [eadd]. f_equal. rewrite <- Rsum_const, <- Rsum_plus. apply Rsum_ext. intros. unfold gamma_lpdf. ring.
Qed.

(** Spike-and-slab: edges independent Bernoulli, weights of present edges Gamma(kappa, v), as long as no
    edge probability is below 1e-32 or equal to 1.  A forbidden self-connection contributes ln(1 - 1e-32) (0 in doubles). *)
Theorem C87_spike_and_slab_partial : forall lgam K allow n A W,
  (forall i j, (i < K)%nat -> (j < K)%nat -> 0 < n_V n i j /\ 0 < W i j /\
     (possible allow i j = true -> / 10 ^ 32 <= n_P n i j < 1) /\
     (possible allow i j = false -> n_P n i j = 0 /\ A i j = false)) ->
  ss_weights_ll lgam K n A W
  = Fin (edges_ll K (possible allow) (n_P n) A + weights_ll lgam K (possible allow) (n_kappa n) (n_V n) A W
         + if allow then 0 else INR K * ln (1 - / 10 ^ 32)).
Proof.
  intros lgam K allow n A W H. unfold ss_weights_ll, edges_ll, weights_ll.
  assert (He : 0 < / 10 ^ 32 < 1).
  { split; [apply Rinv_0_lt_compat; lra|]. rewrite <- Rinv_1. apply Rinv_lt_contravar; lra. }
  rewrite (@esum2_fin K _ (fun i j => (if possible allow i j then bern_ll (n_P n i j) (A i j) else 0) + (if possible allow i j then 0 else ln (1 - / 10 ^ 32)))).
  2:{ intros i j Hi Hj. destruct (H i j Hi Hj) as (_ & _ & HP & HN). unfold rho_clip. destruct (possible allow i j).
      - specialize (HP eq_refl). rewrite Rmax_left, Rmin_left by lra. rewrite lp_A_fin by lra. f_equal; try ring.
      - destruct (HN eq_refl) as [-> ->]. rewrite Rmax_right, Rmin_left by lra. rewrite lp_A_fin by lra. cbn. f_equal; try ring. }
  rewrite (@esum2_fin K _ (fun i j => if (possible allow i j && A i j)%bool then gamma_lpdf lgam (n_kappa n) (n_V n i j) (W i j) else 0)).
  2:{ intros i j Hi Hj. destruct (H i j Hi Hj) as (HV & HW & _ & HN). rewrite lp_W_fin by auto. destruct (possible allow i j).
      - destruct (A i j); cbn; f_equal; try ring.
      - destruct (HN eq_refl) as [_ ->]. cbn. f_equal; try ring. }
  cbn [nan_to_num eadd]. f_equal. rewrite Rsum2_plus.
  assert (E : Rsum K (fun i => Rsum K (fun j => if possible allow i j then 0 else ln (1 - / 10 ^ 32))) = if allow then 0 else INR K * ln (1 - / 10 ^ 32)).
  { destruct allow; cbn [possible orb].
    - apply Rsum_0; intros. now apply Rsum_0.
    - rewrite <- Rsum_const. apply Rsum_ext. intros i Hi. rewrite (@Rsum_single K _ i Hi).
      + unfold possible. cbn. now rewrite Nat.eqb_refl.
      + intros j Hj Hne. unfold possible. cbn. destruct (Nat.eqb_spec i j); [congruence|reflexivity]. }
  rewrite E. ring.
Qed.

(** One certain edge makes the whole adjacency term vanish: 0 * log(0) is NaN and nan_to_num turns the sum into 0. *)
Theorem C87_certain_edge_refuted : forall lgam K n A W i j, (i < K)%nat -> (j < K)%nat -> 1 <= n_P n i j -> A i j = true ->
  (forall i j, (i < K)%nat -> (j < K)%nat -> 0 < n_V n i j /\ 0 < W i j) ->
  ss_weights_ll lgam K n A W = Fin (weights_ll lgam K (fun _ _ => true) (n_kappa n) (n_V n) A W).
Proof.
  intros lgam K n A W i j Hi Hj HP HA H. unfold ss_weights_ll, weights_ll.
  rewrite (@esum_NaN K _ i Hi).
  2:{ apply esum_NaN with (i := j); [exact Hj|]. unfold lp_A_cell, rho_clip. rewrite HA.
      assert (/ 10 ^ 32 < 1) by (rewrite <- Rinv_1; apply Rinv_lt_contravar; lra).
      rewrite Rmax_left, Rmin_right by lra. replace (1 - 1) with 0 by ring. rewrite elog_0. cbn [b2R]. rewrite elog_fin by lra.
      replace (1 - 1) with 0 by ring. cbn. unfold einf_sign. rewrite !(proj2 (Rltb_false 0 0)) by lra. reflexivity. }
  rewrite (@esum2_fin K _ (fun i j => if (true && A i j)%bool then gamma_lpdf lgam (n_kappa n) (n_V n i j) (W i j) else 0)).
  2:{ intros a b Ha Hb. destruct (H a b Ha Hb) as (HV & HW). rewrite lp_W_fin by auto. destruct (A a b); cbn; f_equal; try ring. }
  cbn [nan_to_num eadd]. f_equal. ring.
Qed.

(** Gamma mixture: absent edges have Gamma(kappa0, nu0) weights. *)
Theorem C87_mixture_partial : forall lgam K kappa0 nu0 n A W, 0 < nu0 ->
  (forall i j, (i < K)%nat -> (j < K)%nat -> 0 < n_P n i j < 1 /\ 0 < n_V n i j /\ 0 < W i j) ->
  mix_weights_ll lgam K kappa0 nu0 n A W
  = Fin (edges_ll K (fun _ _ => true) (n_P n) A + all_weights_ll K (fun i j => gamma_lpdf lgam (n_kappa n) (n_V n i j)) (fun _ _ => gamma_lpdf lgam kappa0 nu0) A W).
Proof.
  intros lgam K kappa0 nu0 n A W Hn H. unfold mix_weights_ll, edges_ll, all_weights_ll.
  rewrite (@esum2_fin K _ (fun i j => bern_ll (n_P n i j) (A i j))) by (intros; apply lp_A_fin; apply H; auto).
  rewrite (@esum2_fin K _ (fun i j => if A i j then 0 else gamma_lpdf lgam kappa0 nu0 (W i j))).
  2:{ intros i j Hi Hj. destruct (A i j); [reflexivity|]. apply lp_W_fin; [auto|apply H; auto]. }
  rewrite (@esum2_fin K _ (fun i j => if A i j then gamma_lpdf lgam (n_kappa n) (n_V n i j) (W i j) else 0)).
  2:{ intros i j Hi Hj. destruct (A i j); [|reflexivity]. apply lp_W_fin; apply H; auto. }
  cbn [eadd]. f_equal. rewrite Rplus_assoc, <- Rsum2_plus. f_equal. apply Rsum2_ext. intros i j _ _. destruct (A i j); ring.
Qed.
(** With self-connections disallowed the mixture model's log prior is NaN, whatever the parameters. *)
Theorem C87_mixture_no_self_refuted : forall lgam K kappa0 nu0 n A W k, (k < K)%nat -> n_P n k k = 0 -> A k k = false ->
  mix_weights_ll lgam K kappa0 nu0 n A W = NaN.
Proof.
  intros lgam K kappa0 nu0 n A W k Hk HP HA. unfold mix_weights_ll.
  rewrite (@esum_NaN K _ k Hk); [reflexivity|]. apply esum_NaN with (i := k); [exact Hk|]. unfold lp_A_cell. rewrite HP, HA, elog_0.
  cbn. unfold einf_sign. rewrite !(proj2 (Rltb_false 0 0)) by lra. reflexivity.
Qed.

(** Impulse responses: the normalising constant has the wrong sign. *)
Theorem C87_impulses_partial : forall lgam K B gamma x,
  (forall i j b, (i < K)%nat -> (j < K)%nat -> (b < B)%nat -> 0 < x i j b) ->
  ir_ll lgam K B gamma x
  = Fin (impulse_lp lgam K B gamma x - 2 * INR K ^ 2 * (lgam (Rsum B gamma) - Rsum B (fun b => lgam (gamma b)))).
Proof.
  intros lgam K B gamma x H. unfold ir_ll, impulse_lp. cbv zeta.
  rewrite (@esum2_fin K _ (fun i j => Rsum B (fun b => (gamma b - 1) * ln (x i j b)))).
  2:{ intros i j Hi Hj. apply esum_fin. intros b Hb. rewrite elog_fin by auto. reflexivity. }
  cbn [eadd]. f_equal. unfold dirichlet_lpdf.
  rewrite (Rsum2_plus K (fun _ _ => lgam (Rsum B gamma) - Rsum B (fun b => lgam (gamma b))) (fun i j => Rsum B (fun b => (gamma b - 1) * ln (x i j b)))).
  rewrite Rsum_const, Rsum_const. ring.
Qed.
Theorem C87_impulses_refuted : forall lgam K B gamma x, (0 < K)%nat ->
  (forall i j b, (i < K)%nat -> (j < K)%nat -> (b < B)%nat -> 0 < x i j b) ->
  lgam (Rsum B gamma) <> Rsum B (fun b => lgam (gamma b)) ->
  ir_ll lgam K B gamma x <> Fin (impulse_lp lgam K B gamma x).
Proof.
  intros lgam K B gamma x HK H Hne E. rewrite C87_impulses_partial in E by auto. injection E as E.
  assert (0 < INR K) by now apply lt_0_INR. assert (0 < INR K ^ 2) by (apply pow_lt; auto). apply Hne.
  apply Rmult_eq_reg_l with (INR K ^ 2); nra.
Qed.

Definition ex_net : net := {| n_P := fun i j => if (i =? j)%nat then 0 else 1/3; n_V := fun _ _ => 2; n_kappa := 3 |}.
Example C87_nonvacuous : forall lgam,
  (forall i j, (i < 2)%nat -> (j < 2)%nat -> 0 < n_V ex_net i j /\ 0 < 1/2 /\
     (possible false i j = true -> / 10 ^ 32 <= n_P ex_net i j < 1) /\
     (possible false i j = false -> n_P ex_net i j = 0 /\ (i =? 0)%nat && (j =? 1)%nat = false)) /\
  edges_ll 2 (possible false) (n_P ex_net) (fun i j => (i =? 0)%nat && (j =? 1)%nat) = ln (1/3) + ln (1 - 1/3) /\
  weights_ll lgam 2 (possible false) 3 (n_V ex_net) (fun i j => (i =? 0)%nat && (j =? 1)%nat) (fun _ _ => 1/2) = gamma_lpdf lgam 3 2 (1/2).
Proof.
  intros lgam. assert (/ 10 ^ 32 < 1 / 3).
  { replace (1/3) with (/3) by lra. apply Rinv_lt_contravar; [|lra]. apply Rmult_lt_0_compat; lra. }
  split; [|split].
  - intros i j Hi Hj. cbn [ex_net n_V n_P]. unfold possible. cbn [orb]. split; [lra|]. split; [lra|].
    destruct (Nat.eqb_spec i j) as [->|Hne]; cbn [negb]; (split; [|]); intros E; try discriminate.
    + split; [reflexivity|]. destruct j as [|[|]]; reflexivity.
    + lra.
  - unfold edges_ll, possible, bern_ll. cbn. ring.
  - unfold weights_ll, possible. cbn. ring.
Qed.
Print Assumptions C87_bias.
Print Assumptions C87_spike_and_slab_partial.
Print Assumptions C87_certain_edge_refuted.
Print Assumptions C87_mixture_partial.
Print Assumptions C87_mixture_no_self_refuted.
Print Assumptions C87_impulses_partial.
Print Assumptions C87_impulses_refuted.

(* ------------------------------------------------------------------ *)
(** ** C88: log_probability against the joint log density *)

(** Log density of the network's own parameters. *)
Definition network_lp (lgam : R -> R) (no : netobj) : R :=
  match no with
  | NetSbm _ s => sbm_lp lgam (sb_K s) (sb_C s) (sb_pi s) (sb_tau1 s) (sb_tau0 s) (sb_alpha s) (sb_beta s) (sb_m s) (sb_c s) (sb_p s) (sb_v s)
  | NetEr n => match e_alpha n, e_beta n with Some a, Some b => gamma_lpdf lgam a b (e_v n) | _, _ => 0 end
  end.
(** Log density of edges and weights given the network. *)
Definition edges_weights_lp (lgam : R -> R) (st : gibbs) : R :=
  let m := gi_m st in let n := net_view (gi_net st) in let K := dm_K m in
  let sel := possible (net_allow (gi_net st)) in
  edges_ll K sel (n_P n) (dm_A m) +
  (if dm_mix m
   then all_weights_ll K (fun i j => gamma_lpdf lgam (n_kappa n) (n_V n i j)) (fun _ _ => gamma_lpdf lgam (h_kappa0 (gi_h st)) (h_nu0 (gi_h st))) (dm_A m) (dm_W m)
   else weights_ll lgam K sel (n_kappa n) (n_V n) (dm_A m) (dm_W m)).
(** The joint log density of data (log likelihood [ll]) and parameters. *)
Definition joint_lp (lgam : R -> R) (st : gibbs) (ll : R) : R :=
  let m := gi_m st in let h := gi_h st in
  ll + bias_lp lgam (dm_K m) (h_alpha h) (h_beta h) (dm_lam m) + impulse_lp lgam (dm_K m) (dm_B m) (h_gamma h) (dm_g m)
  + edges_weights_lp lgam st + network_lp lgam (gi_net st).

(** States in which the densities are finite: positive weights and scales, probabilities of possible edges in [1e-32, 1),
    no forbidden edge; the mixture model with self-connections allowed (see C87). *)
Definition regular (st : gibbs) : Prop :=
  let m := gi_m st in let n := net_view (gi_net st) in let allow := net_allow (gi_net st) in
  (dm_mix m = true -> allow = true /\ 0 < h_nu0 (gi_h st)) /\
  forall i j, (i < dm_K m)%nat -> (j < dm_K m)%nat -> 0 < n_V n i j /\ 0 < dm_W m i j /\
     (possible allow i j = true -> / 10 ^ 32 <= n_P n i j < 1) /\
     (possible allow i j = false -> n_P n i j = 0 /\ dm_A m i j = false).
(** 1e-32 stands in for the probability 0 of a forbidden self-connection. *)
Definition clip_offset (st : gibbs) : R :=
  if dm_mix (gi_m st) then 0 else if net_allow (gi_net st) then 0 else INR (dm_K (gi_m st)) * ln (1 - / 10 ^ 32).

(** What is reported: log likelihood plus the log prior of edges and weights, and nothing else. *)
Theorem C88_value_partial : forall lgam st L, regular st -> log_likelihood (gi_m st) All = Ok (Fin L) ->
  log_probability lgam st = Ok (Fin (L + edges_weights_lp lgam st + clip_offset st)).
Proof.
  intros lgam st L [HM HR] HL. unfold log_probability. rewrite HL. cbn [bindr]. unfold log_prior, edges_weights_lp, clip_offset. cbv zeta.
  assert (Hq : 0 < / 10 ^ 32) by (apply Rinv_0_lt_compat; lra).
  destruct (dm_mix (gi_m st)).
  - destruct (HM eq_refl) as [HA Hn]. rewrite C87_mixture_partial.
    + cbn [eadd]. do 2 f_equal. rewrite HA. change (possible true) with (fun _ _ : nat => true). ring.
    + exact Hn.
    + intros i j Hi Hj. destruct (HR i j Hi Hj) as (HV & HW & HP & _). rewrite HA in HP. specialize (HP eq_refl). split; [lra|auto].
  - rewrite (@C87_spike_and_slab_partial lgam (dm_K (gi_m st)) (net_allow (gi_net st))) by exact HR.
    cbn [eadd]. do 2 f_equal. ring.
Qed.
(** Hence, between two states that share background rates, impulse responses and network, differences of log_probability are differences of
    the joint log density. *)
Theorem C88_differences_partial : forall lgam st st' L L',
  regular st -> regular st' -> log_likelihood (gi_m st) All = Ok (Fin L) -> log_likelihood (gi_m st') All = Ok (Fin L') ->
  gi_net st' = gi_net st -> gi_h st' = gi_h st -> dm_K (gi_m st') = dm_K (gi_m st) -> dm_B (gi_m st') = dm_B (gi_m st) ->
  dm_mix (gi_m st') = dm_mix (gi_m st) -> dm_lam (gi_m st') = dm_lam (gi_m st) -> dm_g (gi_m st') = dm_g (gi_m st) ->
  exists x x', log_probability lgam st = Ok (Fin x) /\ log_probability lgam st' = Ok (Fin x') /\
  x' - x = joint_lp lgam st' L' - joint_lp lgam st L.
Proof.
  intros lgam st st' L L' R R' HL HL' En Eh EK EB Em El Eg.
  exists (L + edges_weights_lp lgam st + clip_offset st), (L' + edges_weights_lp lgam st' + clip_offset st').
  split; [now apply C88_value_partial|]. split; [now apply C88_value_partial|].
  unfold joint_lp, clip_offset. cbv zeta. rewrite En, Eh, EK, EB, Em, El, Eg. ring.
Qed.
(** But it is not the joint log density up to a constant: with no data, the rates and impulse responses do not enter at all. *)
Theorem C88_ignores_rates_refuted : forall lgam st k x y, dm_data (gi_m st) = [] ->
  (k < dm_K (gi_m st))%nat -> h_alpha (gi_h st) = 1 -> 0 < h_beta (gi_h st) -> x <> y ->
  let st1 := with_model st (with_lam (gi_m st) (upd (dm_lam (gi_m st)) k x)) in
  let st2 := with_model st (with_lam (gi_m st) (upd (dm_lam (gi_m st)) k y)) in
  log_likelihood (gi_m st1) All = Ok (Fin 0) /\ log_likelihood (gi_m st2) All = Ok (Fin 0) /\
  log_probability lgam st1 = log_probability lgam st2 /\ joint_lp lgam st1 0 <> joint_lp lgam st2 0.
Proof.
  intros lgam st k x y Hd Hk Ha Hb Hne st1 st2.
  assert (E1 : log_likelihood (gi_m st1) All = Ok (Fin 0)) by (unfold log_likelihood, st1; cbn; rewrite Hd; reflexivity).
  assert (E2 : log_likelihood (gi_m st2) All = Ok (Fin 0)) by (unfold log_likelihood, st2; cbn; rewrite Hd; reflexivity).
  split; [exact E1|]. split; [exact E2|]. split.
  - unfold log_probability. rewrite E1, E2. reflexivity.
  - unfold joint_lp, bias_lp. cbn [st1 st2 with_model gi_m gi_h gi_net with_lam dm_K dm_B dm_lam dm_g]. intros E.
    change (edges_weights_lp lgam st1) with (edges_weights_lp lgam st) in E.
    change (edges_weights_lp lgam st2) with (edges_weights_lp lgam st) in E.
    assert (E' : forall z, Rsum (dm_K (gi_m st)) (fun j => gamma_lpdf lgam (h_alpha (gi_h st)) (h_beta (gi_h st)) (upd (dm_lam (gi_m st)) k z j))
       = Rsum (dm_K (gi_m st)) (fun j => if (j =? k)%nat then gamma_lpdf lgam (h_alpha (gi_h st)) (h_beta (gi_h st)) z else 0)
         + Rsum (dm_K (gi_m st)) (fun j => if (j =? k)%nat then 0 else gamma_lpdf lgam (h_alpha (gi_h st)) (h_beta (gi_h st)) (dm_lam (gi_m st) j))).
    { intros z. rewrite <- Rsum_plus. apply Rsum_ext. intros j _. unfold upd. destruct (j =? k)%nat; ring. }
    rewrite !E' in E. rewrite !(@Rsum_single _ (fun j => if (j =? k)%nat then gamma_lpdf lgam _ _ _ else 0) k Hk) in E
      by (intros j _ Hj; destruct (Nat.eqb_spec j k); [contradiction|reflexivity]).
    rewrite Nat.eqb_refl in E. unfold gamma_lpdf in E. rewrite Ha in E. apply Hne. apply Rmult_eq_reg_l with (h_beta (gi_h st)); lra.
Qed.
(** Continuous time: log likelihood plus the background prior. *)
Theorem C88_continuous_value_partial : forall lgam alpha beta order m,
  params_ok m -> (forall k, (k < cm_K m)%nat -> 0 < cm_lam m k) ->
  (forall d, In d (cm_data m) -> data_ok (cm_K m) d /\ Permutation (order d) (seq 0 (cd_N d))) ->
  ct_log_probability lgam alpha beta order m
  = Fin (lsum (map (hawkes_loglik m) (cm_data m)) + bias_lp lgam (cm_K m) alpha beta (cm_lam m)).
Proof.
  intros lgam alpha beta order m Hp Hl Hd. unfold ct_log_probability, ct_log_prior.
  rewrite (proj2 (@C62_log_likelihood order m (cm_data m) Hp Hd) eq_refl), C87_bias by auto. cbn [eadd]. unfold ct_ir_lp. f_equal. ring.
Qed.
(** Adjacency, weights and impulse parameters have no prior term: with no data, they do not enter at all. *)
Theorem C88_continuous_ignores_weights_refuted : forall lgam alpha beta order m m',
  cm_data m = [] -> cm_data m' = [] -> cm_K m' = cm_K m -> cm_lam m' = cm_lam m ->
  ct_log_probability lgam alpha beta order m' = ct_log_probability lgam alpha beta order m.
Proof.
  intros lgam alpha beta order m m' E1 E2 EK El. unfold ct_log_probability, ct_log_prior, ct_log_likelihood. now rewrite E1, E2, EK, El.
Qed.
Definition ex_net_st : gibbs :=
  {| gi_m := ex_m; gi_net := NetEr {| e_K := 2; e_p := 1/2; e_kappa := 1; e_alpha := Some 1; e_beta := Some 1; e_v := 1; e_allow := true; e_mf := None |};
     gi_h := {| h_alpha := 1; h_beta := 2; h_gamma := fun _ => 1; h_kappa0 := 1; h_nu0 := 1; h_parallel := false; h_gsl := false |} |}.
Example C88_nonvacuous : regular ex_net_st /\ dm_data (gi_m ex_net_st) = [] /\ log_likelihood (gi_m ex_net_st) All = Ok (Fin 0) /\
  (0 < dm_K (gi_m ex_net_st))%nat /\ h_alpha (gi_h ex_net_st) = 1.
Proof.
  assert (/ 10 ^ 32 <= 1 / 2).
  { replace (1/2) with (/2) by lra. apply Rinv_le_contravar; lra. }
  split; [|cbn; repeat split; lia]. split; [split; [reflexivity|cbn; lra]|].
  intros i j Hi Hj. cbn. unfold er_V, er_P. cbn. split; [lra|]. split; [try destruct (Nat.eqb i j); lra|]. split; [lra|discriminate].
Qed.
Print Assumptions C88_value_partial.
Print Assumptions C88_differences_partial.
Print Assumptions C88_ignores_rates_refuted.
Print Assumptions C88_continuous_value_partial.
Print Assumptions C88_continuous_ignores_weights_refuted.

(* ------------------------------------------------------------------ *)
(** ** C89: network.log_probability *)
Lemma Rsum_mul_rows C f : Rsum (C * C) (fun r => f (r / C)%nat (r mod C)%nat) = Rsum C (fun a => Rsum C (fun b => f a b)).
Proof.
  destruct C as [|C]; [reflexivity|]. rewrite Rsum_mul. apply Rsum_ext. intros a Ha. apply Rsum_ext. intros b Hb.
  replace (a * S C + b)%nat with (b + a * S C)%nat by lia.
  rewrite Nat.div_add, Nat.mod_add, Nat.div_small, Nat.mod_small by lia. reflexivity.
Qed.
(** A block model reports its log prior density plus a constant depending on the number of blocks and the Beta prior
    only; the constant is 0 for one block. *)
Definition beta_norm (lgam : R -> R) (tau1 tau0 : R) : R := lgam (tau1 + tau0) - lgam tau1 - lgam tau0.
Definition sbm_offset (lgam : R -> R) (C : nat) (tau1 tau0 : R) : R :=
  let n := INR (C * C) in
  n * (lgam (n * (tau1 + tau0)) - n * (lgam tau1 + lgam tau0)) - n * beta_norm lgam tau1 tau0.
Theorem C89_block_model_partial : forall lgam s,
  labels_ok s -> sbm_pos s -> 0 < sb_beta s -> Rsum (sb_C s) (sb_m s) = 1 ->
  net_log_probability lgam (NetSbm false s)
  = Ok (Fin (network_lp lgam (NetSbm false s) + sbm_offset lgam (sb_C s) (sb_tau1 s) (sb_tau0 s))) /\
  (sb_C s = 1%nat -> sbm_offset lgam (sb_C s) (sb_tau1 s) (sb_tau0 s) = 0).
Proof.
  intros lgam s Hl [Hm Hp] Hbeta Hs. split.
  - cbn [net_log_probability network_lp]. unfold sbm_log_probability.
    destruct (@C71_dirichlet_single lgam (sb_C s) (fun _ => sb_pi s) (fun _ => sb_m s)) as (d & Ed & Vd).
    { exact Hm. } { exact Hs. }
    rewrite Ed. cbn [bindr]. unfold beta_lp. pose proof (@Rsum_one_pos _ _ Hs) as HC0.
    assert (Hpr : forall r, (r < sb_C s * sb_C s)%nat -> 0 < sb_p s (r / sb_C s)%nat (r mod sb_C s)%nat < 1).
    { intros r Hr. assert (Ha : (r / sb_C s < sb_C s)%nat) by (apply Nat.div_lt_upper_bound; lia).
      assert (Hb : (r mod sb_C s < sb_C s)%nat) by (apply Nat.mod_upper_bound; lia). destruct (Hp _ _ Ha Hb) as [H _]. exact H. }
    rewrite dirichlet_lp_ok; [|nia|lia| |].
    2:{ intros r [|b] Hr _; cbn [pair_rows]; specialize (Hpr r Hr); lra. }
    2:{ intros r Hr. cbn. lra. }
    cbn [bindr].
    rewrite (@esum_fin (sb_C s * sb_C s) _ (fun r => lgam (Rsum (sb_C s * sb_C s) (fun r' => Rsum 2 (pair_rows (fun _ => sb_tau1 s * 1) (fun _ => sb_tau0 s * 1) r'))) -
      Rsum (sb_C s * sb_C s) (fun r' => Rsum 2 (fun b => lgam (pair_rows (fun _ => sb_tau1 s * 1) (fun _ => sb_tau0 s * 1) r' b))) +
      Rsum 2 (fun b => (pair_rows (fun _ => sb_tau1 s * 1) (fun _ => sb_tau0 s * 1) r b - 1) * ln (pair_rows (fun r => sb_p s (r / sb_C s)%nat (r mod sb_C s)%nat) (fun r => 1 - sb_p s (r / sb_C s)%nat (r mod sb_C s)%nat) r b)))).
    2:{ intros r Hr. specialize (Hpr r Hr). rewrite (@esum_fin 2 _ (fun b => (pair_rows (fun _ => sb_tau1 s * 1) (fun _ => sb_tau0 s * 1) r b - 1) * ln (pair_rows (fun r => sb_p s (r / sb_C s)%nat (r mod sb_C s)%nat) (fun r => 1 - sb_p s (r / sb_C s)%nat (r mod sb_C s)%nat) r b))); [reflexivity|].
        intros [|b] _; rewrite elog_fin by (cbn [pair_rows]; lra); apply emul_fin. }
    rewrite Vd.
    rewrite (@esum_fin _ _ (fun k => ln (sb_m s (sb_c s k)))) by (intros k Hk; apply elog_fin, Hm, Hl, Hk).
    cbn [eadd]. do 2 f_equal. unfold sbm_lp.
    set (C := sb_C s). set (t1 := sb_tau1 s). set (t0 := sb_tau0 s).
    assert (En : Rsum (C * C) (fun r' => Rsum 2 (pair_rows (fun _ => t1 * 1) (fun _ => t0 * 1) r')) = INR (C * C) * (t1 + t0)).
    { rewrite <- Rsum_const. apply Rsum_ext. intros r _. cbn. ring. }
    assert (El : Rsum (C * C) (fun r' => Rsum 2 (fun b => lgam (pair_rows (fun _ => t1 * 1) (fun _ => t0 * 1) r' b)))
                 = INR (C * C) * (lgam t1 + lgam t0)).
    { rewrite <- Rsum_const. apply Rsum_ext. intros r _. cbn. rewrite !Rmult_1_r. ring. }
    rewrite En, El.
    rewrite (@Rsum_ext (C * C) (fun r => lgam (INR (C * C) * (t1 + t0)) - INR (C * C) * (lgam t1 + lgam t0) + _)
      (fun r => (lgam (INR (C * C) * (t1 + t0)) - INR (C * C) * (lgam t1 + lgam t0) - beta_norm lgam t1 t0)
                + beta_lpdf lgam t1 t0 (sb_p s (r / C)%nat (r mod C)%nat))).
    2:{ intros r _. unfold beta_lpdf, beta_norm. cbn. rewrite !Rmult_1_r. ring. }
    rewrite Rsum_plus, Rsum_const, (Rsum_mul_rows C (fun a b => beta_lpdf lgam t1 t0 (sb_p s a b))).
    unfold sbm_offset. cbv zeta.
    rewrite (@Rsum2_ext C (fun i j => gamma_lp lgam (sb_alpha s) (sb_beta s) (sb_v s i j)) (fun i j => gamma_lpdf lgam (sb_alpha s) (sb_beta s) (sb_v s i j)))
      by (intros i j Hi Hj; apply C71_gamma_log_probability; [exact Hbeta|now apply Hp]).
    ring.
  - intros ->. unfold sbm_offset, beta_norm. cbn. rewrite !Rmult_1_l. ring.
Qed.
(** With two blocks and a uniform prior on the probabilities the reported value is off by 4 ln 7!. *)
Theorem C89_block_normaliser_refuted : forall lgam, lgam 1 = 0 -> lgam 2 = 0 -> lgam 8 = ln 5040 ->
  sbm_offset lgam 2 1 1 = 4 * ln 5040 /\ sbm_offset lgam 2 1 1 <> 0.
Proof.
  intros lgam H1 H2 H8. assert (E : sbm_offset lgam 2 1 1 = 4 * ln 5040).
  { unfold sbm_offset, beta_norm. cbv zeta. replace (INR (2 * 2)) with 4 by (cbn; ring).
    replace (4 * (1 + 1)) with 8 by ring. replace (1 + 1) with 2 by ring. rewrite H1, H2, H8. ring. }
  split; [exact E|]. rewrite E. assert (0 < ln 5040) by (rewrite <- ln_1; apply ln_increasing; lra). lra.
Qed.
(** Networks with fixed sparsity and Erdos-Renyi networks cannot report a value. *)
Theorem C89_other_networks_raise_refuted : forall lgam s n,
  net_log_probability lgam (NetSbm true s) = Raise ValueError /\ net_log_probability lgam (NetEr n) = Raise AttributeError.
Proof. intros. split; reflexivity. Qed.
Example C89_nonvacuous : labels_ok (ex_sbm true) /\ sbm_pos (ex_sbm true) /\ 0 < sb_beta (ex_sbm true) /\ Rsum (sb_C (ex_sbm true)) (sb_m (ex_sbm true)) = 1.
Proof.
  destruct C31_nonvacuous as (H1 & H2 & _). split; [exact H2|]. split; [exact H1|]. cbn. lra.
Qed.
Print Assumptions C89_block_model_partial.
Print Assumptions C89_block_normaliser_refuted.
Print Assumptions C89_other_networks_raise_refuted.
