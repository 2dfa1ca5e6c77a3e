(** * Props_Nonlinear: C43 (nonlinear), C53 (nonlinear), C56, C57, C74, C75. *)
From Verif Require Import Prelude ExtReal Arrays Spec_Basis Spec_Discrete M_Basis L_Basis M_Parents M_Discrete L_Discrete
  Props_Discrete M_MeanField M_Standard Props_Network L_Standard Props_Standard M_Nonlinear.
Set Implicit Arguments.
Open Scope R_scope.
Local Arguments eadd : simpl never.
Local Arguments emul : simpl never.

(* ------------------------------------------------------------------ *)
(** ** C56 *)

Theorem C56_links_invert :
  (forall x, n_invlink Linear (n_link Linear (Fin x)) = Fin x /\ n_link Linear (n_invlink Linear (Fin x)) = Fin x) /\
  (forall x, n_invlink Homog (n_link Homog (Fin x)) = Fin x /\ n_link Homog (n_invlink Homog (Fin x)) = Fin x) /\
  (forall psi, n_invlink Expo (n_link Expo (Fin psi)) = Fin psi) /\
  (forall lam, 0 < lam -> n_link Expo (n_invlink Expo (Fin lam)) = Fin lam).
Proof.
  repeat split.
  - intros psi. cbn [n_link n_invlink eexp]. rewrite elog_fin by apply exp_pos. now rewrite ln_exp.
  - intros lam Hl. cbn [n_link n_invlink]. rewrite elog_fin by auto. cbn [eexp]. now rewrite exp_ln.
Qed.
Print Assumptions C56_links_invert.

Lemma relu_link x : n_link Relu (Fin x) = Fin (/ 10 ^ 16 + ln (1 + exp x)).
Proof.
  cbn [n_link eexp]. rewrite eadd_fin, elog_fin by (pose proof (exp_pos x); lra). now rewrite eadd_fin.
Qed.
Lemma relu_invlink x : 0 < x -> n_invlink Relu (Fin x) = Fin (ln (exp x - 1)).
Proof.
  intros Hx. cbn [n_invlink eexp]. rewrite esub_fin, elog_fin; [reflexivity|].
  pose proof (exp_ineq1 x ltac:(lra)). lra.
Qed.
(** For the softplus node the inverse link is not an inverse: the rate comes back 1e-16 too large, and the
    pre-activation strictly too large. *)
Theorem C56_relu_link_refuted :
  (forall lam, 0 < lam -> n_link Relu (n_invlink Relu (Fin lam)) = Fin (lam + / 10 ^ 16)) /\
  (forall psi, exists y, n_invlink Relu (n_link Relu (Fin psi)) = Fin y /\ psi < y).
Proof.
  split.
  - intros lam Hl. rewrite relu_invlink by auto. rewrite relu_link.
    pose proof (exp_ineq1 lam ltac:(lra)). rewrite exp_ln by lra. f_equal.
    replace (1 + (exp lam - 1)) with (exp lam) by ring. rewrite ln_exp. ring.
  - intros psi. rewrite relu_link. pose proof (exp_pos psi) as Hp.
    assert (Hl : 0 < ln (1 + exp psi)) by (rewrite <- ln_1; apply ln_increasing; lra).
    rewrite relu_invlink by lra. eexists; split; [reflexivity|].
    rewrite exp_plus, exp_ln by lra.
    assert (He : 1 < exp (/ 10 ^ 16)). { pose proof (exp_ineq1 (/ 10 ^ 16) ltac:(lra)). lra. }
    rewrite <- (ln_exp psi) at 1. apply ln_increasing; [auto|]. nra.
Qed.
Print Assumptions C56_relu_link_refuted.

(** A silent node has rate 0, whose inverse link is minus infinity for the softplus and exponential nodes. *)
Theorem C56_silent_rate_refuted : n_invlink Relu (Fin 0) = NInf /\ n_invlink Expo (Fin 0) = NInf.
Proof.
  split; [|apply elog_0]. cbn [n_invlink eexp]. rewrite exp_0, esub_fin. replace (1 - 1) with 0 by ring. apply elog_0.
Qed.
Print Assumptions C56_silent_rate_refuted.

(** Filtered data without the bias column is never accepted; *)
Theorem C56_add_data_without_bias_refuted :
  forall n T F S_, n_add_data n {| fm_rows := T; fm_cols := (n_K n * n_B n)%nat; fm_at := F |} T true S_ = Raise ValueError.
Proof.
  intros n T F S_. unfold n_add_data. cbn [fm_rows fm_cols]. rewrite !Nat.eqb_refl. reflexivity.
Qed.
Print Assumptions C56_add_data_without_bias_refuted.
(** with the bias column it is stored as given, and any other shape is rejected. *)
Theorem C56_add_data_partial :
  forall n F slen sint S_,
  (slen = fm_rows F -> sint = true -> fm_cols F = (1 + n_K n * n_B n)%nat ->
    n_add_data n F slen sint S_ = Ok (n_with_data n (n_data n ++ [{| nd_T := fm_rows F; nd_F := fm_at F; nd_S := S_ |}]))) /\
  (slen <> fm_rows F \/ sint = false \/ fm_cols F <> (1 + n_K n * n_B n)%nat -> exists e, n_add_data n F slen sint S_ = Raise e).
Proof.
  intros n F slen sint S_. unfold n_add_data. split.
  - intros -> -> ->. rewrite Nat.eqb_refl. cbn [andb guard bindr].
    destruct (Nat.eqb_spec (1 + n_K n * n_B n) (n_K n * n_B n)); [lia|]. now rewrite Nat.eqb_refl.
  - intros H. destruct (Nat.eqb_spec slen (fm_rows F)) as [E|E]; cbn [andb guard bindr]; [|eauto].
    destruct sint; cbn [guard bindr]; [|eauto].
    destruct (Nat.eqb_spec (fm_cols F) (n_K n * n_B n)); [cbn; eauto|].
    destruct (Nat.eqb_spec (fm_cols F) (1 + n_K n * n_B n)); cbn [guard bindr]; [|eauto].
    exfalso. destruct H as [H|[H|H]]; congruence.
Qed.
Print Assumptions C56_add_data_partial.

(* ------------------------------------------------------------------ *)
(** ** C57 *)

Definition finw (w : vec) : nat -> er := fun j => Fin (w j).
Definition psi_fin (P : nat) (w : vec) (d : ndata) (t : nat) : R := Rsum P (fun j => nd_F d t j * w j).
Lemma n_psi_fin P w d t : n_psi P (finw w) d t = Fin (psi_fin P w d t).
Proof. unfold n_psi, psi_fin. apply esum_fin. intros j _. unfold finw. now rewrite emul_fin. Qed.

(** Rates of a node at finite weights. *)
Definition link_val (k : nkind) (x : R) : R :=
  match k with Linear | Homog => x | Relu => / 10 ^ 16 + ln (1 + exp x) | Expo => exp x end.
Lemma n_link_fin k x : n_link k (Fin x) = Fin (link_val k x).
Proof. destruct k; [reflexivity|apply relu_link|reflexivity|reflexivity]. Qed.
Definition node_rate (n : nnode) (w : vec) (d : ndata) (t : nat) : R := link_val (n_kind n) (psi_fin (n_P n) w d t).
Definition node_rates_pos (n : nnode) (w : vec) : Prop := forall d t, In d (n_data n) -> (t < nd_T d)%nat -> 0 < node_rate n w d t.
Definition node_ll (n : nnode) (w : vec) (d : ndata) : R :=
  Rsum (nd_T d) (fun t => IZR (nd_S d t) * ln (node_rate n w d t) - node_rate n w d t * n_dt n).
Lemma n_ll_data_fin n w d : (forall t, (t < nd_T d)%nat -> 0 < node_rate n w d t) -> n_ll_data n (finw w) d = Fin (node_ll n w d).
Proof.
  intros H. unfold n_ll_data, node_ll. apply esum_fin. intros t Ht. cbv zeta. rewrite n_psi_fin, n_link_fin.
  fold (node_rate n w d t). rewrite elog_fin by auto. now rewrite !emul_fin, esub_fin.
Qed.
Lemma relu_expo_pos n w : n_kind n = Relu \/ n_kind n = Expo -> node_rates_pos n w.
Proof.
  intros H d t _ _. unfold node_rate, link_val. destruct H as [-> | ->]; [|apply exp_pos].
  pose proof (exp_pos (psi_fin (n_P n) w d t)). assert (0 < ln (1 + exp (psi_fin (n_P n) w d t))) by (rewrite <- ln_1; apply ln_increasing; lra). lra.
Qed.

(** The penalties as mathematics: precision [1/sigma^2] (0 for sigma = inf), lambda. *)
Definition sigma_prec (sigma : er) (prec : R) : Prop := (sigma = PInf /\ prec = 0) \/ (exists s, sigma = Fin s /\ s <> 0 /\ prec = / (s * s)).

(** objective(w) is the negative log likelihood at w plus half the squared weights over sigma^2 plus lambda times the
    absolute weights (bias excluded), all divided by the number of events. *)
Theorem C57_objective :
  forall n w prec l, 0 < n_total n -> node_rates_pos n w -> sigma_prec (n_sigma n) prec -> n_lmbda n = Fin l ->
  exists ll, n_log_likelihood (n_with_w n (finw w)) None = Ok (Fin ll) /\
  n_objective n w = Fin ((- ll + prec / 2 * Rsum (n_K n * n_B n) (fun j => w (1 + j)%nat ^ 2)
                          + l * Rsum (n_K n * n_B n) (fun j => Rabs (w (1 + j)%nat))) / n_total n).
Proof.
  intros n w prec l HN Hr Hs Hl.
  exists (lsum (map (node_ll n w) (n_data n))). split.
  { unfold n_log_likelihood. cbn [n_data n_w n_with_w]. f_equal. apply elsum_map_fin. intros d Hd.
    change (n_ll_data (n_with_w n (finw w)) (finw w) d) with (n_ll_data n (finw w) d). apply n_ll_data_fin. intros t Ht. now apply Hr. }
  assert (Hfold : forall ds acc, (forall d, In d ds -> In d (n_data n)) ->
    fold_left (fun acc d => esub acc (ediv (n_ll_data n (finw w) d) (Fin (n_total n)))) ds (Fin acc)
    = Fin (acc - lsum (map (node_ll n w) ds) / n_total n)).
  { induction ds as [|d ds IH]; intros acc Hin; cbn [fold_left map lsum].
    - f_equal. field. lra.
    - rewrite n_ll_data_fin by (intros t Ht; apply Hr; auto; apply Hin; now left).
      rewrite ediv_fin by lra. rewrite esub_fin, IH by (intros; apply Hin; now right). f_equal. field. lra. }
  unfold n_objective. cbv zeta. change (fun j : nat => Fin (w j)) with (finw w). rewrite Hfold by auto.
  replace (n_P n - 1)%nat with (n_K n * n_B n)%nat by (unfold n_P; lia).
  assert (E1 : ediv (Fin (1 / 2 * Rsum (n_K n * n_B n) (fun j => w (S j) * w (S j)))) (emul (n_sigma n) (n_sigma n))
    = Fin (prec / 2 * Rsum (n_K n * n_B n) (fun j => w (1 + j)%nat ^ 2))).
  { assert (Es : Rsum (n_K n * n_B n) (fun j => w (1 + j)%nat ^ 2) = Rsum (n_K n * n_B n) (fun j => w (S j) * w (S j))).
    { apply Rsum_ext; intros. cbn [Nat.add]. ring. }
    rewrite Es. destruct Hs as [(-> & ->)|(s & -> & Hs0 & ->)].
    - unfold emul, ediv. f_equal. field.
    - rewrite emul_fin, ediv_fin by nra. f_equal. field. auto. }
  rewrite E1, ediv_fin, eadd_fin by lra. rewrite Hl.
  rewrite (@esum_fin _ _ (fun j => Rabs (w (S j)) * l)) by (intros; now rewrite emul_fin).
  rewrite ediv_fin, eadd_fin by lra. f_equal. rewrite Rsum_scal_r. cbn [Nat.add]. field. lra.
Qed.
Print Assumptions C57_objective.

(** With the node's own defaults (lmbda = inf) the objective at zero weights is NaN: there is no penalty-free default. *)
Theorem C57_default_node_objective_refuted :
  forall k K B dt data, (0 < K * B)%nat ->
  n_objective (n_with_data (n_init k K B dt None None) data) (fun _ => 0) = NaN.
Proof.
  intros k K B dt data HKB. unfold n_objective. cbv zeta.
  cbn [n_lmbda n_init n_with_data n_P n_K n_B].
  assert (E : esum (n_P (n_with_data (n_init k K B dt None None) data) - 1) (fun j => emul (Fin (Rabs 0)) PInf) = NaN).
  { apply esum_NaN with (i := 0%nat); [unfold n_P; cbn [n_K n_B n_init n_with_data]; lia|].
    rewrite Rabs_R0. unfold emul, einf_sign. now rewrite (proj2 (Rltb_false 0 0)) by lra. }
  rewrite E. cbn [ediv]. apply eadd_NaN_r.
Qed.
Print Assumptions C57_default_node_objective_refuted.

(** *** W, G and bias *)
(** All nodes have finite weights [w k j]. *)
Definition fin_weights (p : nproc) (w : mat) : Prop :=
  length (p_nodes p) = p_K p /\ forall k, (k < p_K p)%nat -> exists n, nth_error (p_nodes p) k = Some n /\ (forall j, n_w n j = Fin (w k j)).
Lemma n_w_at_fin p w k j : fin_weights p w -> (k < p_K p)%nat -> n_w_at p k j = Fin (w k j).
Proof. intros (_ & H) Hk. unfold n_w_at. destruct (H k Hk) as (n & E & Hw). now rewrite E. Qed.
Definition block_sum (p : nproc) (w : mat) (k1 k2 : nat) : R := Rsum (p_B p) (fun b => w k2 (1 + (k1 * p_B p + b))%nat).
Lemma p_W_fin p w k1 k2 : fin_weights p w -> (k2 < p_K p)%nat -> p_W p k1 k2 = Fin (block_sum p w k1 k2).
Proof. intros H Hk. unfold p_W, block_sum. apply esum_fin. intros b _. now apply n_w_at_fin. Qed.

(** Rows with a non-zero block sum are normalised exactly. *)
Theorem C57_G_rows_sum_to_one_partial :
  forall p w k1 k2, fin_weights p w -> (k2 < p_K p)%nat -> block_sum p w k1 k2 <> 0 ->
  (forall b, p_G p k1 k2 b = Fin (w k2 (1 + (k1 * p_B p + b))%nat / block_sum p w k1 k2)) /\
  esum (p_B p) (fun b => p_G p k1 k2 b) = Fin 1.
Proof.
  intros p w k1 k2 Hf Hk Hb.
  assert (H0 : forall b, p_G0 p k1 k2 b = Fin (w k2 (1 + (k1 * p_B p + b))%nat / block_sum p w k1 k2)).
  { intros b. unfold p_G0. rewrite (@n_w_at_fin p w), (@p_W_fin p w) by auto. now rewrite ediv_fin. }
  assert (Hs : esum (p_B p) (fun b => p_G0 p k1 k2 b) = Fin 1).
  { rewrite (@esum_fin _ _ (fun b => w k2 (1 + (k1 * p_B p + b))%nat / block_sum p w k1 k2)) by auto.
    rewrite Rsum_div. f_equal. change (Rsum (p_B p) (fun i => w k2 (1 + (k1 * p_B p + i))%nat)) with (block_sum p w k1 k2). field. auto. }
  assert (HG : forall b, p_G p k1 k2 b = p_G0 p k1 k2 b).
  { intros b. unfold p_G. rewrite Hs, elt_fin, (proj2 (Rltb_false 1 (/ 10 ^ 2))) by lra. reflexivity. }
  split; [intros b; now rewrite HG|]. rewrite <- Hs. apply esum_ext. intros b _. apply HG.
Qed.
Print Assumptions C57_G_rows_sum_to_one_partial.

(* sums containing infinities *)
Lemma esum_inf_cases B (f : nat -> R) :
  (forall b, (b < B)%nat -> f b <> 0) ->
  esum B (fun b => einf_sign (f b) true) = 
    (if existsb (fun b => Rltb 0 (f b)) (seq 0 B) then (if existsb (fun b => Rltb (f b) 0) (seq 0 B) then NaN else PInf)
     else (if existsb (fun b => Rltb (f b) 0) (seq 0 B) then NInf else Fin 0)).
Proof.
  induction B as [|B IH]; intros H; [reflexivity|]. cbn [esum]. rewrite IH by (intros; apply H; lia).
  rewrite seq_S, !existsb_app. cbn [existsb Nat.add]. rewrite !orb_false_r. unfold einf_sign.
  destruct (Rltb 0 (f B)) eqn:E1, (Rltb (f B) 0) eqn:E2.
  - apply Rltb_true in E1, E2. lra.
  - rewrite orb_true_r, orb_false_r. destruct (existsb (fun b => Rltb 0 (f b)) (seq 0 B)), (existsb (fun b => Rltb (f b) 0) (seq 0 B)); reflexivity.
  - rewrite orb_true_r, orb_false_r. destruct (existsb (fun b => Rltb 0 (f b)) (seq 0 B)), (existsb (fun b => Rltb (f b) 0) (seq 0 B)); reflexivity.
  - apply Rltb_false in E1, E2. exfalso. apply (H B); [lia|lra].
Qed.

(** Rows whose block sum is 0 (in particular all-zero rows: a freshly constructed or silent model) become NaN or
    infinite; the fallback to a uniform row is never taken, whatever the finite weights. *)
Theorem C57_zero_rows_not_uniform_refuted :
  forall p w k1 k2, fin_weights p w -> (0 < p_B p)%nat -> (k2 < p_K p)%nat -> block_sum p w k1 k2 = 0 ->
  esum (p_B p) (fun b => p_G p k1 k2 b) = NaN /\ forall b, (b < p_B p)%nat -> efinite (p_G p k1 k2 b) = false.
Proof.
  intros p w k1 k2 Hf HB Hk Hb.
  assert (H0 : forall b, p_G0 p k1 k2 b = einf_sign (w k2 (1 + (k1 * p_B p + b))%nat) true).
  { intros b. unfold p_G0. rewrite (@n_w_at_fin p w), (@p_W_fin p w) by auto. rewrite Hb. unfold ediv.
    rewrite (proj2 (Reqb_true 0 0)) by reflexivity. reflexivity. }
  set (f := fun b => w k2 (1 + (k1 * p_B p + b))%nat) in *.
  assert (Hs : esum (p_B p) (fun b => p_G0 p k1 k2 b) = NaN).
  { rewrite (@esum_ext _ (fun b => p_G0 p k1 k2 b) (fun b => einf_sign (f b) true)); [|intros b _; exact (H0 b)].
    destruct (existsb (fun b => Reqb (f b) 0) (seq 0 (p_B p))) eqn:Ez.
    - apply existsb_exists in Ez as (b & Hin & E). apply in_seq in Hin. apply Reqb_true in E.
      apply esum_NaN with (i := b); [lia|]. rewrite E. unfold einf_sign. now rewrite (proj2 (Rltb_false 0 0)) by lra.
    - assert (Hnz : forall b, (b < p_B p)%nat -> f b <> 0).
      { intros b Hlt E. assert (existsb (fun b => Reqb (f b) 0) (seq 0 (p_B p)) = true); [|congruence].
        apply existsb_exists. exists b. split; [apply in_seq; lia|]. now apply Reqb_true. }
      rewrite esum_inf_cases by auto.
      assert (Hsum : Rsum (p_B p) f = 0) by exact Hb.
      destruct (existsb (fun b => Rltb 0 (f b)) (seq 0 (p_B p))) eqn:Ep, (existsb (fun b => Rltb (f b) 0) (seq 0 (p_B p))) eqn:En; [reflexivity| | |].
      + exfalso. assert (Hpos : forall b, (b < p_B p)%nat -> 0 < f b).
        { intros b Hlt. destruct (Rtotal_order 0 (f b)) as [H|[H|H]]; [auto| |].
          - exfalso. now apply (Hnz b Hlt).
          - exfalso. assert (existsb (fun b => Rltb (f b) 0) (seq 0 (p_B p)) = true); [|congruence].
            apply existsb_exists. exists b. split; [apply in_seq; lia|]. apply Rltb_true. lra. }
        pose proof (@Rsum_pos (p_B p) f HB Hpos). lra.
      + exfalso. assert (Hpos : forall b, (b < p_B p)%nat -> 0 < - f b).
        { intros b Hlt. destruct (Rtotal_order 0 (f b)) as [H|[H|H]].
          - exfalso. assert (existsb (fun b => Rltb 0 (f b)) (seq 0 (p_B p)) = true); [|congruence].
            apply existsb_exists. exists b. split; [apply in_seq; lia|]. now apply Rltb_true.
          - exfalso. now apply (Hnz b Hlt).
          - lra. }
        pose proof (@Rsum_pos (p_B p) (fun b => - f b) HB Hpos) as H. rewrite Rsum_opp in H. lra.
      + exfalso. destruct (Rtotal_order 0 (f 0%nat)) as [H|[H|H]].
        * assert (existsb (fun b => Rltb 0 (f b)) (seq 0 (p_B p)) = true); [|congruence].
          apply existsb_exists. exists 0%nat. split; [apply in_seq; lia|]. now apply Rltb_true.
        * now apply (Hnz 0%nat HB).
        * assert (existsb (fun b => Rltb (f b) 0) (seq 0 (p_B p)) = true); [|congruence].
          apply existsb_exists. exists 0%nat. split; [apply in_seq; lia|]. apply Rltb_true. lra. }
  assert (HG : forall b, p_G p k1 k2 b = p_G0 p k1 k2 b) by (intros b; unfold p_G; now rewrite Hs).
  split.
  - rewrite <- Hs. apply esum_ext. intros; apply HG.
  - intros b _. rewrite HG, H0. unfold einf_sign. destruct (Rltb 0 _); [reflexivity|]. destruct (Rltb _ 0); reflexivity.
Qed.
Print Assumptions C57_zero_rows_not_uniform_refuted.

(** Every newly constructed process is such a model. *)
Lemma p_init_fin k K B dt sigma lmbda L bas : fin_weights (p_init k K B dt sigma lmbda L bas) (fun _ _ => 0).
Proof.
  split; [cbn; now rewrite map_length, seq_length|]. cbn [p_K p_init p_nodes]. intros i Hi.
  eexists. split.
  { rewrite nth_error_map. rewrite (@nth_error_nth' _ (seq 0 K) i 0%nat) by now rewrite seq_length. reflexivity. }
  intros j; reflexivity.
Qed.
Theorem C57_fresh_model_G_refuted :
  forall k K B dt sigma lmbda L bas k1 k2 b, (k2 < K)%nat -> (b < B)%nat ->
  p_W (p_init k K B dt sigma lmbda L bas) k1 k2 = Fin 0 /\ efinite (p_G (p_init k K B dt sigma lmbda L bas) k1 k2 b) = false.
Proof.
  intros k K B dt sigma lmbda L bas k1 k2 b Hk Hb. pose proof (p_init_fin k K B dt sigma lmbda L bas) as Hf.
  assert (H0 : block_sum (p_init k K B dt sigma lmbda L bas) (fun _ _ => 0) k1 k2 = 0) by (unfold block_sum; apply Rsum_0; reflexivity).
  split.
  - rewrite (@p_W_fin _ (fun _ _ => 0)) by auto. now rewrite H0.
  - apply (@C57_zero_rows_not_uniform_refuted _ (fun _ _ => 0) k1 k2); auto. cbn [p_B p_init]. lia.
Qed.
Print Assumptions C57_fresh_model_G_refuted.
