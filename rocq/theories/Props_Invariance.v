(** * C97: a complete adjacency update leaves the posterior distribution over networks invariant. *)
From Coquelicot Require Import Coquelicot.
From Coq Require Import FunctionalExtensionality Permutation.
From Verif Require Import Prelude ExtReal Arrays M_Basis M_Parents M_Discrete M_Gibbs M_Dist M_Network M_Sweep M_Continuous.
From Verif Require Import Spec_Gibbs Spec_Gamma Spec_Continuous Spec_Invariance L_Invariance L_Euler L_Gibbs L_Sweep L_Continuous.
From Verif Require Import Props_Discrete Props_Gibbs Props_Network Props_Continuous Props_Continuous2 Props_Continuous3 Props_Continuous4.
Set Implicit Arguments.
Open Scope R_scope.

(** An update result A' from A in which entry (k1,k2) is present exactly when its uniform falls below q k1 k2 M, where M has
    the rows above k1 already updated in column k2, is the row-major scan with q. *)
Definition sequential (K : nat) (q : nat -> nat -> bmat -> R) (u : mat) (A A' : bmat) : Prop :=
  forall k1 k2 (M : bmat), (k1 < K)%nat -> (k2 < K)%nat ->
    (forall i, (i < K)%nat -> M i k2 = if Nat.ltb i k1 then A' i k2 else A i k2) ->
    (A' k1 k2 = true <-> u k1 k2 < q k1 k2 M).
Lemma scan_row K q u A A' r : sequential K q u A A' -> (r < K)%nat ->
  forall n c S, (c + n = K)%nat -> (forall i j, (i < K)%nat -> (j < K)%nat -> S i j = if (Nat.ltb i r || (Nat.eqb i r && Nat.ltb j c))%bool then A' i j else A i j) ->
  forall i j, (i < K)%nat -> (j < K)%nat -> scan q (map (fun y => (r, y)) (seq c n)) u S i j = if Nat.ltb i (r + 1) then A' i j else A i j.
Proof.
  intros Hseq Hr. induction n as [|n IH]; intros c S Hc HS i j Hi Hj; cbn [seq map].
  - unfold scan; cbn [fold_left]. rewrite HS by auto. destruct (Nat.ltb_spec i r), (Nat.eqb_spec i r), (Nat.ltb_spec i (r + 1)), (Nat.ltb_spec j c); cbn [orb andb]; try reflexivity; lia.
  - unfold scan. cbn [fold_left fst snd]. fold (scan q (map (fun y => (r, y)) (seq (Datatypes.S c) n)) u (upd2 S r c (Rltb (u r c) (q r c S)))).
    apply IH; auto; [lia|]. intros a b Ha Hb. unfold upd2.
    destruct (Nat.eqb_spec a r) as [->|Hne]; destruct (Nat.eqb_spec b c) as [->|Hnb]; cbn [andb].
    + rewrite Nat.ltb_irrefl. cbn [orb]. rewrite (proj2 (Nat.ltb_lt c (Datatypes.S c))) by lia.
      assert (HM : A' r c = true <-> u r c < q r c S).
      { apply Hseq; auto. intros a Ha'. rewrite HS by auto. rewrite Nat.ltb_irrefl, andb_false_r, orb_false_r. reflexivity. }
      destruct (A' r c) eqn:E.
      * apply Rltb_true. now apply HM.
      * apply Rltb_false. destruct (Rlt_dec (u r c) (q r c S)) as [Hl|Hl]; [apply HM in Hl; discriminate|lra].
    + rewrite HS by auto. rewrite Nat.eqb_refl, Nat.ltb_irrefl. cbn [orb andb].
      destruct (Nat.ltb_spec b c), (Nat.ltb_spec b (Datatypes.S c)); try reflexivity; lia.
    + rewrite HS by auto. rewrite (proj2 (Nat.eqb_neq a r)) by auto. reflexivity.
    + rewrite HS by auto. rewrite (proj2 (Nat.eqb_neq a r)) by auto. reflexivity.
Qed.
Lemma scan_app q l1 l2 u A : scan q (l1 ++ l2) u A = scan q l2 u (scan q l1 u A).
Proof. unfold scan. apply fold_left_app. Qed.
Lemma sequential_scan K q u A A' : sequential K q u A A' ->
  forall i j, (i < K)%nat -> (j < K)%nat -> A' i j = scan q (pairs K) u A i j.
Proof.
  intros Hseq.
  assert (G : forall n r S, (r + n = K)%nat -> (forall i j, (i < K)%nat -> (j < K)%nat -> S i j = if Nat.ltb i r then A' i j else A i j) ->
    forall i j, (i < K)%nat -> (j < K)%nat -> scan q (list_prod (seq r n) (seq 0 K)) u S i j = A' i j).
  { induction n as [|n IH]; intros r S Hr HS i j Hi Hj; cbn [seq list_prod].
    - unfold scan; cbn [fold_left]. rewrite HS by auto. destruct (Nat.ltb_spec i r); [reflexivity|lia].
    - rewrite scan_app. apply IH; auto; [lia|]. intros a b Ha Hb. rewrite (@scan_row K q u A A' r Hseq) by (auto; try lia; intros i' j' Hi' Hj'; rewrite HS by auto; rewrite (proj2 (Nat.ltb_ge j' 0)), andb_false_r, orb_false_r by lia; reflexivity).
      replace (r + 1)%nat with (Datatypes.S r) by lia. reflexivity. }
  intros i j Hi Hj. symmetry. unfold pairs. apply (G K 0%nat A); auto.
Qed.

(** The general statement: any update that draws the entries one after the other from their posteriors given the others. *)
Lemma sequential_invariant K P (L : bmat -> R) F (upd : bmat -> mat -> bmat) :
  (forall i j, (i < K)%nat -> (j < K)%nat -> 0 <= P i j <= 1) -> on_nodes K F ->
  (forall A u, (forall i j, (i < K)%nat -> (j < K)%nat -> 0 < u i j < 1) ->
     sequential K (fun i j M => edge_posterior (P i j) (L (upd2 M i j false)) (L (upd2 M i j true))) u A (upd A u)) ->
  exists e : bmat -> R, (forall A, uniform_mean K (fun u => F (upd A u)) (e A)) /\
    over_networks K (fun A => exp (L A) * edge_prior K P A * e A) = over_networks K (fun A => exp (L A) * edge_prior K P A * F A).
Proof.
  intros HP HF Hs. set (q := fun i j M => edge_posterior (P i j) (L (upd2 M i j false)) (L (upd2 M i j true))).
  exists (kern q (pairs K) F). split.
  - intros A u0. eapply is_mean_ext; [apply pairs_NoDup| |apply (@scan_mean q (pairs K) F (pairs_NoDup K))].
    + intros u' Hu'. cbv beta. apply HF. intros i j Hi Hj. symmetry. apply sequential_scan; auto. apply Hs.
      intros a b Ha Hb. apply (proj1 (Hu' a b)). apply in_pairs. auto.
    + intros i j B Hin. apply in_pairs in Hin as (Hi & Hj). apply edge_posterior_unit. auto.
  - unfold over_networks. apply (@scan_invariant q (pairs K) (fun A => exp (L A) * edge_prior K P A) F (fun _ _ => false) (pairs_NoDup K)); auto.
    + intros i j B b _. unfold q. now rewrite !upd2_same.
    + intros i j B Hin. apply edge_balance; auto. apply in_pairs in Hin as (Hi & Hj). auto.
Qed.

(** Spike-and-slab model: L is the log likelihood the model reports for each network, P the edge probabilities.  If the
    network is distributed proportionally to exp(L) P^A (1-P)^(1-A), so it is after the update - serial or parallel - as
    every statistic F of the network shows: the mean of F after the update equals the mean before. *)
Theorem C97_adjacency_update_invariant :
  forall m n, dm_mix m = false -> nonneg_params m -> good_data m (dm_data m) ->
  (forall i j, (i < dm_K m)%nat -> (j < dm_K m)%nat -> 0 <= n_P n i j <= 1) ->
  exists L : bmat -> R, (forall A, log_likelihood (with_A m A) All = Ok (Fin (L A))) /\
  forall (parallel : bool) order (F : bmat -> R), Permutation order (seq 0 (dm_K m)) -> on_nodes (dm_K m) F ->
  let update A u := if parallel then resample_A_parallel order (with_A m A) n u (dm_data m) else resample_A_serial (with_A m A) n u (dm_data m) in
  let posterior A := exp (L A) * edge_prior (dm_K m) (n_P n) A in
  exists e : bmat -> R, (forall A, uniform_mean (dm_K m) (fun u => F (update A u)) (e A)) /\
    over_networks (dm_K m) (fun A => posterior A * e A) = over_networks (dm_K m) (fun A => posterior A * F A).
Proof.
  intros m n Hm Hn Hd HP.
  assert (HL : forall A, exists l, log_likelihood (with_A m A) All = Ok (Fin l)).
  { intros A. apply C13_training_finite; [exact Hn|]. intros d Hin. destruct (Hd d Hin) as (H1 & H2 & H3 & H4). auto. }
  set (L := fun A => match log_likelihood (with_A m A) All with Ok (Fin l) => l | _ => 0 end).
  assert (EL : forall A, log_likelihood (with_A m A) All = Ok (Fin (L A))) by (intros A; unfold L; destruct (HL A) as (l & ->); reflexivity).
  exists L. split; [exact EL|]. intros parallel order F Ho HF update posterior.
  apply (@sequential_invariant (dm_K m) (n_P n) L F update); auto.
  intros A u Hu k1 k2 M H1 H2 HM.
  destruct (@C25_edges_from_posterior parallel order (with_A m A) n u Hm Hn Hd) with (k1 := k1) (k2 := k2) (M := M) as (L0 & L1 & E0 & E1 & EA); auto.
  { intros i j Hi Hj. split; [specialize (Hu i j Hi Hj); split; lra|auto]. }
  change (with_A (with_A m A) (upd2 M k1 k2 false)) with (with_A m (upd2 M k1 k2 false)) in E0.
  change (with_A (with_A m A) (upd2 M k1 k2 true)) with (with_A m (upd2 M k1 k2 true)) in E1.
  rewrite EL in E0, E1. injection E0 as <-. injection E1 as <-. exact EA.
Qed.
Print Assumptions C97_adjacency_update_invariant.

(** Continuous-time model, given the new weights W (the weights are drawn before the edges): the same. *)
Definition ct_with_AW (m : ctmodel) (A : bmat) (W : mat) : ctmodel :=
  cm_set m (cm_lam m) A W (cm_mu m) (cm_tau m) (cm_net m) (cm_data m).
Theorem C97_continuous_update_invariant :
  forall m W data, net_ok (cm_K m) (cm_net m) ->
  (forall k, (k < cm_K m)%nat -> 0 < cm_lam m k) -> (forall a b, (a < cm_K m)%nat -> (b < cm_K m)%nat -> 0 < cm_tau m a b) ->
  (forall i j, (i < cm_K m)%nat -> (j < cm_K m)%nat -> 0 <= W i j) -> (forall d, In d data -> data_ok (cm_K m) d) ->
  let P := n_P (net_view (cm_net m)) in
  let L A := lsum (map (hawkes_loglik (ct_with_AW m A W)) data) in
  (forall A norder, (forall d, In d data -> Permutation (norder d) (seq 0 (cd_N d))) -> ct_log_likelihood norder (ct_with_AW m A W) (Some data) = Fin (L A)) /\
  forall order norder (F : bmat -> R), Permutation order (seq 0 (cm_K m)) ->
  (forall d, In d data -> Permutation (norder d) (seq 0 (cd_N d))) -> on_nodes (cm_K m) F ->
  let update A u := cm_A (ct_weights_resample order norder (fun i j _ _ => W i j) u (ct_with_A m A) data) in
  let posterior A := exp (L A) * edge_prior (cm_K m) P A in
  exists e : bmat -> R, (forall A, uniform_mean (cm_K m) (fun u => F (update A u)) (e A)) /\
    over_networks (cm_K m) (fun A => posterior A * e A) = over_networks (cm_K m) (fun A => posterior A * F A).
Proof.
  intros m W data Hnet Hlam Htau HW Hd P L. split.
  { intros A norder Hno. apply (@C62_log_likelihood norder (ct_with_AW m A W) data); [|auto]. split; [exact Hlam|split; [exact HW|exact Htau]]. }
  intros order norder F Ho Hno HF update posterior.
  assert (HP : forall i j, (i < cm_K m)%nat -> (j < cm_K m)%nat -> 0 <= P i j <= 1).
  { intros i j Hi Hj. pose proof (@net_view_ok _ _ Hnet) as (_ & Hv). now apply Hv. }
  assert (HWr : forall nt A, ct_W_resample (fun i j _ _ => W i j) nt A data = W).
  { intros nt A. apply functional_extensionality; intros i; apply functional_extensionality; intros j. unfold ct_W_resample. now destruct (ct_W_request nt A data i j). }
  apply (@sequential_invariant (cm_K m) P L F update); auto.
  intros A u Hu k1 k2 M H1 H2 HM.
  destruct (@C76_edges_from_posterior order norder (fun i j _ _ => W i j) u (ct_with_A m A) data Hnet Hlam Htau) as (_ & Hp); [intros d Hin; split; auto| |exact Ho| |].
  { intros i j Hi Hj. pose proof (Hu i j Hi Hj). split; lra. }
  { intros i j Hi Hj. change (0 <= ct_W_resample (fun i j _ _ => W i j) (net_view (cm_net m)) A data i j). rewrite HWr. now apply HW. }
  destruct (Hp k1 k2 M H1 H2 HM) as (_ & EA).
  assert (EW : forall b, ct_with_A (ct_weights_resample order norder (fun i j _ _ => W i j) u (ct_with_A m A) data) (upd2 M k1 k2 b) = ct_with_AW m (upd2 M k1 k2 b) W).
  { intros b. change (ct_with_AW m (upd2 M k1 k2 b) (ct_W_resample (fun i j _ _ => W i j) (net_view (cm_net m)) A data) = ct_with_AW m (upd2 M k1 k2 b) W). now rewrite HWr. }
  rewrite !EW in EA. exact EA.
Qed.
Print Assumptions C97_continuous_update_invariant.

(** Gamma-mixture model: the update does not depend on the current network; it draws the network from the posterior with
    the weights integrated out.  I k1 k2 b is the integral over the weight w of its prior density given the edge state b
    times the Poisson likelihood of the children (up to the factorials); the mean of any statistic F after the update is the
    mean of F over networks with probabilities proportional to prod I k1 k2 (A k1 k2) P^A (1-P)^(1-A). *)
Definition mixture_integrals (kappa0 nu0 : R) (n : net) (data : list parents) (K : nat) (I : nat -> nat -> bool -> R) : Prop :=
  forall k1 k2 b, (k1 < K)%nat -> (k2 < K)%nat -> 0 < I k1 k2 b /\
    is_RInt_gen (fun w => exp (mix_joint log_gamma kappa0 nu0 n data k1 k2 b w)) (at_right 0) (Rbar_locally p_infty) (I k1 k2 b).
Definition cell_product (I : nat -> nat -> bool -> R) (cs : list (nat * nat)) (A : bmat) : R :=
  fold_right Rmult 1 (map (fun c => I (fst c) (snd c) (A (fst c) (snd c))) cs).
Lemma prod_factor (P : mat) (I : nat -> nat -> bool -> R) cs : (forall i j, In (i, j) cs -> 0 <= P i j <= 1 /\ 0 < I i j false /\ 0 < I i j true) ->
  exists c, 0 < c /\ forall A, cell_product I cs A * prod_prob P cs A =
    c * prod_prob (fun i j => P i j * I i j true / (P i j * I i j true + (1 - P i j) * I i j false)) cs A.
Proof.
  induction cs as [|(i, j) cs IH]; intros H.
  - exists 1. split; [lra|]. intros A. unfold cell_product, prod_prob. cbn. ring.
  - destruct IH as (c & Hc & Hf); [intros; apply H; now right|]. destruct (H i j (or_introl eq_refl)) as (HP & H0 & H1).
    assert (Hs : 0 < P i j * I i j true + (1 - P i j) * I i j false).
    { destruct (Req_dec (P i j) 0) as [->|]; [lra|]. assert (0 < P i j * I i j true) by (apply Rmult_lt_0_compat; lra). assert (0 <= (1 - P i j) * I i j false) by (apply Rmult_le_pos; lra). lra. }
    exists ((P i j * I i j true + (1 - P i j) * I i j false) * c). split; [apply Rmult_lt_0_compat; auto|]. intros A. specialize (Hf A).
    unfold cell_product, prod_prob in *. cbn [map fold_right fst snd]. destruct (A i j).
    + match goal with |- ?a * ?x * (?p * ?y) = ?s * c * (?q * ?z) => transitivity (s * q * (c * z)); [|ring]; rewrite <- Hf end. field. lra.
    + match goal with |- ?a * ?x * (?p * ?y) = ?s * c * (?q * ?z) => transitivity (s * q * (c * z)); [|ring]; rewrite <- Hf end. field. lra.
Qed.
Lemma kern_one (q : mat) cs : forall A, kern (fun i j _ => q i j) cs (fun _ => 1) A = 1.
Proof. induction cs as [|(i, j) cs IH]; intros A; cbn [kern]; [reflexivity|]. rewrite !IH. ring. Qed.
Theorem C97_mixture_update_exact :
  forall K kappa0 nu0 n data, (forall i j, (i < K)%nat -> (j < K)%nat -> mix_ok kappa0 nu0 n data i j /\ 0 <= n_P n i j <= 1) ->
  exists I, mixture_integrals kappa0 nu0 n data K I /\
  forall F, on_nodes K F ->
  let posterior A := cell_product I (pairs K) A * edge_prior K (n_P n) A in
  0 < over_networks K posterior /\
  uniform_mean K (fun u => F (mix_resample_A log_gamma kappa0 nu0 n u data)) (over_networks K (fun A => posterior A * F A) / over_networks K posterior).
Proof.
  intros K kappa0 nu0 n data Hok.
  set (J := fun k1 k2 (b : bool) (w : R) => exp (mix_joint log_gamma kappa0 nu0 n data k1 k2 b w)).
  set (I := fun k1 k2 b => RInt_gen (V := R_CompleteNormedModule) (J k1 k2 b) (at_right 0) (Rbar_locally p_infty)).
  assert (Hu1 : forall f l, is_RInt_gen f (at_right 0) (Rbar_locally p_infty) l -> RInt_gen (V := R_CompleteNormedModule) f (at_right 0) (Rbar_locally p_infty) = l).
  { intros f l. apply (@is_RInt_gen_unique R_CompleteNormedModule (at_right 0) (Rbar_locally p_infty)); apply Proper_StrongProper; [apply at_right_proper_filter|apply Rbar_locally_filter]. }
  assert (Hacc : forall u k1 k2, (k1 < K)%nat -> (k2 < K)%nat -> unit_interval (u k1 k2) -> exists M : bool -> R,
     (forall b, I k1 k2 b = exp (M b)) /\ (forall b, is_RInt_gen (J k1 k2 b) (at_right 0) (Rbar_locally p_infty) (exp (M b))) /\
     (mix_resample_A log_gamma kappa0 nu0 n u data k1 k2 = true <-> u k1 k2 < edge_posterior (n_P n k1 k2) (M false) (M true))).
  { intros u k1 k2 H1 H2 Hu. destruct (Hok k1 k2 H1 H2) as (Hm & HP).
    destruct (@C24_mixture_edge_update log_gamma kappa0 nu0 n u (fun _ _ _ _ => 1) data k1 k2 Hm Hu HP) as (M & HA & HM). exists M.
    assert (HI : forall b, is_RInt_gen (J k1 k2 b) (at_right 0) (Rbar_locally p_infty) (exp (M b))).
    { intros b. destruct (HM (fun _ _ => b)) as (a & s & _ & Ha & Hs & _ & HI). apply HI. apply gamma_density_normalised; [auto|]. now apply Rinv_0_lt_compat. }
    split; [|split; [exact HI|exact HA]]. intros b. apply Hu1, HI. }
  exists I. split.
  { intros k1 k2 b H1 H2. destruct (Hacc (fun _ _ => 1/2) k1 k2 H1 H2 ltac:(split; lra)) as (M & EI & HI & _). rewrite EI. split; [apply exp_pos|apply HI]. }
  intros F HF posterior.
  set (q := fun i j => n_P n i j * I i j true / (n_P n i j * I i j true + (1 - n_P n i j) * I i j false)).
  destruct (@prod_factor (n_P n) I (pairs K)) as (c & Hc & Hfac).
  { intros i j Hin. apply in_pairs in Hin as (Hi & Hj). split; [apply (Hok i j Hi Hj)|].
    destruct (Hacc (fun _ _ => 1/2) i j Hi Hj ltac:(split; lra)) as (M & EI & _). rewrite !EI. split; apply exp_pos. }
  assert (Hpost : forall A, posterior A = c * prod_prob q (pairs K) A) by exact Hfac.
  assert (Hsum : forall G, over_networks K (fun A => posterior A * G A) = c * kern (fun i j _ => q i j) (pairs K) G (fun _ _ => false)).
  { intros G. unfold over_networks. rewrite (@kern_const q (pairs K) G (pairs_NoDup K)), <- over_scal. apply over_ext. intros B. rewrite Hpost. ring. }
  assert (Hone : over_networks K posterior = c).
  { transitivity (over_networks K (fun A => posterior A * 1)); [unfold over_networks; apply over_ext; intros; ring|]. rewrite Hsum, kern_one. ring. }
  rewrite Hone, Hsum. split; [exact Hc|]. replace (c * kern (fun i j _ => q i j) (pairs K) F (fun _ _ => false) / c) with (kern (fun i j _ => q i j) (pairs K) F (fun _ _ => false)) by (field; lra).
  intros u0. eapply is_mean_ext; [apply pairs_NoDup| |apply (@scan_mean (fun i j _ => q i j) (pairs K) F (pairs_NoDup K))].
  - intros u Hu. cbv beta. apply HF. intros i j Hi Hj. symmetry. refine (@sequential_scan K (fun i j _ => q i j) u (fun _ _ => false) (mix_resample_A log_gamma kappa0 nu0 n u data) _ i j Hi Hj).
    intros k1 k2 _ H1 H2 _. assert (Hu2 : 0 < u k1 k2 < 1) by (apply (proj1 (Hu k1 k2)); now apply in_pairs).
    destruct (Hacc u k1 k2 H1 H2 ltac:(split; lra)) as (M & EI & _ & HA). unfold q. rewrite !EI. exact HA.
  - intros i j B Hin. apply in_pairs in Hin as (Hi & Hj). destruct (Hacc (fun _ _ => 1/2) i j Hi Hj ltac:(split; lra)) as (M & EI & _). unfold q. rewrite !EI.
    apply (@edge_posterior_unit (n_P n i j) (M false) (M true)). apply (Hok i j Hi Hj).
Qed.
Print Assumptions C97_mixture_update_exact.

(** Hypotheses can be met: the two-process examples of Props_Gibbs, and the one-process continuous-time model. *)
Example C97_nonvacuous :
  (dm_mix ex_m_data = false /\ nonneg_params ex_m_data /\ good_data ex_m_data (dm_data ex_m_data) /\
   (forall i j, (i < 2)%nat -> (j < 2)%nat -> 0 <= n_P ex_net i j <= 1) /\ on_nodes 2 (fun A => b2R (A 0%nat 1%nat)) /\ length (pairs 2) = 4%nat) /\
  (forall i j, (i < 2)%nat -> (j < 2)%nat -> mix_ok (1/10) 10 ex_net [ex_child] i j) /\
  (net_ok (cm_K (ex_ct 1)) (cm_net (ex_ct 1)) /\ params_ok (ex_ct 1) /\ data_ok (cm_K (ex_ct 1)) (ex_rec 1)).
Proof.
  split; [|split].
  - destruct ex_m_data_ok as (H1 & H2 & H3). split; [auto|]. split; [auto|]. split; [auto|]. split; [intros; cbn; lra|]. split; [|reflexivity].
    intros A A' H. now rewrite H by lia.
  - intros i j Hi Hj. split; [lra|]. split; [lra|]. split; [cbn; lra|]. split; [cbn; lra|]. intros d [<-|[]]. split.
    + apply C21_nonvacuous.
    + destruct i as [|[|]]; [vm_compute; discriminate|vm_compute; discriminate|lia].
  - split; [exact ex_net_ct_ok|]. split; [apply ex_ct_ok; lra|apply ex_rec_ok; lra].
Qed.

(** C24 with Euler's Gamma function: the marginal likelihoods are the integrals of the joint density, no hypothesis left. *)
Theorem C24_mixture_edge_update_euler :
  forall kappa0 nu0 n (u : mat) data k1 k2,
  mix_ok kappa0 nu0 n data k1 k2 -> unit_interval (u k1 k2) -> 0 <= n_P n k1 k2 <= 1 ->
  exists I0 I1, 0 < I0 /\ 0 < I1 /\
  is_RInt_gen (fun w => exp (mix_joint log_gamma kappa0 nu0 n data k1 k2 false w)) (at_right 0) (Rbar_locally p_infty) I0 /\
  is_RInt_gen (fun w => exp (mix_joint log_gamma kappa0 nu0 n data k1 k2 true w)) (at_right 0) (Rbar_locally p_infty) I1 /\
  (mix_resample_A log_gamma kappa0 nu0 n u data k1 k2 = true <-> u k1 k2 < n_P n k1 k2 * I1 / (n_P n k1 k2 * I1 + (1 - n_P n k1 k2) * I0)).
Proof.
  intros kappa0 nu0 n u data k1 k2 Hm Hu HP.
  destruct (@C24_mixture_edge_update log_gamma kappa0 nu0 n u (fun _ _ _ _ => 1) data k1 k2 Hm Hu HP) as (M & HA & HM).
  assert (HI : forall b, is_RInt_gen (fun w => exp (mix_joint log_gamma kappa0 nu0 n data k1 k2 b w)) (at_right 0) (Rbar_locally p_infty) (exp (M b))).
  { intros b. destruct (HM (fun _ _ => b)) as (a & s & _ & Ha & Hs & _ & HI). apply HI. apply gamma_density_normalised; [auto|]. now apply Rinv_0_lt_compat. }
  exists (exp (M false)), (exp (M true)). split; [apply exp_pos|]. split; [apply exp_pos|]. split; [apply HI|]. split; [apply HI|]. exact HA.
Qed.
Print Assumptions C24_mixture_edge_update_euler.
