(** * Props_CtJoint: property C99, the continuous-time Gibbs updates against one joint density. *)
From Coq Require Import Permutation FunctionalExtensionality.
From Verif Require Import Prelude ExtReal Arrays Spec_Gibbs Spec_Network Spec_Joint Spec_Continuous Spec_CtJoint
  M_Basis M_Parents M_Discrete M_Gibbs M_Dist M_Network M_Sweep M_Prior M_Continuous L_Gibbs L_Network L_Sweep L_Joint L_Continuous
  Props_Gibbs Props_Network Props_Prior Props_Joint Props_Continuous Props_Continuous2 Props_Continuous3 Props_Continuous4 Props_Continuous5 Props_CtSweep.
Set Implicit Arguments.
Open Scope R_scope.

(** ** The joint density *)
(** Delay density of the pair (a, b) as the compiled code evaluates it: C61's density, cut within 1e-8 of the ends. *)
Definition cut_delay (m : ctmodel) (a b : nat) (dt : R) : R :=
  if (Rleb eps dt && Rleb dt (cm_dtmax m - eps))%bool then kappa_c * delay_pdf (cm_dtmax m) (cm_mu m a b) (cm_tau m a b) dt else 0.
(** A data set with causes z; with the causes stored in it. *)
Definition ev_with (d : ctdata) (z : nat -> nat) : caused :=
  {| ev_N := cd_N d; ev_t := cd_S d; ev_k := cd_C d; ev_T := cd_T d; ev_z := z |}.
Definition ev_of (d : ctdata) : caused := ev_with d (fun n => Z.to_nat (cd_Z d n + 1)).
(** Prior of all parameters; every ordered pair has a weight from the slab, relevant or not. *)
Definition ct_param_lp (lgam : R -> R) (m : ctmodel) : R :=
  let n := net_view (cm_net m) in let slab := fun i j => gamma_lpdf lgam (n_kappa n) (n_V n i j) in
  bias_lp lgam (cm_K m) (cm_alpha m) (cm_beta m) (cm_lam m)
  + delays_lp lgam (cm_K m) (cm_mu0 m) (cm_lmbda0 m) (cm_alpha0 m) (cm_beta0 m) (cm_mu m) (cm_tau m)
  + edges_ll (cm_K m) (possible (net_allow (cm_net m))) (n_P n) (cm_A m)
  + all_weights_ll (cm_K m) slab slab (cm_A m) (cm_W m)
  + network_lp lgam (cm_net m).
(** Parameters, events and causes. *)
Definition ct_complete_joint (lgam : R -> R) (m : ctmodel) : R :=
  lsum (map (fun d => caused_ll (cm_K m) (cm_lam m) (conn m) (cut_delay m) (ev_of d)) (cm_data m)) + ct_param_lp lgam m.
(** Parameters and events, the causes summed out. *)
Definition causes_sum (m : ctmodel) (d : ctdata) : R :=
  over_causes (cd_N d) (fun z => caused_density (cm_K m) (cm_lam m) (conn m) (cut_delay m) (ev_with d z)).
Definition ct_data_joint (lgam : R -> R) (m : ctmodel) : R :=
  lsum (map (fun d => ln (causes_sum m d)) (cm_data m)) + ct_param_lp lgam m.

(** Causes of positive density: what a parent update leaves behind (see [C99_legal]). *)
Definition legal_causes (m : ctmodel) (d : ctdata) : Prop :=
  stats_ok m d /\
  forall n, (n < cd_N d)%nat -> cd_Z d n = (-1)%Z \/
    exists p, cd_Z d n = Z.of_nat p /\ (p < n)%nat /\ eps <= cd_S d n - cd_S d p <= cm_dtmax m - eps /\ cm_A m (cd_C d p) (cd_C d n) = true.

(** ** Sums of products *)
Lemma Rprod_ext n f g : (forall i, (i < n)%nat -> f i = g i) -> Rprod n f = Rprod n g.
Proof. induction n as [|n IH]; intros H; [reflexivity|]. cbn. rewrite IH, H by (intros; auto; lia). reflexivity. Qed.
Lemma Rprod_pos n f : (forall i, (i < n)%nat -> 0 < f i) -> 0 < Rprod n f.
Proof. induction n as [|n IH]; intros H; cbn; [lra|]. apply Rmult_lt_0_compat; [apply IH; intros|]; apply H; lia. Qed.
Lemma Rprod_div n f g : (forall i, (i < n)%nat -> g i <> 0) -> Rprod n (fun i => f i / g i) = Rprod n f / Rprod n g.
Proof.
  induction n as [|n IH]; intros H; cbn; [field|]. rewrite IH by (intros; apply H; lia).
  assert (Hg : Rprod n g <> 0).
  { clear IH. induction n as [|n IH]; cbn; [lra|]. apply Rmult_integral_contrapositive_currified; [apply IH; intros|]; apply H; lia. }
  field. split; [apply H; lia|exact Hg].
Qed.
Lemma ln_Rprod n f : (forall i, (i < n)%nat -> 0 < f i) -> ln (Rprod n f) = Rsum n (fun i => ln (f i)).
Proof.
  induction n as [|n IH]; intros H; cbn; [apply ln_1|]. rewrite ln_mult, IH; auto; try (intros; apply H; lia). apply Rprod_pos. intros; apply H; lia.
Qed.
Lemma over_causes_ext N F G : (forall z, F z = G z) -> over_causes N F = over_causes N G.
Proof.
  revert F G. induction N as [|n IH]; intros F G H; cbn [over_causes]; [apply H|]. apply IH. intros z. apply Rsum_ext. intros j _. apply H.
Qed.
Lemma over_causes_prod N c (g : nat -> nat -> R) :
  over_causes N (fun z => c * Rprod N (fun n => g n (z n))) = c * Rprod N (fun n => Rsum (S n) (g n)).
Proof.
  revert c. induction N as [|n IH]; intros c; [reflexivity|]. cbn [over_causes].
  rewrite (over_causes_ext n _ (fun z => (c * Rsum (S n) (g n)) * Rprod n (fun i => g i (z i)))).
  - rewrite IH. cbn [Rprod]. ring.
  - intros z. rewrite (@Rsum_ext (S n) _ (fun j => c * Rprod n (fun i => g i (z i)) * g n j)).
    + rewrite Rsum_scal. ring.
    + intros j _. cbn [Rprod]. rewrite (@Rprod_ext n (fun i => g i (upd z n j i)) (fun i => g i (z i))).
      * unfold upd. rewrite Nat.eqb_refl. ring.
      * intros i Hi. unfold upd. destruct (Nat.eqb_spec i n); [lia|reflexivity].
Qed.

(** Rate of candidate cause j of event n. *)
Definition cand (m : ctmodel) (d : ctdata) (n j : nat) : R := event_rate (cm_lam m) (conn m) (cut_delay m) (ev_with d (fun _ => j)) n.
Lemma cand_weight m d n j : cand m d n j = parent_weight eps (cm_dtmax m) (cd_S d) (cd_C d) (cm_lam m) (impulse_of m) n j.
Proof.
  unfold cand, event_rate, parent_weight, cut_delay, impulse_of. cbn [ev_with ev_z ev_k ev_t]. destruct j as [|p]; [reflexivity|].
  destruct (_ && _)%bool; ring.
Qed.
Lemma causes_sum_prod m d :
  causes_sum m d = exp (- expected_events (cm_K m) (cm_lam m) (conn m) (ev_of d)) * Rprod (cd_N d) (fun n => Rsum (S n) (cand m d n)).
Proof. unfold causes_sum. rewrite <- over_causes_prod. apply over_causes_ext. intros z. reflexivity. Qed.
Lemma cand_sum_pos m d n : params_ok m -> data_ok (cm_K m) d -> (n < cd_N d)%nat -> 0 < Rsum (S n) (cand m d n).
Proof.
  intros Hp Hd Hn. pose proof Hd as (Ht & Hs & Hc). pose proof Hp as (Hl & _ & Htau).
  rewrite (@Rsum_ext (S n) (cand m d n) (parent_weight eps (cm_dtmax m) (cd_S d) (cd_C d) (cm_lam m) (impulse_of m) n)) by (intros; apply cand_weight).
  rewrite <- response_impulse. set (h := response _ _ _ _).
  assert (Hw : forall j, (j <= n)%nat -> 0 <= parent_weight eps (cm_dtmax m) (cd_S d) (cd_C d) (cm_lam m) h n j).
  { intros j Hj. apply (@weight_ok (cd_N d)); auto.
    - intros a b Ha Hb. apply conn_nonneg; auto.
    - left. apply Hl, Hc. lia. }
  rewrite Rsum_S_l. apply Rplus_lt_le_0_compat; [cbn; apply Hl, Hc; lia|]. apply Rsum_nonneg. intros j Hj. apply Hw. lia.
Qed.

(* ------------------------------------------------------------------ *)
(** ** C99 *)

(** Parents: given everything else, the assignment z of causes to all events of a data set is drawn with probability its
    share of the joint density.  The uniforms that lead to z form a box, whose volume is that share. *)
Theorem C99_parents : forall m d order, params_ok m -> data_ok (cm_K m) d -> Permutation order (seq 0 (cd_N d)) ->
  let dens z := caused_density (cm_K m) (cm_lam m) (conn m) (cut_delay m) (ev_with d z) in
  0 < over_causes (cd_N d) dens /\
  (forall u, (forall n, (n < cd_N d)%nat -> unit_interval (u n)) -> exists d', ct_parents_resample m order u d = Ok d') /\
  forall z : nat -> nat, (forall n, (n < cd_N d)%nat -> (z n <= n)%nat) ->
  exists lo hi : vec,
    (forall n, (n < cd_N d)%nat -> 0 <= lo n <= hi n /\ hi n <= 1) /\
    Rprod (cd_N d) (fun n => hi n - lo n) = dens z / over_causes (cd_N d) dens /\
    forall u d', (forall n, (n < cd_N d)%nat -> unit_interval (u n)) -> ct_parents_resample m order u d = Ok d' ->
      ((forall n, (n < cd_N d)%nat -> ev_z (ev_of d') n = z n) <-> (forall n, (n < cd_N d)%nat -> lo n <= u n < hi n)).
Proof.
  intros m d order Hp Hd Ho dens. change (over_causes (cd_N d) dens) with (causes_sum m d).
  assert (Hpos := fun n => @cand_sum_pos m d n Hp Hd).
  split; [rewrite causes_sum_prod; apply Rmult_lt_0_compat; [apply exp_pos|now apply Rprod_pos]|]. split.
  { intros u Hu. destruct (@C59_parent_update m order u d Hp Hd Ho Hu) as (d' & E & _). now exists d'. }
  intros z Hz. exists (fun n => Rsum (z n) (pparent m d n)), (fun n => Rsum (S (z n)) (pparent m d n)).
  split; [|split].
  - intros n Hn. destruct (pparent_nonneg Hp Hd Hn) as [Hn0 Hn1]. specialize (Hz n Hn). split; [split|].
    + apply Rsum_nonneg. intros; apply Hn0; lia.
    + cbn [Rsum]. pose proof (Hn0 (z n) Hz). lra.
    + rewrite <- Hn1. apply (@Rsum_mono (pparent m d n) (S n)); try lia. intros; apply Hn0; lia.
  - rewrite causes_sum_prod. unfold dens, caused_density. change (expected_events _ _ _ (ev_with d z)) with (expected_events (cm_K m) (cm_lam m) (conn m) (ev_of d)).
    change (ev_N (ev_with d z)) with (cd_N d).
    transitivity (Rprod (cd_N d) (fun n => cand m d n (z n) / Rsum (S n) (cand m d n))).
    + apply Rprod_ext. intros n Hn. cbn [Rsum]. unfold pparent at 2, parent_prob. rewrite cand_weight.
      change (Rsum n (cand m d n) + cand m d n n) with (Rsum (S n) (cand m d n)).
      rewrite (@Rsum_ext (S n) (cand m d n) (parent_weight eps (cm_dtmax m) (cd_S d) (cd_C d) (cm_lam m) (impulse_of m) n)) by (intros; apply cand_weight). ring.
    + rewrite Rprod_div by (intros n Hn; specialize (Hpos n Hn); lra).
      change (Rprod (cd_N d) (event_rate (cm_lam m) (conn m) (cut_delay m) (ev_with d z))) with (Rprod (cd_N d) (fun n => cand m d n (z n))).
      field. split; [apply Rgt_not_eq, Rprod_pos; auto|apply Rgt_not_eq, exp_pos].
  - intros u d' Hu E. destruct (@C59_parent_update m order u d Hp Hd Ho Hu) as (d2 & E2 & _ & _ & H). rewrite E in E2. injection E2 as <-.
    split.
    + intros Hall n Hn. destruct (H n Hn) as ((j & Hj & Ej & Hs) & _). specialize (Hall n Hn). cbn [ev_of ev_with ev_z] in Hall.
      rewrite Ej in Hall. replace (Z.of_nat j - 1 + 1)%Z with (Z.of_nat j) in Hall by lia. rewrite Nat2Z.id in Hall. subst j. exact Hs.
    + intros Hall n Hn. destruct (H n Hn) as (_ & Hiff & _). specialize (Hall n Hn). apply (Hiff (z n) (Hz n Hn)) in Hall. cbn [ev_of ev_with ev_z].
      rewrite Hall. lia.
Qed.
Print Assumptions C99_parents.

(** No two events exactly one cut-off apart: there the code's intensity and its parent sampler disagree on whether the
    response still counts. *)
Definition no_ties (m : ctmodel) (d : ctdata) : Prop :=
  forall n p, (n < cd_N d)%nat -> (p < n)%nat -> cd_S d n - cd_S d p <> cm_dtmax m - eps.
Lemma intensity_cands m d n : no_ties m d -> (n < cd_N d)%nat -> intensity m d n = Rsum (S n) (cand m d n).
Proof.
  intros Ht Hn. unfold intensity, intensity_at. rewrite Rsum_S_l. f_equal. apply Rsum_ext. intros p Hp.
  rewrite cand_weight. unfold parent_weight, in_window_b. specialize (Ht n p Hn Hp).
  replace (Rleb (cd_S d n - cd_S d p) (cm_dtmax m - eps)) with (Rltb (cd_S d n - cd_S d p) (cm_dtmax m - eps)); [reflexivity|].
  destruct (Rltb _ _) eqn:E; symmetry.
  - apply Rltb_true in E. apply Rleb_true. lra.
  - apply Rltb_false in E. apply Rleb_false. lra.
Qed.
(** Summing the causes out of the joint gives the likelihood that log_likelihood reports. *)
Theorem C99_marginal : forall m d, params_ok m -> data_ok (cm_K m) d -> no_ties m d ->
  over_causes (cd_N d) (fun z => caused_density (cm_K m) (cm_lam m) (conn m) (cut_delay m) (ev_with d z)) = exp (hawkes_loglik m d) /\
  forall order, Permutation (order d) (seq 0 (cd_N d)) -> ct_log_likelihood order m (Some [d]) = Fin (hawkes_loglik m d).
Proof.
  intros m d Hp Hd Ht. split.
  - fold (causes_sum m d). rewrite causes_sum_prod. unfold hawkes_loglik, Rminus. rewrite exp_plus, Rmult_comm. f_equal.
    rewrite <- (@Rsum_ext (cd_N d) (fun n => ln (Rsum (S n) (cand m d n)))) by (intros n Hn; now rewrite intensity_cands).
    rewrite <- ln_Rprod by (intros n Hn; now apply cand_sum_pos). symmetry. apply exp_ln, Rprod_pos. intros n Hn. now apply cand_sum_pos.
  - intros order Ho. destruct (@C62_log_likelihood order m [d] Hp) as [E _].
    + intros d' [<-|[]]. auto.
    + rewrite E. cbn [map lsum]. now rewrite Rplus_0_r.
Qed.
Print Assumptions C99_marginal.

(** ** Decomposition *)
Definition delay_of (d : ctdata) (n : nat) : R := cd_S d n - cd_S d (Z.to_nat (cd_Z d n)).
Definition delays_ll (d : ctdata) (f : nat -> nat -> R -> R) (a b : nat) : R :=
  Rsum (cd_N d) (fun n => if pair_events d a b n then ln (f a b (delay_of d n)) else 0).
Lemma Rsum_pick K k (F : nat -> R) : (k < K)%nat -> Rsum K (fun i => if Nat.eqb k i then F i else 0) = F k.
Proof.
  intros H. rewrite (@Rsum_ext K _ (fun i => if Nat.eqb i k then F i else 0)) by (intros; now rewrite Nat.eqb_sym).
  rewrite (Rsum_ind K k F). destruct (Nat.ltb_spec k K); [reflexivity|lia].
Qed.
Lemma caused_split K d lam w f : data_ok K d ->
  (forall n, (n < cd_N d)%nat -> cd_Z d n = (-1)%Z \/
     exists p, cd_Z d n = Z.of_nat p /\ (p < n)%nat /\ 0 < w (cd_C d p) (cd_C d n) /\ 0 < f (cd_C d p) (cd_C d n) (cd_S d n - cd_S d p)) ->
  caused_ll K lam w f (ev_of d) = Rsum K (fun k => pois_loglik (n_background d k) (cd_T d) (lam k))
   + Rsum K (fun a => Rsum K (fun b => pois_loglik (n_children d a b) (n_of d a) (w a b) + delays_ll d f a b)).
Proof.
  intros (_ & _ & Hc) Hz. set (N := cd_N d) in *.
  assert (E : forall n, (n < N)%nat -> ln (event_rate lam w f (ev_of d) n)
    = Rsum K (fun k => if (Z.eqb (cd_Z d n) (-1) && Nat.eqb (cd_C d n) k)%bool then ln (lam k) else 0)
      + Rsum K (fun a => Rsum K (fun b => if pair_events d a b n then ln (w a b) + ln (f a b (delay_of d n)) else 0))).
  { intros n Hn. unfold event_rate, pair_events, delay_of. cbn [ev_of ev_with ev_z ev_k ev_t].
    destruct (Hz n Hn) as [En|(p & En & Hp & Hw & Hf)]; rewrite En.
    - change (Z.to_nat (-1 + 1)) with 0%nat. change (-1 =? -1)%Z with true. cbn [andb negb].
      rewrite (@Rsum_pick K (cd_C d n) (fun k => ln (lam k))) by now apply Hc.
      rewrite Rsum_0 by (intros; apply Rsum_zero). cbn. ring.
    - replace (Z.of_nat p =? -1)%Z with false by (symmetry; apply Z.eqb_neq; lia). cbn [andb negb].
      replace (Z.to_nat (Z.of_nat p + 1)) with (S p) by lia. rewrite Nat2Z.id. rewrite Rsum_zero, Rplus_0_l.
      rewrite (@Rsum_ext K _ (fun a => if (cd_C d p =? a)%nat then ln (w a (cd_C d n)) + ln (f a (cd_C d n) (cd_S d n - cd_S d p)) else 0)).
      + rewrite (@Rsum_pick K (cd_C d p) (fun a => ln (w a (cd_C d n)) + ln (f a (cd_C d n) (cd_S d n - cd_S d p)))) by (apply Hc; unfold N in *; lia).
        now apply ln_mult.
      + intros a _. destruct (cd_C d p =? a)%nat; cbn [andb]; [|apply Rsum_zero].
        apply (@Rsum_pick K (cd_C d n) (fun b => ln (w a b) + ln (f a b (cd_S d n - cd_S d p)))). now apply Hc. }
  unfold caused_ll. change (ev_N (ev_of d)) with N. rewrite (@Rsum_ext N _ _ E), Rsum_plus.
  rewrite Rsum_swap.
  assert (E2 : Rsum N (fun n => Rsum K (fun a => Rsum K (fun b => if pair_events d a b n then ln (w a b) + ln (f a b (delay_of d n)) else 0)))
    = Rsum K (fun a => Rsum K (fun b => n_children d a b * ln (w a b) + delays_ll d f a b))).
  { rewrite Rsum_swap. apply Rsum_ext. intros a _. rewrite Rsum_swap. apply Rsum_ext. intros b _.
    unfold n_children, count, delays_ll. fold N. rewrite <- Rsum_scal_r, <- Rsum_plus. apply Rsum_ext. intros n _. destruct (pair_events d a b n); ring. }
  rewrite E2. unfold expected_events. change (ev_T (ev_of d)) with (cd_T d). change (ev_N (ev_of d)) with N. change (ev_k (ev_of d)) with (cd_C d).
  rewrite Rsum_plus. rewrite (Rsum_swap K K (fun k a => w a k * count N (fun n => (cd_C d n =? a)%nat))).
  unfold pois_loglik. rewrite Rsum_minus.
  rewrite (@Rsum_ext K (fun a => Rsum K (fun b => n_children d a b * ln (w a b) - n_of d a * w a b + delays_ll d f a b))
    (fun a => Rsum K (fun b => n_children d a b * ln (w a b) + delays_ll d f a b) - Rsum K (fun b => n_of d a * w a b))).
  2:{ intros a _. rewrite <- Rsum_minus. apply Rsum_ext. intros; ring. }
  rewrite Rsum_minus.
  assert (E3 : Rsum K (fun k => Rsum N (fun n => if ((cd_Z d n =? -1)%Z && (cd_C d n =? k)%nat)%bool then ln (lam k) else 0)) = Rsum K (fun k => n_background d k * ln (lam k))).
  { apply Rsum_ext. intros k _. unfold n_background, count. fold N. rewrite <- Rsum_scal_r. apply Rsum_ext. intros n _. destruct (_ && _)%bool; ring. }
  assert (E4 : Rsum K (fun k => lam k * cd_T d) = Rsum K (fun k => cd_T d * lam k)) by (apply Rsum_ext; intros; ring).
  assert (E5 : Rsum K (fun a => Rsum K (fun b => w a b * count N (fun n => (cd_C d n =? a)%nat))) = Rsum K (fun a => Rsum K (fun b => n_of d a * w a b))).
  { apply Rsum2_ext. intros a b _ _. unfold n_of. fold N. ring. }
  rewrite E3, E4. rewrite <- E5. ring.
Qed.

(** Legal causes stay legal whatever positive parameters replace the current ones. *)
Lemma legal_split m d lam w mu tau : data_ok (cm_K m) d -> legal_causes m d ->
  (forall a b, (a < cm_K m)%nat -> (b < cm_K m)%nat -> 0 < tau a b /\ (cm_A m a b = true -> 0 < w a b)) ->
  let f := cut_delay (cm_set m lam (cm_A m) (cm_W m) mu tau (cm_net m) (cm_data m)) in
  caused_ll (cm_K m) lam w f (ev_of d) = Rsum (cm_K m) (fun k => pois_loglik (n_background d k) (cd_T d) (lam k))
   + Rsum (cm_K m) (fun a => Rsum (cm_K m) (fun b => pois_loglik (n_children d a b) (n_of d a) (w a b) + delays_ll d f a b)).
Proof.
  intros Hd [_ Hz] Hw f. apply caused_split; [exact Hd|]. intros n Hn. destruct (Hz n Hn) as [E|(p & E & Hp & He & HA)]; [now left|right].
  exists p. split; [exact E|]. split; [exact Hp|]. destruct Hd as (_ & _ & Hc).
  assert (H1 : (cd_C d p < cm_K m)%nat) by (apply Hc; lia). assert (H2 : (cd_C d n < cm_K m)%nat) by (apply Hc; lia).
  destruct (Hw _ _ H1 H2) as [Ht Hw']. split; [now apply Hw'|]. unfold f, cut_delay. cbn [cm_set cm_dtmax cm_mu cm_tau].
  replace (Rleb eps (cd_S d n - cd_S d p)) with true by (symmetry; apply Rleb_true; lra).
  replace (Rleb (cd_S d n - cd_S d p) (cm_dtmax m - eps)) with true by (symmetry; apply Rleb_true; lra). cbn [andb].
  pose proof kappa_c_pos. pose proof eps_pos. apply Rmult_lt_0_compat; [lra|]. apply delay_pdf_pos; [exact Ht|lra|lra].
Qed.

Definition ct_with (m : ctmodel) (lam : vec) (W mu tau : mat) : ctmodel := cm_set m lam (cm_A m) W mu tau (cm_net m) (cm_data m).

(** The joint as a function of the background rates. *)
Lemma ct_joint_lam lgam m : params_ok m -> (forall a b, (a < cm_K m)%nat -> (b < cm_K m)%nat -> 0 < cm_W m a b) ->
  (forall d, In d (cm_data m) -> data_ok (cm_K m) d /\ legal_causes m d) ->
  same_law (fun x => forall k, (k < cm_K m)%nat -> 0 < x k)
    (fun x => ct_complete_joint lgam (ct_with m x (cm_W m) (cm_mu m) (cm_tau m)))
    (fun x => Rsum (cm_K m) (fun k => ct_posterior lgam (cm_alpha m) (cm_beta m) (map cd_stat (cm_data m)) k (x k))).
Proof.
  intros Hp HW HD. set (K := cm_K m) in *.
  eapply same_law_shift with (c := lsum (map (fun d => Rsum K (fun a => Rsum K (fun b => pois_loglik (n_children d a b) (n_of d a) (conn m a b) + delays_ll d (cut_delay m) a b))) (cm_data m))
    + (ct_param_lp lgam m - bias_lp lgam K (cm_alpha m) (cm_beta m) (cm_lam m))).
  intros x Hx. unfold ct_complete_joint, ct_param_lp, ct_with. cbn [cm_set cm_K cm_lam cm_A cm_W cm_mu cm_tau cm_net cm_data cm_alpha cm_beta cm_mu0 cm_lmbda0 cm_alpha0 cm_beta0].
  fold K.
  rewrite (lsum_map_ext (fun d => caused_ll K x (conn (cm_set m x (cm_A m) (cm_W m) (cm_mu m) (cm_tau m) (cm_net m) (cm_data m)))
      (cut_delay (cm_set m x (cm_A m) (cm_W m) (cm_mu m) (cm_tau m) (cm_net m) (cm_data m))) (ev_of d))
     (fun d => Rsum K (fun k => pois_loglik (n_background d k) (cd_T d) (x k)) + Rsum K (fun a => Rsum K (fun b => pois_loglik (n_children d a b) (n_of d a) (conn m a b) + delays_ll d (cut_delay m) a b)))).
  2:{ intros d Hd. destruct (HD d Hd) as (H1 & H2). apply (@legal_split m d x (conn m) (cm_mu m) (cm_tau m)); auto.
      intros a b Hi Hj. split; [now apply Hp|]. intros E. unfold conn. rewrite E. auto. }
  rewrite lsum_map_plus, lsum_Rsum_swap. unfold bias_lp, ct_posterior. rewrite Rsum_plus.
  assert (E : Rsum K (fun k => lsum (map (fun d => pois_loglik (cs_bkgd d k) (cs_T d) (x k)) (map cd_stat (cm_data m))))
     = Rsum K (fun k => lsum (map (fun d => pois_loglik (n_background d k) (cd_T d) (x k)) (cm_data m)))).
  { apply Rsum_ext. intros k _. rewrite map_map. apply lsum_map_ext. intros d Hd. destruct (HD d Hd) as (_ & Hs & _). cbn [cd_stat cs_bkgd cs_T].
    now rewrite (st_bkgd Hs). }
  rewrite E. ring.
Qed.
(** Background rates, one data set (or none): the requested gamma laws are the conditional of the joint. *)
Theorem C99_background_partial : forall lgam (g : gam1) m, params_ok m -> (length (cm_data m) <= 1)%nat -> 0 < cm_alpha m -> 0 < cm_beta m ->
  (forall a b, (a < cm_K m)%nat -> (b < cm_K m)%nat -> 0 < cm_W m a b) ->
  (forall d, In d (cm_data m) -> data_ok (cm_K m) d /\ 0 <= cd_T d /\ legal_causes m d) ->
  exists a s : vec,
  (forall k, (k < cm_K m)%nat -> ct_bias_resample g m (cm_data m) k = g k (a k) (s k) /\ 0 < a k /\ 0 < s k) /\
  same_law (fun x => forall k, (k < cm_K m)%nat -> 0 < x k)
    (fun x => Rsum (cm_K m) (fun k => gamma_lpdf lgam (a k) (/ s k) (x k)))
    (fun x => ct_complete_joint lgam (ct_with m x (cm_W m) (cm_mu m) (cm_tau m))).
Proof.
  intros lgam g m Hp Hlen Ha Hb HW HD. set (K := cm_K m) in *.
  set (req := fun k => ct_bias_request (cm_alpha m) (cm_beta m) (map cd_stat (cm_data m)) k).
  exists (fun k => fst (req k)), (fun k => snd (req k)). split.
  { intros k Hk. unfold ct_bias_resample. fold (req k). destruct (req k) as [a s] eqn:E. cbn [fst snd]. split; [reflexivity|].
    revert E. unfold req, ct_bias_request, ct_bias_ss. destruct (cm_data m) as [|d [|d' l]]; [| |cbn in Hlen; lia]; cbn [map fold_left]; intros E; injection E as <- <-.
    - split; [lra|]. apply Rdiv_lt_0_compat; lra.
    - destruct (HD d (or_introl eq_refl)) as (_ & HT & Hs & _). cbn [cd_stat cs_bkgd cs_T].
      assert (0 <= cd_bkgd d k) by (rewrite (st_bkgd Hs); apply count_nonneg). split; [lra|]. apply Rdiv_lt_0_compat; lra. }
  eapply same_law_trans.
  { apply (@same_law_sum R vec K (fun _ x => 0 < x) (fun k y => gamma_lpdf lgam (fst (req k)) (/ snd (req k)) y)
      (fun k y => ct_posterior lgam (cm_alpha m) (cm_beta m) (map cd_stat (cm_data m)) k y) (fun k x => x k)).
    intros k Hk. pose proof (@C23_single_data_set_partial lgam (cm_alpha m) (cm_beta m) (map cd_stat (cm_data m)) k) as H.
    rewrite map_length in H. specialize (H Hlen Hb). fold (req k) in H. destruct (req k) as [a s]. cbn [fst snd]. apply H.
    intros d Hin. apply in_map_iff in Hin as (d0 & <- & Hin). apply (HD d0 Hin). }
  apply same_law_sym, ct_joint_lam; auto. intros d Hd. destruct (HD d Hd) as (H1 & _ & H2). auto.
Qed.
Print Assumptions C99_background_partial.

(** With two data sets, only the last is used, and the request is not the conditional of the joint. *)
Definition ex99_d (n : nat) : ctdata :=
  {| cd_N := n; cd_S := fun _ => 0; cd_C := fun _ => 0%nat; cd_T := 1; cd_Z := fun _ => (-1)%Z; cd_bkgd := fun k => if Nat.eqb k 0 then INR n else 0; cd_weight := fun _ _ => 0; cd_imp := fun _ _ _ => 0 |}.
Lemma ex99_d_ok n m : cm_K m = 1%nat -> data_ok (cm_K m) (ex99_d n) /\ legal_causes m (ex99_d n).
Proof.
  intros EK. rewrite EK. split.
  - split; [intros; cbn; lra|]. split; [intros i j _ _; cbn; lra|intros; cbn; lia].
  - split; [|intros n' _; now left].
    assert (Z0 : forall (P : nat -> bool), (forall i, P i = false) -> count n P = 0) by (intros P H; unfold count; apply Rsum_0; intros; now rewrite H).
    assert (Z1 : forall (P : nat -> bool) x, (forall i, P i = false) -> total n P x = 0) by (intros P x H; unfold total; apply Rsum_0; intros; now rewrite H).
    constructor; intros; cbn [ex99_d cd_bkgd cd_weight cd_imp cd_N cd_Z cd_C]; rewrite ?Z0, ?Z1 by reflexivity; try reflexivity.
    + change (-1 =? -1)%Z with true. cbn [andb]. unfold count. rewrite Nat.eqb_sym. destruct (0 =? k)%nat; [|now rewrite Rsum_zero].
      rewrite Rsum_const. ring.
    + rewrite EK in H. destruct k; [|lia]. cbn [Nat.eqb]. rewrite Rsum_zero. unfold cd_Ns. rewrite Ns_count. unfold count. cbn [ex99_d cd_N cd_C Nat.eqb].
      rewrite Rsum_const. ring.
Qed.
Theorem C99_background_refuted : forall lgam, exists m, params_ok m /\ length (cm_data m) = 2%nat /\ 0 < cm_alpha m /\ 0 < cm_beta m /\
  (forall a b, (a < cm_K m)%nat -> (b < cm_K m)%nat -> 0 < cm_W m a b) /\
  (forall d, In d (cm_data m) -> data_ok (cm_K m) d /\ 0 <= cd_T d /\ legal_causes m d) /\
  forall a s : vec, (forall (g : gam1) k, (k < cm_K m)%nat -> ct_bias_resample g m (cm_data m) k = g k (a k) (s k)) ->
  ~ same_law (fun x => forall k, (k < cm_K m)%nat -> 0 < x k)
    (fun x => Rsum (cm_K m) (fun k => gamma_lpdf lgam (a k) (/ s k) (x k)))
    (fun x => ct_complete_joint lgam (ct_with m x (cm_W m) (cm_mu m) (cm_tau m))).
Proof.
  intros lgam. exists (cm_with_data (ex_ct 1) [ex99_d 1; ex99_d 0]). set (m := cm_with_data (ex_ct 1) [ex99_d 1; ex99_d 0]).
  assert (Hp : params_ok m) by (repeat split; intros; cbn; lra).
  assert (HD : forall d, In d (cm_data m) -> data_ok (cm_K m) d /\ legal_causes m d) by (intros d [<-|[<-|[]]]; now apply ex99_d_ok).
  assert (HW : forall a b, (a < cm_K m)%nat -> (b < cm_K m)%nat -> 0 < cm_W m a b) by (intros; cbn; lra).
  split; [exact Hp|]. split; [reflexivity|]. split; [cbn; lra|]. split; [cbn; lra|]. split; [exact HW|]. split.
  { intros d Hd. destruct (HD d Hd). split; [auto|]. split; [|auto]. destruct Hd as [<-|[<-|[]]]; cbn; lra. }
  intros a s Hr HS.
  assert (Ea : a 0%nat = 1 + 0) by (rewrite <- (Hr (fun _ x _ => x) 0%nat); [reflexivity|cbn; lia]).
  assert (Es : s 0%nat = 1 / (1 + 1)) by (rewrite <- (Hr (fun _ _ x => x) 0%nat); [reflexivity|cbn; lia]).
  destruct (same_law_trans HS (@ct_joint_lam lgam m Hp HW HD)) as [c Hc].
  pose proof (Hc (fun _ => 1) ltac:(intros; lra)) as H1. pose proof (Hc (fun _ => 2) ltac:(intros; lra)) as H2.
  unfold ct_posterior, gamma_lpdf, pois_loglik in H1, H2. cbn in H1, H2. rewrite Ea, Es, Rplus_0_r in H1, H2.
  replace (/ (1 / (1 + 1))) with 2 in * by field. rewrite !ln_1 in H1. rewrite !ln_1 in H2.
  assert (ln 2 < 1).
  { rewrite <- (ln_exp 1). apply ln_increasing; [lra|]. pose proof (exp_ineq1 1 ltac:(lra)). lra. }
  nra.
Qed.
Print Assumptions C99_background_refuted.

(** Weights of all ordered pairs, any number of data sets. *)
Theorem C99_weights : forall lgam (g : gam2) m, let n := net_view (cm_net m) in
  0 < n_kappa n -> (forall i j, (i < cm_K m)%nat -> (j < cm_K m)%nat -> 0 < n_V n i j) ->
  (forall a b, (a < cm_K m)%nat -> (b < cm_K m)%nat -> 0 < cm_tau m a b) ->
  (forall d, In d (cm_data m) -> data_ok (cm_K m) d /\ legal_causes m d) ->
  exists a s : mat,
  (forall i j, (i < cm_K m)%nat -> (j < cm_K m)%nat ->
     ct_W_resample g n (cm_A m) (cm_data m) i j = g i j (a i j) (s i j) /\ 0 < a i j /\ 0 < s i j /\
     (cm_A m i j = false -> a i j = n_kappa n /\ / s i j = n_V n i j)) /\
  same_law (fun x : mat => forall i j, (i < cm_K m)%nat -> (j < cm_K m)%nat -> 0 < x i j)
    (fun x => Rsum (cm_K m) (fun i => Rsum (cm_K m) (fun j => gamma_lpdf lgam (a i j) (/ s i j) (x i j))))
    (fun x => ct_complete_joint lgam (ct_with m (cm_lam m) x (cm_mu m) (cm_tau m))).
Proof.
  intros lgam g m n Hk HV Htau HD. set (K := cm_K m) in *.
  set (tgt := fun i j w => gamma_lpdf lgam (n_kappa n) (n_V n i j) w
      + if cm_A m i j then lsum (map (fun d => pois_loglik (n_children d i j) (n_of d i) w) (cm_data m)) else 0).
  assert (Hno : forall i j, cm_A m i j = false -> forall d, In d (cm_data m) -> n_children d i j = 0).
  { intros i j EA d Hd. destruct (HD d Hd) as (_ & _ & Hz). unfold n_children, count. apply Rsum_0. intros k Hk'. unfold pair_events.
    destruct (Hz k Hk') as [->|(p & Ep & Hp & _ & HA)]; [reflexivity|]. rewrite Ep.
    destruct (Z.of_nat p =? -1)%Z; [reflexivity|]. cbn [negb andb]. rewrite Nat2Z.id.
    destruct (Nat.eqb_spec (cd_C d p) i) as [<-|]; [|reflexivity]. destruct (Nat.eqb_spec (cd_C d k) j) as [<-|]; [congruence|reflexivity]. }
  destruct (@choice_lt2 (R * R) (0, 0) K (fun i j x => (ct_W_resample g n (cm_A m) (cm_data m) i j = g i j (fst x) (snd x) /\ 0 < fst x /\ 0 < snd x /\
     (cm_A m i j = false -> fst x = n_kappa n /\ / snd x = n_V n i j)) /\
     same_law (fun w => 0 < w) (fun w => gamma_lpdf lgam (fst x) (/ snd x) w) (tgt i j))) as [f Hf].
  { intros i j Hi Hj. destruct (@C77_weight_posterior lgam g m n (cm_A m) (cm_data m) i j Hk (HV i j Hi Hj)) as (a & s & H1 & H2 & H3 & H4 & H5).
    - intros d Hd. apply (HD d Hd).
    - now apply Hno.
    - exists (a, s). cbn [fst snd]. auto 10. }
  exists (fun i j => fst (f i j)), (fun i j => snd (f i j)). split; [intros i j Hi Hj; apply (Hf i j Hi Hj)|].
  eapply same_law_trans.
  { apply (@same_law_sum2 R mat K (fun _ _ w => 0 < w) (fun i j w => gamma_lpdf lgam (fst (f i j)) (/ snd (f i j)) w) tgt (fun i j x => x i j)).
    intros i j Hi Hj. apply (Hf i j Hi Hj). }
  apply same_law_sym. set (ew := fun i j (w : R) => if cm_A m i j then w else 0).
  eapply same_law_shift with (c := lsum (map (fun d => Rsum K (fun k => pois_loglik (n_background d k) (cd_T d) (cm_lam m k))
      + Rsum K (fun a => Rsum K (fun b => delays_ll d (cut_delay m) a b))) (cm_data m))
    + (ct_param_lp lgam m - Rsum K (fun i => Rsum K (fun j => gamma_lpdf lgam (n_kappa n) (n_V n i j) (cm_W m i j))))).
  intros x Hx. unfold ct_complete_joint, ct_param_lp, ct_with, all_weights_ll.
  cbn [cm_set cm_K cm_lam cm_A cm_W cm_mu cm_tau cm_net cm_data cm_alpha cm_beta cm_mu0 cm_lmbda0 cm_alpha0 cm_beta0]. fold K n.
  rewrite (lsum_map_ext (fun d => caused_ll K (cm_lam m) (conn (cm_set m (cm_lam m) (cm_A m) x (cm_mu m) (cm_tau m) (cm_net m) (cm_data m)))
      (cut_delay (cm_set m (cm_lam m) (cm_A m) x (cm_mu m) (cm_tau m) (cm_net m) (cm_data m))) (ev_of d))
     (fun d => (Rsum K (fun k => pois_loglik (n_background d k) (cd_T d) (cm_lam m k)) + Rsum K (fun a => Rsum K (fun b => delays_ll d (cut_delay m) a b)))
        + Rsum K (fun a => Rsum K (fun b => if cm_A m a b then pois_loglik (n_children d a b) (n_of d a) (x a b) else 0)))).
  2:{ intros d Hd. destruct (HD d Hd) as (H1 & H2).
      pose proof (@legal_split m d (cm_lam m) (fun a b => ew a b (x a b)) (cm_mu m) (cm_tau m) H1 H2) as E. cbv zeta in E. fold K in E.
      etransitivity; [exact (E ltac:(intros a b Hi Hj; split; [now apply Htau|intros EA; unfold ew; rewrite EA; now apply Hx]))|].
      rewrite (@Rsum_ext K (fun a => Rsum K (fun b => pois_loglik (n_children d a b) (n_of d a) (ew a b (x a b)) + _ a b))
        (fun a => Rsum K (fun b => if cm_A m a b then pois_loglik (n_children d a b) (n_of d a) (x a b) else 0) + Rsum K (fun b => delays_ll d (cut_delay m) a b))).
      - rewrite Rsum_plus. ring.
      - intros a _. rewrite <- Rsum_plus. apply Rsum_ext. intros b _. f_equal. unfold ew. destruct (cm_A m a b) eqn:EA; [reflexivity|].
        unfold pois_loglik. rewrite Hno by auto. ring. }
  rewrite (lsum_map_plus (fun d => Rsum K (fun k => pois_loglik (n_background d k) (cd_T d) (cm_lam m k)) + Rsum K (fun a => Rsum K (fun b => delays_ll d (cut_delay m) a b)))).
  assert (E : forall y : mat, Rsum K (fun i => Rsum K (fun j => if cm_A m i j then gamma_lpdf lgam (n_kappa n) (n_V n i j) (y i j) else gamma_lpdf lgam (n_kappa n) (n_V n i j) (y i j)))
       = Rsum K (fun i => Rsum K (fun j => gamma_lpdf lgam (n_kappa n) (n_V n i j) (y i j)))).
  { intros y. apply Rsum2_ext. intros i j _ _. now destruct (cm_A m i j). }
  rewrite !E.
  assert (E2 : Rsum K (fun i => Rsum K (fun j => tgt i j (x i j)))
    = Rsum K (fun i => Rsum K (fun j => gamma_lpdf lgam (n_kappa n) (n_V n i j) (x i j)))
      + lsum (map (fun d => Rsum K (fun a => Rsum K (fun b => if cm_A m a b then pois_loglik (n_children d a b) (n_of d a) (x a b) else 0))) (cm_data m))).
  { rewrite lsum_Rsum_swap, <- Rsum_plus. apply Rsum_ext. intros i _. rewrite lsum_Rsum_swap, <- Rsum_plus. apply Rsum_ext. intros j _. unfold tgt. f_equal.
    destruct (cm_A m i j); [reflexivity|]. rewrite lsum_map_const. ring. }
  rewrite E2. ring.
Qed.
Print Assumptions C99_weights.

(** ** Impulse parameters *)
Lemma normal_loglik_all m a b data mu tau :
  normal_loglik (all_delays m a b data) mu tau = lsum (map (fun d => Rsum (cd_N d) (fun n => if pair_events d a b n then ln (normal_pdf mu tau (xdelay m d n)) else 0)) data).
Proof.
  unfold normal_loglik, all_delays. induction data as [|d data IH]; [reflexivity|]. cbn [map concat lsum]. rewrite map_app, lsum_app, IH. f_equal.
  unfold pair_delays. rewrite map_map, lsum_filter, lsum_map_seq. reflexivity.
Qed.
Lemma ct_joint_delays lgam m : (forall a b, (a < cm_K m)%nat -> (b < cm_K m)%nat -> 0 < cm_W m a b) ->
  (forall d, In d (cm_data m) -> data_ok (cm_K m) d /\ legal_causes m d) ->
  same_law (fun x : nat -> nat -> R * R => forall i j, (i < cm_K m)%nat -> (j < cm_K m)%nat -> 0 < snd (x i j))
    (fun x => ct_complete_joint lgam (ct_with m (cm_lam m) (cm_W m) (fun i j => fst (x i j)) (fun i j => snd (x i j))))
    (fun x => Rsum (cm_K m) (fun i => Rsum (cm_K m) (fun j =>
       normal_gamma_lpdf lgam (cm_mu0 m) (cm_lmbda0 m) (cm_alpha0 m) (cm_beta0 m) (fst (x i j)) (snd (x i j))
       + normal_loglik (all_delays m i j (cm_data m)) (fst (x i j)) (snd (x i j))))).
Proof.
  intros HW HD. set (K := cm_K m) in *.
  set (jac := fun d i j => Rsum (cd_N d) (fun n => if pair_events d i j n then ln (kappa_c * (cm_dtmax m / (delay_of d n * (cm_dtmax m - delay_of d n)))) else 0)).
  eapply same_law_shift with (c := lsum (map (fun d => Rsum K (fun k => pois_loglik (n_background d k) (cd_T d) (cm_lam m k))
      + Rsum K (fun a => Rsum K (fun b => pois_loglik (n_children d a b) (n_of d a) (conn m a b) + jac d a b))) (cm_data m))
    + (ct_param_lp lgam m - delays_lp lgam K (cm_mu0 m) (cm_lmbda0 m) (cm_alpha0 m) (cm_beta0 m) (cm_mu m) (cm_tau m))).
  intros x Hx. set (mu := fun i j => fst (x i j)). set (tau := fun i j => snd (x i j)).
  set (nl := fun d i j => Rsum (cd_N d) (fun n => if pair_events d i j n then ln (normal_pdf (mu i j) (tau i j) (xdelay m d n)) else 0)).
  unfold ct_complete_joint, ct_param_lp, ct_with.
  cbn [cm_set cm_K cm_lam cm_A cm_W cm_mu cm_tau cm_net cm_data cm_alpha cm_beta cm_mu0 cm_lmbda0 cm_alpha0 cm_beta0]. fold K.
  rewrite (lsum_map_ext (fun d => caused_ll K (cm_lam m) (conn (cm_set m (cm_lam m) (cm_A m) (cm_W m) mu tau (cm_net m) (cm_data m)))
      (cut_delay (cm_set m (cm_lam m) (cm_A m) (cm_W m) mu tau (cm_net m) (cm_data m))) (ev_of d))
     (fun d => (Rsum K (fun k => pois_loglik (n_background d k) (cd_T d) (cm_lam m k)) + Rsum K (fun a => Rsum K (fun b => pois_loglik (n_children d a b) (n_of d a) (conn m a b) + jac d a b)))
        + Rsum K (fun a => Rsum K (fun b => nl d a b)))).
  2:{ intros d Hd. destruct (HD d Hd) as (H1 & H2). pose proof H2 as [_ Hz].
      pose proof (@legal_split m d (cm_lam m) (conn m) mu tau H1 H2) as E. cbv zeta in E. fold K in E.
      etransitivity; [exact (E ltac:(intros a b Hi Hj; split; [now apply Hx|intros EA; unfold conn; rewrite EA; now apply HW]))|].
      rewrite Rplus_assoc. f_equal. rewrite <- Rsum2_plus. apply Rsum2_ext. intros a b Hi Hj. rewrite Rplus_assoc. f_equal.
      unfold delays_ll, jac, nl. rewrite <- Rsum_plus. apply Rsum_ext. intros n Hn. destruct (pair_events d a b n) eqn:Ep; [|ring].
      unfold pair_events in Ep. destruct (Hz n Hn) as [En|(p & En & Hp & Hw & _)]; rewrite En in Ep; [discriminate|].
      unfold delay_of, xdelay, cut_delay. rewrite En, Nat2Z.id. cbn [cm_set cm_dtmax cm_mu cm_tau].
      replace (Rleb eps (cd_S d n - cd_S d p)) with true by (symmetry; apply Rleb_true; lra).
      replace (Rleb (cd_S d n - cd_S d p) (cm_dtmax m - eps)) with true by (symmetry; apply Rleb_true; lra). cbn [andb].
      set (dt := cd_S d n - cd_S d p) in *. pose proof kappa_c_pos as Hk. pose proof eps_pos as He. pose proof PI_RGT_0 as HPI.
      assert (0 < tau a b) by (now apply Hx). unfold delay_pdf.
      assert (0 < cm_dtmax m / (dt * (cm_dtmax m - dt))) by (apply Rdiv_lt_0_compat; [lra|apply Rmult_lt_0_compat; lra]).
      rewrite <- Rmult_assoc, (Rmult_comm kappa_c), Rmult_assoc, ln_mult; [ring| |].
      - unfold normal_pdf. apply Rmult_lt_0_compat; [apply sqrt_lt_R0, Rdiv_lt_0_compat; lra|apply exp_pos].
      - apply Rmult_lt_0_compat; lra. }
  rewrite (lsum_map_plus (fun d => Rsum K (fun k => pois_loglik (n_background d k) (cd_T d) (cm_lam m k)) + Rsum K (fun a => Rsum K (fun b => pois_loglik (n_children d a b) (n_of d a) (conn m a b) + jac d a b)))).
  assert (E2 : Rsum K (fun i => Rsum K (fun j => normal_gamma_lpdf lgam (cm_mu0 m) (cm_lmbda0 m) (cm_alpha0 m) (cm_beta0 m) (fst (x i j)) (snd (x i j))
       + normal_loglik (all_delays m i j (cm_data m)) (fst (x i j)) (snd (x i j))))
    = delays_lp lgam K (cm_mu0 m) (cm_lmbda0 m) (cm_alpha0 m) (cm_beta0 m) mu tau + lsum (map (fun d => Rsum K (fun a => Rsum K (fun b => nl d a b))) (cm_data m))).
  { rewrite Rsum2_plus. f_equal. rewrite lsum_Rsum_swap. apply Rsum_ext. intros i _. rewrite lsum_Rsum_swap. apply Rsum_ext. intros j _. apply normal_loglik_all. }
  rewrite E2. ring.
Qed.
(** The request for all pairs is the conditional of the joint exactly when, for each pair, the data sets with attributed
    events agree in their mean transformed delay; always so with a single data set. *)
Theorem C99_impulses_partial : forall lgam m, 0 < cm_lmbda0 m ->
  (forall a b, (a < cm_K m)%nat -> (b < cm_K m)%nat -> 0 < cm_W m a b) ->
  (forall d, In d (cm_data m) -> data_ok (cm_K m) d /\ legal_causes m d) ->
  (same_law (fun x : nat -> nat -> R * R => forall i j, (i < cm_K m)%nat -> (j < cm_K m)%nat -> 0 < snd (x i j))
    (fun x => Rsum (cm_K m) (fun i => Rsum (cm_K m) (fun j => ng lgam (ct_imp_request m (cm_data m) i j) (x i j))))
    (fun x => ct_complete_joint lgam (ct_with m (cm_lam m) (cm_W m) (fun i j => fst (x i j)) (fun i j => snd (x i j))))
   <-> forall i j d, (i < cm_K m)%nat -> (j < cm_K m)%nat -> In d (cm_data m) -> pair_delays m i j d <> [] ->
         mean (pair_delays m i j d) = mean (all_delays m i j (cm_data m))) /\
  ((length (cm_data m) <= 1)%nat -> forall i j d, In d (cm_data m) -> mean (pair_delays m i j d) = mean (all_delays m i j (cm_data m))).
Proof.
  intros lgam m Hl HW HD. set (K := cm_K m) in *. pose proof (@ct_joint_delays lgam m HW HD) as HJ. fold K in HJ.
  assert (Hst : forall d, In d (cm_data m) -> stats_ok m d) by (intros d Hd; apply (HD d Hd)).
  set (post := fun i j p => normal_gamma_lpdf lgam (cm_mu0 m) (cm_lmbda0 m) (cm_alpha0 m) (cm_beta0 m) (fst p) (snd p) + normal_loglik (all_delays m i j (cm_data m)) (fst p) (snd p)).
  split; [split|].
  - intros HS i j d Hi Hj Hd Hne. revert d Hd Hne. apply (@C65_posterior_iff_means_agree lgam m (cm_data m) i j Hst Hl).
    destruct (same_law_trans HS (HJ : same_law _ _ (fun x => Rsum K (fun i => Rsum K (fun j => post i j (x i j)))))) as [c Hc].
    set (base := fun _ _ : nat => (0, 1)).
    exists (c + (Rsum K (fun i => Rsum K (fun j => post i j (base i j))) - post i j (base i j))
      - (Rsum K (fun i => Rsum K (fun j => ng lgam (ct_imp_request m (cm_data m) i j) (base i j))) - ng lgam (ct_imp_request m (cm_data m) i j) (base i j))).
    intros p Hp. specialize (Hc (upd2 base i j p)).
    rewrite (@Rsum2_upd2 (R * R) K (fun a b y => ng lgam (ct_imp_request m (cm_data m) a b) y) base i j p Hi Hj) in Hc.
    rewrite (@Rsum2_upd2 (R * R) K post base i j p Hi Hj) in Hc. cbv beta in Hc. fold (post i j p).
    assert (H : ng lgam (ct_imp_request m (cm_data m) i j) p = post i j p + (c + (Rsum K (fun i => Rsum K (fun j => post i j (base i j))) - post i j (base i j))
      - (Rsum K (fun i => Rsum K (fun j => ng lgam (ct_imp_request m (cm_data m) i j) (base i j))) - ng lgam (ct_imp_request m (cm_data m) i j) (base i j)))); [|exact H].
    lapply Hc; [lra|]. intros a b _ _. unfold upd2. destruct (_ && _)%bool; [exact Hp|cbn; lra].
  - intros Hm. eapply same_law_trans; [|apply same_law_sym; exact HJ].
    apply (@same_law_sum2 (R * R) (nat -> nat -> R * R) K (fun _ _ p => 0 < snd p) (fun i j p => ng lgam (ct_imp_request m (cm_data m) i j) p) post (fun i j x => x i j)).
    intros i j Hi Hj. apply (@C65_posterior_iff_means_agree lgam m (cm_data m) i j Hst Hl). intros d Hd Hne. now apply Hm.
  - intros Hlen i j d Hd. destruct (cm_data m) as [|d0 [|d1 l]]; [destruct Hd| |cbn in Hlen; lia]. destruct Hd as [<-|[]].
    unfold all_delays. cbn [map concat]. now rewrite app_nil_r.
Qed.
Print Assumptions C99_impulses_partial.

(** The state a parent update leaves is one the theorems speak about. *)
Theorem C99_legal : forall m order u d d', params_ok m -> data_ok (cm_K m) d -> Permutation order (seq 0 (cd_N d)) ->
  (forall n, (n < cd_N d)%nat -> unit_interval (u n)) -> ct_parents_resample m order u d = Ok d' ->
  data_ok (cm_K m) d' /\ legal_causes m d'.
Proof.
  intros m order u d d' Hp Hd Ho Hu E. destruct (@C59_parent_update m order u d Hp Hd Ho Hu) as (d2 & E2 & (EN & ES & EC & ET) & Hs & H).
  rewrite E in E2. injection E2 as <-. split; [unfold data_ok; rewrite EN, ES, EC, ET; exact Hd|]. split; [exact Hs|].
  intros n Hn. rewrite EN in Hn. destruct (H n Hn) as ((j & Hj & Ej & _) & _ & Hc). destruct j as [|p]; [left; rewrite Ej; reflexivity|right].
  exists p. assert (Ez : cd_Z d' n = Z.of_nat p) by (rewrite Ej; lia). split; [exact Ez|]. destruct (Hc p Ez) as (H1 & H2 & H3 & _). rewrite ES, EC. auto.
Qed.
Print Assumptions C99_legal.

(** Two data sets attributed by the sampler itself, whose impulse parameters are then not drawn from the conditional. *)
Theorem C99_impulses_refuted : forall lgam, exists m, params_ok m /\ 0 < cm_lmbda0 m /\ length (cm_data m) = 2%nat /\
  (forall a b, (a < cm_K m)%nat -> (b < cm_K m)%nat -> 0 < cm_W m a b) /\
  (forall d, In d (cm_data m) -> data_ok (cm_K m) d /\ legal_causes m d) /\
  ~ same_law (fun x : nat -> nat -> R * R => forall i j, (i < cm_K m)%nat -> (j < cm_K m)%nat -> 0 < snd (x i j))
    (fun x => Rsum (cm_K m) (fun i => Rsum (cm_K m) (fun j => ng lgam (ct_imp_request m (cm_data m) i j) (x i j))))
    (fun x => ct_complete_joint lgam (ct_with m (cm_lam m) (cm_W m) (fun i j => fst (x i j)) (fun i j => snd (x i j)))).
Proof.
  intros lgam.
  destruct (@ex_attributed 1 ltac:(lra)) as (u1 & d1 & U1 & E1 & S1 & L1). destruct (@ex_attributed (4/3) ltac:(lra)) as (u2 & d2 & U2 & E2 & S2 & L2).
  set (m := cm_with_data (ex_ct 1) [d1; d2]). exists m.
  assert (Hp : params_ok m) by (repeat split; intros; cbn; lra).
  assert (HW : forall a b, (a < cm_K m)%nat -> (b < cm_K m)%nat -> 0 < cm_W m a b) by (intros; cbn; lra).
  assert (HD : forall d, In d (cm_data m) -> data_ok (cm_K m) d /\ legal_causes m d).
  { intros d [<-|[<-|[]]].
    - exact (@C99_legal m [0%nat; 1%nat] u1 (ex_rec 1) d1 Hp (@ex_rec_ok 1 ltac:(lra)) (Permutation_refl _) U1 E1).
    - exact (@C99_legal m [0%nat; 1%nat] u2 (ex_rec (4/3)) d2 Hp (@ex_rec_ok (4/3) ltac:(lra)) (Permutation_refl _) U2 E2). }
  split; [exact Hp|]. split; [cbn; lra|]. split; [reflexivity|]. split; [exact HW|]. split; [exact HD|].
  intros HS. pose proof (proj1 (proj1 (@C99_impulses_partial lgam m ltac:(cbn; lra) HW HD)) HS) as HS'. clear HS. rename HS' into HS.
  change (pair_delays (ex_ct 1) 0 0) with (pair_delays m 0 0) in L1, L2.
  specialize (HS 0%nat 0%nat d1 ltac:(cbn; lia) ltac:(cbn; lia) (or_introl eq_refl) ltac:(rewrite L1; discriminate)).
  assert (EA : all_delays m 0 0 (cm_data m) = [to_line 2 1; to_line 2 (4/3)]) by (change (cm_data m) with [d1; d2]; unfold all_delays; cbn [map concat]; rewrite L1, L2; reflexivity).
  rewrite L1, EA in HS. unfold mean in HS. cbn in HS.
  unfold to_line in HS. assert (EQ : ln (4/3 / (2 - 4/3)) <> ln (1 / (2 - 1))); [|lra].
  replace (4/3 / (2 - 4/3)) with 2 by field. replace (1 / (2 - 1)) with 1 by field. rewrite ln_1. pose proof ln_lt_2. lra.
Qed.
Print Assumptions C99_impulses_refuted.

(** ** Edges *)
(** The causes summed out: each edge is drawn, given the edges before it in its column already updated, from its conditional
    under the joint of parameters and events. *)
Theorem C99_edges : forall lgam order norder g u m,
  net_ok (cm_K m) (cm_net m) ->
  (forall k, (k < cm_K m)%nat -> 0 < cm_lam m k) -> (forall a b, (a < cm_K m)%nat -> (b < cm_K m)%nat -> 0 < cm_tau m a b) ->
  (forall d, In d (cm_data m) -> data_ok (cm_K m) d /\ Permutation (norder d) (seq 0 (cd_N d)) /\ no_ties m d) ->
  (forall i j, (i < cm_K m)%nat -> (j < cm_K m)%nat -> unit_interval (u i j)) ->
  Permutation order (seq 0 (cm_K m)) ->
  let m' := ct_weights_resample order norder g u m (cm_data m) in
  (forall i j, (i < cm_K m)%nat -> (j < cm_K m)%nat -> 0 <= cm_W m' i j) ->
  forall k1 k2 (M : bmat), (k1 < cm_K m)%nat -> (k2 < cm_K m)%nat ->
    (forall i, (i < cm_K m)%nat -> M i k2 = if Nat.ltb i k1 then cm_A m' i k2 else cm_A m i k2) ->
    possible (net_allow (cm_net m)) k1 k2 = true -> 0 < n_P (net_view (cm_net m)) k1 k2 < 1 ->
    let J b := ct_data_joint lgam (ct_with_A m' (upd2 M k1 k2 b)) in
    (cm_A m' k1 k2 = true <-> u k1 k2 < exp (J true) / (exp (J false) + exp (J true))).
Proof.
  intros lgam order norder g u m Hn Hlam Htau HD Hu Ho m' HW k1 k2 M Hk1 Hk2 HM Hpos HP J.
  destruct (@C76_edges_from_posterior order norder g u m (cm_data m) Hn Hlam Htau) as [Em H]; auto.
  { intros d Hd. destruct (HD d Hd) as (H1 & H2 & _). auto. }
  fold m' in Em, H. specialize (H k1 k2 M Hk1 Hk2 HM). cbv zeta in H. destruct H as [_ HA]. rewrite HA.
  set (P := n_P (net_view (cm_net m)) k1 k2) in *. set (n := net_view (cm_net m)) in *.
  set (L := fun b : bool => lsum (map (hawkes_loglik (ct_with_A m' (upd2 M k1 k2 b))) (cm_data m))).
  change (u k1 k2 < edge_posterior P (L false) (L true) <-> u k1 k2 < exp (J true) / (exp (J false) + exp (J true))).
  assert (EK : cm_K m' = cm_K m) by (rewrite Em; reflexivity). assert (En : cm_net m' = cm_net m) by (rewrite Em; reflexivity).
  assert (Ed : cm_data m' = cm_data m) by (rewrite Em; reflexivity). assert (El : cm_lam m' = cm_lam m) by (rewrite Em; reflexivity).
  assert (Et : cm_tau m' = cm_tau m) by (rewrite Em; reflexivity). assert (EDt : cm_dtmax m' = cm_dtmax m) by (rewrite Em; reflexivity).
  clearbody m'. clear Em HA.
  assert (EJ : exists c, forall b, J b = L b + bern_ll P b + c).
  { exists (ct_param_lp lgam (ct_with_A m' M) - bern_ll P (M k1 k2)). intros b. unfold J, ct_data_joint.
    change (cm_data (ct_with_A m' (upd2 M k1 k2 b))) with (cm_data m'). rewrite Ed.
    rewrite (lsum_map_ext (fun d => ln (causes_sum (ct_with_A m' (upd2 M k1 k2 b)) d)) (hawkes_loglik (ct_with_A m' (upd2 M k1 k2 b)))).
    2:{ intros d Hd. destruct (HD d Hd) as (H1 & _ & H3). unfold causes_sum.
        rewrite (proj1 (@C99_marginal (ct_with_A m' (upd2 M k1 k2 b)) d ltac:(split; [|split]; cbn [ct_with_A cm_set cm_K cm_lam cm_W cm_tau]; rewrite ?EK, ?El, ?Et; auto)
           ltac:(cbn [ct_with_A cm_set cm_K]; now rewrite EK) ltac:(unfold no_ties; cbn [ct_with_A cm_set cm_dtmax]; rewrite EDt; exact H3))). apply ln_exp. }
    fold (L b).
    enough (ct_param_lp lgam (ct_with_A m' (upd2 M k1 k2 b)) = ct_param_lp lgam (ct_with_A m' M) + (bern_ll P b - bern_ll P (M k1 k2))) by lra.
    unfold ct_param_lp. cbn [ct_with_A cm_set cm_K cm_lam cm_A cm_W cm_mu cm_tau cm_net cm_data cm_alpha cm_beta cm_mu0 cm_lmbda0 cm_alpha0 cm_beta0]. rewrite EK, En. fold n.
    assert (Ew : forall A, all_weights_ll (cm_K m) (fun i j => gamma_lpdf lgam (n_kappa n) (n_V n i j)) (fun i j => gamma_lpdf lgam (n_kappa n) (n_V n i j)) A (cm_W m')
       = Rsum (cm_K m) (fun i => Rsum (cm_K m) (fun j => gamma_lpdf lgam (n_kappa n) (n_V n i j) (cm_W m' i j)))).
    { intros A. unfold all_weights_ll. apply Rsum2_ext. intros i j _ _. now destruct (A i j). }
    rewrite !Ew. unfold edges_ll.
    rewrite (@Rsum2_upd2 bool (cm_K m) (fun i j x => if possible (net_allow (cm_net m)) i j then bern_ll (n_P n i j) x else 0) M k1 k2 b Hk1 Hk2).
    cbv beta. rewrite Hpos. fold P. ring. }
  destruct EJ as [c EJ]. rewrite (EJ true), (EJ false). cbn [bern_ll]. rewrite !exp_plus, !exp_ln by lra. unfold edge_posterior.
  assert (Hc := exp_pos c). pose proof (exp_pos (L false)) as H0. pose proof (exp_pos (L true)) as H1.
  replace (exp (L true) * P * exp c / (exp (L false) * (1 - P) * exp c + exp (L true) * P * exp c))
    with (P * exp (L true) / (P * exp (L true) + (1 - P) * exp (L false))); [reflexivity|].
  assert (0 < P * exp (L true)) by (apply Rmult_lt_0_compat; lra). assert (0 < (1 - P) * exp (L false)) by (apply Rmult_lt_0_compat; lra).
  field. split; nra.
Qed.
Print Assumptions C99_edges.

(** ** Network parameters *)
(** Weights of absent edges integrated out: they are redrawn right after the network. *)
Definition ct_network_joint (lgam : R -> R) (m : ctmodel) : R :=
  ct_complete_joint lgam m -
  Rsum (cm_K m) (fun i => Rsum (cm_K m) (fun j => if cm_A m i j then 0 else
    gamma_lpdf lgam (n_kappa (net_view (cm_net m))) (n_V (net_view (cm_net m)) i j) (cm_W m i j))).
Definition ct_with_net (m : ctmodel) (no : netobj) : ctmodel := cm_set m (cm_lam m) (cm_A m) (cm_W m) (cm_mu m) (cm_tau m) no (cm_data m).
(** A discrete-time model with the same edges, weights and network, to reuse C90: the network update sees nothing else. *)
Definition shadow (m : ctmodel) : gibbs :=
  {| gi_m := {| dm_K := cm_K m; dm_B := 1; dm_dt := 1; dm_L := 1; dm_L_int := true; dm_bas := fun _ _ => 1; dm_mix := false; dm_A := cm_A m; dm_W := cm_W m;
       dm_g := fun _ _ _ => 1; dm_lam := fun _ => 1; dm_data := [] |};
     gi_net := cm_net m; gi_h := {| h_alpha := 1; h_beta := 1; h_gamma := fun _ => 1; h_kappa0 := 1; h_nu0 := 1; h_parallel := false; h_gsl := false |} |}.
Lemma shadow_joint lgam m : exists c, forall no, ct_network_joint lgam (ct_with_net m no) = network_joint lgam (with_net (shadow m) no) + c.
Proof.
  destruct (network_joint_split lgam (shadow m)) as [c Hc].
  exists (lsum (map (fun d => caused_ll (cm_K m) (cm_lam m) (conn m) (cut_delay m) (ev_of d)) (cm_data m))
    + bias_lp lgam (cm_K m) (cm_alpha m) (cm_beta m) (cm_lam m) + delays_lp lgam (cm_K m) (cm_mu0 m) (cm_lmbda0 m) (cm_alpha0 m) (cm_beta0 m) (cm_mu m) (cm_tau m) - c).
  intros no. specialize (Hc no). cbv zeta in Hc. rewrite Hc. cbn [shadow gi_m dm_K dm_A dm_W]. set (n := net_view no) in *. set (K := cm_K m) in *.
  unfold ct_network_joint, ct_complete_joint, ct_param_lp, ct_with_net.
  cbn [cm_set cm_K cm_lam cm_A cm_W cm_mu cm_tau cm_net cm_data cm_alpha cm_beta cm_mu0 cm_lmbda0 cm_alpha0 cm_beta0]. fold n K.
  assert (Eg : all_weights_ll K (fun i j => gamma_lpdf lgam (n_kappa n) (n_V n i j)) (fun i j => gamma_lpdf lgam (n_kappa n) (n_V n i j)) (cm_A m) (cm_W m)
     = Rsum K (fun i => Rsum K (fun j => if cm_A m i j then gamma_lpdf lgam (n_kappa n) (n_V n i j) (cm_W m i j) else 0))
       + Rsum K (fun i => Rsum K (fun j => if cm_A m i j then 0 else gamma_lpdf lgam (n_kappa n) (n_V n i j) (cm_W m i j)))).
  { unfold all_weights_ll. rewrite <- Rsum2_plus. apply Rsum2_ext. intros i j _ _. destruct (cm_A m i j); ring. }
  rewrite Eg.
  change (conn (cm_set m (cm_lam m) (cm_A m) (cm_W m) (cm_mu m) (cm_tau m) no (cm_data m))) with (conn m).
  change (cut_delay (cm_set m (cm_lam m) (cm_A m) (cm_W m) (cm_mu m) (cm_tau m) no (cm_data m))) with (cut_delay m). ring.
Qed.
Lemma shadow_law {X} lgam m (D : X -> Prop) f (no : X -> netobj) : same_law D f (fun x => network_joint lgam (with_net (shadow m) (no x))) <->
  same_law D f (fun x => ct_network_joint lgam (ct_with_net m (no x))).
Proof.
  destruct (shadow_joint lgam m) as [c Hc].
  assert (E : same_law D (fun x => ct_network_joint lgam (ct_with_net m (no x))) (fun x => network_joint lgam (with_net (shadow m) (no x)))) by (exists c; intros; apply Hc).
  split; intros H; (eapply same_law_trans; [exact H|]); [now apply same_law_sym|exact E].
Qed.
Definition ct_legal_edges (m : ctmodel) : Prop := net_allow (cm_net m) = false -> no_self_edges (cm_K m) (cm_A m).

(** Connection probabilities, scales, block weights and labels of a stochastic block model; the scale of an Erdos-Renyi
    network: as in the discrete-time model (C90), with the same restrictions. *)
Theorem C99_network_partial : forall lgam m fp s, cm_net m = NetSbm fp s -> sb_K s = cm_K m -> labels_ok s -> ct_legal_edges m ->
  let A := cm_A m in let W := cm_W m in
  let J m_ c_ p_ v_ := ct_network_joint lgam (ct_with_net m (NetSbm fp (sb_set s m_ c_ p_ v_))) in
  (sb_allow s = true -> same_law (fun x : mat => forall a b, (a < sb_C s)%nat -> (b < sb_C s)%nat -> 0 < x a b < 1)
    (fun x => Rsum (sb_C s) (fun a => Rsum (sb_C s) (fun b => beta_lpdf lgam (fst (p_request s A a b)) (snd (p_request s A a b)) (x a b))))
    (fun x => J (sb_m s) (sb_c s) x (sb_v s))) /\
  same_law (fun x : mat => forall a b, (a < sb_C s)%nat -> (b < sb_C s)%nat -> 0 < x a b)
    (fun x => Rsum (sb_C s) (fun a => Rsum (sb_C s) (fun b => gamma_lpdf lgam (fst (v_request s A W a b)) (/ snd (v_request s A W a b)) (x a b))))
    (fun x => J (sb_m s) (sb_c s) (sb_p s) x) /\
  same_law (open_simplex (sb_C s)) (fun x => dirichlet_lpdf lgam (sb_C s) (m_request s) x) (fun x => J x (sb_c s) (sb_p s) (sb_v s)) /\
  (sbm_pos s -> pos_edges (sb_K s) A W ->
   (forall a b, (a < sb_C s)%nat -> (b < sb_C s)%nat -> sb_p s a a = sb_p s b b /\ sb_v s a a = sb_v s b b) ->
   forall k c, (k < sb_K s)%nat -> (forall j, (j < sb_K s)%nat -> (c j < sb_C s)%nat) ->
   same_law (fun x => (x < sb_C s)%nat) (fun x => fval (c_request lgam s A W c k x)) (fun x => J (sb_m s) (upd c k x) (sb_p s) (sb_v s))).
Proof.
  intros lgam m fp s En EK Hl Hle A W J. split; [|split; [|split]].
  - intros Hal. apply shadow_law. apply (@C90_probabilities_partial lgam (shadow m) fp s); auto.
  - apply shadow_law. destruct (@C90_scales lgam (shadow m) fp s En EK Hl Hle) as (a & b & E & H).
    eapply same_law_trans; [|exact H]. apply same_law_eq. intros x _. apply Rsum2_ext. intros i j _ _. unfold A, W.
    change (cm_A m) with (dm_A (gi_m (shadow m))). change (cm_W m) with (dm_W (gi_m (shadow m))). rewrite E. cbn [fst snd].
    replace (/ (1 / b i j)) with (b i j); [reflexivity|]. unfold Rdiv. rewrite Rmult_1_l. symmetry. apply Rinv_inv.
  - apply shadow_law. apply (@C90_block_weights lgam (shadow m) fp s); auto.
  - intros Hp He Hd k c Hk Hc. apply (@shadow_law nat lgam m (fun x => (x < sb_C s)%nat) _ (fun x => NetSbm fp (sb_set s (sb_m s) (upd c k x) (sb_p s) (sb_v s)))). now apply (@C90_labels_partial lgam (shadow m) fp s).
Qed.
Print Assumptions C99_network_partial.
Theorem C99_erdos_renyi : forall lgam g m n al be, cm_net m = NetEr n -> e_K n = cm_K m -> ct_legal_edges m ->
  e_alpha n = Some al -> e_beta n = Some be -> 0 < al -> 0 < be ->
  exists a b, er_resample g (cm_A m) (cm_W m) n = er_with_v n (g a (1 / b)) /\
  same_law (fun x => 0 < x) (fun x => gamma_lpdf lgam a b x) (fun x => ct_network_joint lgam (ct_with_net m (NetEr (er_with_v n x)))).
Proof.
  intros lgam g m n al be En EK Hle Ea Eb Ha Hb. destruct (@C90_erdos_renyi lgam g (shadow m) n al be En EK Hle Ea Eb Ha Hb) as (a & b & E & H).
  exists a, b. split; [exact E|]. now apply (shadow_law lgam m (fun x => 0 < x) (fun x => gamma_lpdf lgam a b x) (fun x => NetEr (er_with_v n x))).
Qed.
Print Assumptions C99_erdos_renyi.
(** Connection probabilities with self-connections excluded, and labels with unequal diagonal blocks, are not. *)
Theorem C99_network_refuted :
  (forall lgam m fp s, cm_net m = NetSbm fp s -> sb_K s = cm_K m -> (0 < sb_K s)%nat -> labels_ok s -> sb_allow s = false -> ct_legal_edges m ->
   ~ same_law (fun x : mat => forall a b, (a < sb_C s)%nat -> (b < sb_C s)%nat -> 0 < x a b < 1)
    (fun x => Rsum (sb_C s) (fun a => Rsum (sb_C s) (fun b => beta_lpdf lgam (fst (p_request s (cm_A m) a b)) (snd (p_request s (cm_A m) a b)) (x a b))))
    (fun x => ct_network_joint lgam (ct_with_net m (NetSbm fp (sb_set s (sb_m s) (sb_c s) x (sb_v s)))))) /\
  (forall lgam, exists m fp s k c, cm_net m = NetSbm fp s /\ sb_K s = cm_K m /\ ct_legal_edges m /\ (k < sb_K s)%nat /\ sbm_pos s /\
   (forall j, (j < sb_K s)%nat -> (c j < sb_C s)%nat) /\ pos_edges (sb_K s) (cm_A m) (cm_W m) /\
   ~ same_law (fun x => (x < sb_C s)%nat) (fun x => fval (c_request lgam s (cm_A m) (cm_W m) c k x))
      (fun x => ct_network_joint lgam (ct_with_net m (NetSbm fp (sb_set s (sb_m s) (upd c k x) (sb_p s) (sb_v s)))))).
Proof.
  split.
  - intros lgam m fp s En EK HK Hl Hal Hle HS. apply (shadow_law lgam m _ _ (fun x => NetSbm fp (sb_set s (sb_m s) (sb_c s) x (sb_v s)))) in HS.
    revert HS. apply (@C90_probabilities_refuted lgam (shadow m) fp s); auto.
  - intros lgam. destruct C31_self_pair_counted_twice_refuted as (s & A & W & c & k & Hp & Hc & He & Hk & Hal & Hno).
    set (m := {| cm_K := sb_K s; cm_dtmax := 2; cm_lam := fun _ => 1; cm_A := A; cm_W := W; cm_mu := fun _ _ => 0;
     cm_tau := fun _ _ => 1; cm_net := NetSbm false s; cm_data := []; cm_alpha := 1; cm_beta := 1; cm_mu0 := 0; cm_lmbda0 := 1;
     cm_alpha0 := 1; cm_beta0 := 1; cm_par := true |}).
    exists m, false, s, k, c. assert (Hle : ct_legal_edges m) by (unfold ct_legal_edges; cbn; congruence).
    split; [reflexivity|]. split; [reflexivity|]. split; [exact Hle|]. do 4 (split; [assumption|]).
    intros HS. apply (shadow_law lgam m _ _ (fun x => NetSbm false (sb_set s (sb_m s) (upd c k x) (sb_p s) (sb_v s)))) in HS.
    apply (Hno lgam). eapply same_law_trans; [exact HS|]. eapply same_law_weaken; [intros; exact I|exact (@network_joint_c lgam (shadow m) false s k eq_refl eq_refl Hle Hk c)].
Qed.
Print Assumptions C99_network_refuted.

(** Non-vacuity: one recording of two events, the second caused by the first. *)
Example C99_nonvacuous : exists m d, cm_data m = [d] /\ params_ok m /\ net_ok (cm_K m) (cm_net m) /\ data_ok (cm_K m) d /\ legal_causes m d /\ no_ties m d /\
  0 < cm_alpha m /\ 0 < cm_beta m /\ 0 < cm_lmbda0 m /\ (forall a b, 0 < cm_W m a b) /\ ct_legal_edges m /\ n_children d 0%nat 0%nat = 1 /\
  possible (net_allow (cm_net m)) 0%nat 0%nat = true /\ 0 < n_P (net_view (cm_net m)) 0%nat 0%nat < 1.
Proof.
  destruct (@ex_attributed 1 ltac:(lra)) as (u1 & d1 & U1 & E1 & S1 & L1). set (m := cm_with_data (ex_ct 1) [d1]). exists m, d1.
  assert (Hp : params_ok m) by (repeat split; intros; cbn; lra).
  pose proof (@C99_legal m [0%nat; 1%nat] u1 (ex_rec 1) d1 Hp (@ex_rec_ok 1 ltac:(lra)) (Permutation_refl _) U1 E1) as [Hd Hl].
  destruct (@C59_parent_update (ex_ct 1) [0%nat; 1%nat] u1 (ex_rec 1) (@ex_ct_ok 1 ltac:(lra)) (@ex_rec_ok 1 ltac:(lra)) (Permutation_refl _) U1) as (d2 & E2 & (EN & ES & EC & ET) & _).
  rewrite E1 in E2. injection E2 as <-.
  split; [reflexivity|]. split; [exact Hp|]. split; [exact ex_net_ct_ok|]. split; [exact Hd|]. split; [exact Hl|].
  split. { intros n p Hn Hp'. rewrite EN in Hn. rewrite ES. cbn in Hn |- *. destruct n as [|[|]]; try lia. destruct p; [|lia]. cbn. unfold eps. lra. }
  do 3 (split; [cbn; lra|]). split; [intros; cbn; lra|]. split; [unfold ct_legal_edges; cbn; discriminate|].
  split. { unfold n_children. rewrite count_list. assert (EL : length (pair_delays (ex_ct 1) 0 0 d1) = 1%nat) by now rewrite L1.
    unfold pair_delays in EL. rewrite map_length in EL. rewrite EL. reflexivity. }
  split; [reflexivity|]. cbn. unfold er_P. cbn. lra.
Qed.
