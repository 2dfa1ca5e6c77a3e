(** * L_Sweep: lemmas for whole Gibbs sweeps. *)
From Coq Require Import Permutation.
From Verif Require Import Prelude ExtReal Arrays Spec_Basis Spec_Discrete Spec_Parents Spec_Gibbs Spec_Network
  M_Basis M_Parents M_Discrete M_Gibbs M_Dist M_Network M_Sweep L_Basis L_Discrete L_Parents L_Gibbs L_Network
  Props_Discrete Props_Parents Props_Gibbs Props_Network.
Set Implicit Arguments.
Open Scope R_scope.

(** Contracts: each generator returns a point of the support of the law it is asked for,
    when its parameters are valid. *)
Definition gamma_contract (g : R -> R -> R) : Prop := forall a s, 0 < a -> 0 < s -> 0 < g a s.
Definition dirichlet_contract (n : nat) (d : vec -> vec) : Prop :=
  forall al, (forall b, (b < n)%nat -> 0 < al b) -> open_simplex n (d al).
Definition beta_contract (g : R -> R -> R) : Prop := forall a b, 0 < a -> 0 < b -> 0 <= g a b <= 1.
Definition net_C (no : netobj) : nat := match no with NetSbm _ s => sb_C s | NetEr _ => 1%nat end.
Definition draws_contract (K B C : nat) (d : sweep_draws) : Prop :=
  (forall i, multinomial_contract (1 + K * B) (sd_mult d i)) /\
  (forall k, gamma_contract (sd_bias d k)) /\
  (forall k1 k2, dirichlet_contract B (sd_ir d k1 k2)) /\
  ((forall a b, beta_contract (gd_beta (sd_net d) a b)) /\ (forall a b, gamma_contract (gd_gamma (sd_net d) a b)) /\
   (forall k lp, (gd_pick (sd_net d) k lp < C)%nat) /\ dirichlet_contract C (gd_dir (sd_net d))) /\
  gamma_contract (sd_er d) /\
  (forall k1 k2, gamma_contract (sd_W d k1 k2)) /\
  (forall k1 k2, unit_interval (sd_u d k1 k2)) /\
  Permutation (sd_order d) (seq 0 K).
Definition hypers_ok (B : nat) (h : hypers) : Prop :=
  0 < h_alpha h /\ 0 < h_beta h /\ (forall b, (b < B)%nat -> 0 < h_gamma h b) /\ 0 < h_kappa0 h /\ 0 < h_nu0 h.

(** A network with valid priors and parameters. *)
Definition net_ok (K : nat) (no : netobj) : Prop :=
  match no with
  | NetSbm _ s => sb_K s = K /\ prior_pos s /\ sbm_valid s
  | NetEr n => e_K n = K /\ 0 <= e_p n <= 1 /\ 0 < e_v n /\ 0 < e_kappa n /\
      (forall a, e_alpha n = Some a -> 0 < a) /\ (forall b, e_beta n = Some b -> 0 < b)
  end.

Lemma net_view_ok K no : net_ok K no ->
  0 < n_kappa (net_view no) /\
  forall i j, (i < K)%nat -> (j < K)%nat ->
    0 <= n_P (net_view no) i j <= 1 /\ 0 < n_V (net_view no) i j /\
    (net_allow no = false -> i = j -> n_P (net_view no) i j = 0).
Proof.
  destruct no as [fp s|n]; cbn [net_ok net_view net_allow].
  - intros (EK & (HC & Hpi & H0 & H1 & Ha & Hb & Hk) & (Hl & Hm & Hpv)). split; [exact Hk|].
    intros i j Hi Hj. subst K. destruct (Hpv _ _ (Hl i Hi) (Hl j Hj)) as [Hp Hv].
    cbn [net_of_sbm n_P n_V]. unfold sbm_P, sbm_V, ix, fill_diagonal. destruct (sb_allow s); cbn [negb].
    + split; [exact Hp|]. split; [exact Hv|discriminate].
    + split; [destruct (i =? j)%nat; [lra|exact Hp]|]. split; [exact Hv|]. intros _ ->. now rewrite Nat.eqb_refl.
  - intros (EK & Hp & Hv & Hk & _). split; [exact Hk|]. intros i j Hi Hj.
    cbn [net_of_er n_P n_V]. unfold er_P, er_V, fill_diagonal. destruct (e_allow n); cbn [negb].
    + split; [lra|]. split; [lra|discriminate].
    + split; [destruct (i =? j)%nat; lra|]. split; [lra|]. intros _ ->. now rewrite Nat.eqb_refl.
Qed.

Lemma block_sum_nonneg K c c1 c2 M : (forall i j, (i < K)%nat -> (j < K)%nat -> 0 <= M i j) ->
  0 <= block_sum K c c1 c2 M.
Proof.
  intros H. unfold block_sum. apply Rsum2_nonneg. intros i j Hi Hj. destruct (_ && _)%bool; [auto|lra].
Qed.

Lemma sbm_resample_ok lgam fp d A W s :
  (forall a b, beta_contract (gd_beta d a b)) -> (forall a b, gamma_contract (gd_gamma d a b)) ->
  (forall k lp, (gd_pick d k lp < sb_C s)%nat) -> dirichlet_contract (sb_C s) (gd_dir d) ->
  (forall i j, (i < sb_K s)%nat -> (j < sb_K s)%nat -> 0 <= W i j) ->
  prior_pos s -> sbm_valid s ->
  prior_pos (sbm_resample lgam fp d A W s) /\ sbm_valid (sbm_resample lgam fp d A W s) /\
  sb_K (sbm_resample lgam fp d A W s) = sb_K s /\ sb_C (sbm_resample lgam fp d A W s) = sb_C s /\
  sb_allow (sbm_resample lgam fp d A W s) = sb_allow s.
Proof.
  intros Hb Hg Hp Hd HW HP (Hl & Hm & Hpv).
  assert (E := sbm_resample_dims lgam fp d A W s). destruct E as (E1 & E2 & E3 & _).
  assert (HP' := HP). destruct HP' as (HC & Hpi & H0 & H1 & Ha & Hbe & Hk).
  assert (Hbeta : forall a b, 0 <= (let '(x, y) := p_request s A a b in gd_beta d a b x y) <= 1).
  { intros a b. cbn [p_request]. apply Hb.
    - assert (0 <= block_sum (sb_K s) (sb_c s) a b (fun i j => b2R (A i j))); [|lra].
      apply block_sum_nonneg. intros i j _ _. apply b2R_range.
    - assert (0 <= block_sum (sb_K s) (sb_c s) a b (fun i j => 1 - b2R (A i j))); [|lra].
      apply block_sum_nonneg. intros i j _ _. pose proof (b2R_range (A i j)). lra. }
  assert (Hgam : forall p a b, 0 < (let '(x, y) := v_request (sb_set s (sb_m s) (sb_c s) p (sb_v s)) A W a b in gd_gamma d a b x y)).
  { intros p a b. cbn [v_request sb_set sb_alpha sb_beta sb_K sb_c sb_kappa]. apply Hg.
    - assert (0 <= block_sum (sb_K s) (sb_c s) a b (fun i j => b2R (A i j))); [|nra].
      apply block_sum_nonneg. intros i j _ _. apply b2R_range.
    - apply Rdiv_lt_0_compat; [lra|].
      assert (0 <= block_sum (sb_K s) (sb_c s) a b (fun i j => if A i j then W i j else 0)); [|lra].
      apply block_sum_nonneg. intros i j Hi Hj. destruct (A i j); [auto|lra]. }
  assert (Hdir : forall c' al, (al = fun b => sb_pi s b + Rsum (sb_K s) (fun k => if (c' k =? b)%nat then 1 else 0)) ->
     simplex (sb_C s) (gd_dir d al)).
  { intros c' al ->. destruct (Hd (fun b => sb_pi s b + Rsum (sb_K s) (fun k => if (c' k =? b)%nat then 1 else 0))) as [D1 D2].
    - intros b Hb'. assert (0 <= Rsum (sb_K s) (fun k => if (c' k =? b)%nat then 1 else 0)).
      { apply Rsum_nonneg. intros k _. destruct (c' k =? b)%nat; lra. }
      specialize (Hpi b Hb'). lra.
    - split; [|exact D2]. intros b Hb'. left. auto. }
  split; [|split; [|auto]].
  - unfold sbm_resample. destruct (sb_fixed s) eqn:Ef; [exact HP|]. destruct fp; exact HP.
  - unfold sbm_resample. destruct (sb_fixed s) eqn:Ef; [exact (conj Hl (conj Hm Hpv))|].
    destruct fp; (split; [|split]).
    + intros k Hk'. cbn [sb_c sb_C sb_K sb_set] in *.
      match goal with |- (resample_c _ _ ?s1 _ _ _ < _)%nat => exact (@resample_c_range lgam (gd_pick d) s1 A W Hl Hp k Hk') end.
    + eapply Hdir. reflexivity.
    + intros a b Hla Hlb. split; [apply Hpv; auto|]. apply (Hgam (sb_p s)).
    + intros k Hk'. cbn [sb_c sb_C sb_K sb_set] in *.
      match goal with |- (resample_c _ _ ?s1 _ _ _ < _)%nat => exact (@resample_c_range lgam (gd_pick d) s1 A W Hl Hp k Hk') end.
    + eapply Hdir. reflexivity.
    + intros a b Hla Hlb. split; [apply Hbeta|]. eapply Hgam.
Qed.

Lemma net_resample_ok lgam K no d A W :
  (forall a b, beta_contract (gd_beta (sd_net d) a b)) -> (forall a b, gamma_contract (gd_gamma (sd_net d) a b)) ->
  (forall k lp, (gd_pick (sd_net d) k lp < net_C no)%nat) -> dirichlet_contract (net_C no) (gd_dir (sd_net d)) ->
  gamma_contract (sd_er d) ->
  (forall i j, (i < K)%nat -> (j < K)%nat -> 0 <= W i j) ->
  net_ok K no ->
  net_ok K (net_resample lgam (sd_net d) (sd_er d) A W no) /\
  net_allow (net_resample lgam (sd_net d) (sd_er d) A W no) = net_allow no /\
  net_C (net_resample lgam (sd_net d) (sd_er d) A W no) = net_C no.
Proof.
  intros Hb Hg Hp Hd He HW. destruct no as [fp s|n]; cbn [net_ok net_resample net_allow net_C] in *.
  - intros (<- & HP & Hv).
    destruct (@sbm_resample_ok lgam fp (sd_net d) A W s Hb Hg Hp Hd HW HP Hv) as (A1 & A2 & A3 & A4 & A5). auto.
  - intros HN. pose proof HN as (<- & Hp1 & Hv & Hk & Ha & Hbe). unfold er_resample.
    destruct (e_alpha n) as [a|] eqn:Ea; [|rewrite Ea; auto].
    destruct (e_beta n) as [b|] eqn:Eb; [|rewrite Ea, Eb; auto].
    destruct (truthy (Some a) && truthy (Some b))%bool; [|rewrite Ea, Eb; auto].
    cbn [er_v_request er_with_v e_K e_p e_v e_kappa e_alpha e_beta e_allow].
    rewrite Ea, Eb. split; [|auto]. split; [auto|]. split; [exact Hp1|]. split; [|auto].
    specialize (Ha a eq_refl). specialize (Hbe b eq_refl). apply He.
    + assert (0 <= Rsum (e_K n) (fun i => Rsum (e_K n) (fun j => b2R (A i j)))); [|nra].
      apply Rsum2_nonneg. intros i j _ _. apply b2R_range.
    + apply Rdiv_lt_0_compat; [lra|].
      assert (0 <= Rsum (e_K n) (fun i => Rsum (e_K n) (fun j => if A i j then W i j else 0))); [|lra].
      apply Rsum2_nonneg. intros i j Hi Hj. destruct (A i j); [auto|lra].
Qed.

(* ---------------- parents of all data sets ---------------- *)

(** [d'] is [d] with a new assignment that gives every event one parent, none of weight zero. *)
Definition reassigned (q : params) (d d' : parents) : Prop :=
  (exists Z', d' = set_Z d Z') /\ nonneg_Z d' /\ consistent d' /\
  forall t k1 k2 b, (t < pa_T d)%nat -> (k1 < pa_K d)%nat -> (k2 < pa_K d)%nat -> (b < pa_B d)%nat ->
    q_W q k1 k2 = 0 -> attributed d' t k2 (1 + (k1 * pa_B d + b)) = 0%Z.

Lemma pa_resample_reassigned use_gsl mult d q :
  pa_nonneg d (q_lam q) (q_W q) (q_g q) -> fits d -> multinomial_contract (1 + pa_K d * pa_B d) mult ->
  exists d', pa_resample use_gsl mult d q = Ok d' /\ reassigned q d d'.
Proof.
  intros Hn Hf Hm. destruct (@resample_ok use_gsl mult d q Hn Hf) as (d' & E). exists d'. split; [exact E|].
  destruct (@resample_row use_gsl mult d q d' Hn Hf Hm E) as (Ep & H). split; [eauto|]. split; [|split].
  - assert (Hz : forall k r c, (0 <= pa_Z d' k r c)%Z).
    { clear Ep H. unfold pa_resample, resample_Z_gsl, resample_Z_python in E. destruct use_gsl.
      - destruct (negb _) in E; [discriminate|]. injection E as <-. intros k r c. cbn [set_Z pa_Z request_gsl].
        unfold u32. apply Z.mod_pos_bound. lia.
      - destruct (negb _) in E; [discriminate|]. destruct (negb _) in E; [discriminate|].
        injection E as <-. intros k r c. cbn [set_Z pa_Z request_python]. unfold u32. apply Z.mod_pos_bound. lia. }
    intros t k c. unfold attributed. apply Zsum_nonneg. intros r _. destruct (Nat.eqb _ _); [auto|lia].
  - apply (@C15_resample_consistent use_gsl mult d q d'); auto.
  - intros t k1 k2 b Ht Hk1 Hk2 Hb HW.
    destruct (Z.eq_dec (pa_S d t k2) 0) as [H0|H0].
    { apply attributed_none; rewrite Ep; assumption. }
    destruct (@pa_row_surj d k2 t Ht H0) as (r & Hr & <-).
    rewrite Ep. change (pa_row d k2 r) with (pa_row (set_Z d (pa_Z d')) k2 r).
    rewrite (@attributed_row (set_Z d (pa_Z d')) k2 r) by exact Hr. cbn [set_Z pa_Z].
    destruct (H k2 r Hk2 Hr) as (_ & _ & H3). apply H3.
    + assert (k1 * pa_B d + b < pa_K d * pa_B d)%nat by nia. lia.
    + cbn [request_python snd]. unfold normalise. cbn [Nat.add pvec_python].
      rewrite div_idx, mod_idx by auto. rewrite HW. unfold Rdiv. ring.
Qed.

Lemma resample_parents_ok use_gsl mult q data : forall i,
  (forall d, In d data -> pa_nonneg d (q_lam q) (q_W q) (q_g q) /\ fits d /\
     forall j, multinomial_contract (1 + pa_K d * pa_B d) (mult j)) ->
  exists data', resample_parents use_gsl mult q i data = Ok data' /\ Forall2 (reassigned q) data data'.
Proof.
  induction data as [|d data IH]; intros i H; cbn [resample_parents].
  - exists []. auto.
  - destruct (H d (or_introl eq_refl)) as (Hn & Hf & Hm).
    destruct (@pa_resample_reassigned use_gsl (mult i) d q Hn Hf (Hm i)) as (d' & E & Hr).
    destruct (IH (S i) (fun x Hx => H x (or_intror Hx))) as (data' & E' & Hr').
    rewrite E. cbn [bindr]. rewrite E'. cbn [bindr]. exists (d' :: data'). auto.
Qed.
