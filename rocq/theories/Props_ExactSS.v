(** * Props_ExactSS: the exact weight statistic and the approximation used by the sampler (C105). *)
From Verif Require Import Prelude ExtReal Arrays M_Basis M_Parents M_Discrete Spec_Basis Spec_Discrete L_Discrete L_Basis Props_Basis Props_Discrete.
Set Implicit Arguments.
Open Scope R_scope.

(** The data set that add_data stores: counts, filtered counts, any parent assignment. *)
Definition stored (T K L B : nat) (dt : R) (S_ : imat) (bas : mat) (p : parents) : Prop :=
  pa_T p = T /\ pa_K p = K /\ pa_B p = B /\ pa_dt p = dt /\ pa_S p = S_ /\
  convolve_with_basis T K S_ L B bas = Ok (pa_F p).

(** compute_exact_weight_ss is, edge by edge, the impulse mass of the parent process that falls inside the recording: zero
    without an edge; in units of bins, so multiplied by dt it is at most the number of events of the parent process - the
    value compute_approx_weight_ss and hence every weight update uses - and equal to it when the last L-1 bins of that
    process are empty. *)
Theorem C105_exact_weight_ss :
  forall T K L B dt S_ bas p A g k1 k2,
  stored T K L B dt S_ bas p -> 0 < dt -> normalised_basis dt L B bas -> stochastic_g K B g -> counts T K S_ ->
  (k1 < K)%nat -> (k2 < K)%nat ->
  let exact := exact_weight_ss1 p A g k1 k2 in
  let N := IZR (weight_ss1 p k1 k2) in
  N = IZR (n_events T S_ k1) /\ 0 <= exact /\
  (A k1 k2 = false -> exact = 0) /\
  dt * exact <= N /\
  (A k1 k2 = true -> (forall s, (s < T)%nat -> (T < s + L)%nat -> S_ s k1 = 0%Z) -> dt * exact = N).
Proof.
  intros T K L B dt S_ bas p A g k1 k2 (ET & EK & EB & Edt & ES & EF) Hdt Hbas Hg Hc H1 H2 exact N.
  assert (EN : N = IZR (n_events T S_ k1)).
  { unfold N, weight_ss1, n_events. rewrite pa_Ns_sum, ET, ES. reflexivity. }
  destruct (Hg k1 k2 H1 H2) as [Hg0 Hg1]. change (Rsum B (g k1 k2) = 1) in Hg1.
  assert (Hx : dt * exact = b2R (A k1 k2) * Rsum B (fun b => g k1 k2 b * (dt * Rsum T (fun t => pa_F p t k1 b)))).
  { unfold exact, exact_weight_ss1. rewrite ET, EB, Rsum_swap.
    rewrite (@Rsum_ext B (fun b => Rsum T (fun t => pa_F p t k1 b * g k1 k2 b)) (fun b => g k1 k2 b * Rsum T (fun t => pa_F p t k1 b)))
      by (intros b _; rewrite Rsum_scal_r; ring).
    rewrite (@Rsum_ext B (fun b => g k1 k2 b * (dt * Rsum T (fun t => pa_F p t k1 b))) (fun b => dt * (g k1 k2 b * Rsum T (fun t => pa_F p t k1 b))))
      by (intros; ring). rewrite Rsum_scal. ring. }
  assert (Hm : forall b, (b < B)%nat -> dt * Rsum T (fun t => pa_F p t k1 b) <= N /\
     ((forall s, (s < T)%nat -> (T < s + L)%nat -> S_ s k1 = 0%Z) -> dt * Rsum T (fun t => pa_F p t k1 b) = N)).
  { intros b Hb. destruct (Hbas b Hb) as [Hb0 Hb1]. rewrite EN.
    destruct (@C03_filtered_mass T K S_ L B bas dt (pa_F p) k1 b EF H1 Hb Hdt Hb0 Hb1) as (Q1 & _ & Q3); [intros; now apply Hc|].
    split; assumption. }
  assert (HF : forall b, (b < B)%nat -> 0 <= Rsum T (fun t => pa_F p t k1 b)).
  { intros b Hb. apply Rsum_nonneg. intros t Ht. rewrite (@convolve_causal _ _ _ _ _ _ _ EF) by auto. unfold causal_conv.
    apply Rsum_nonneg. intros s Hs. destruct (Nat.ltb s L) eqn:El; [|lra]. apply Nat.ltb_lt in El. apply Rmult_le_pos; [now apply Hbas|]. apply IZR_le. apply Hc; [lia|auto]. }
  assert (HN0 : 0 <= N).
  { rewrite EN. unfold n_events. rewrite IZR_Zsum. apply Rsum_nonneg. intros t Ht. apply IZR_le. now apply Hc. }
  split; [exact EN|]. split.
  { unfold exact, exact_weight_ss1. rewrite ET, EB. apply Rmult_le_pos; [destruct (A k1 k2); cbn; lra|].
    rewrite Rsum_swap. apply Rsum_nonneg. intros b Hb. rewrite Rsum_scal_r. apply Rmult_le_pos; auto. }
  split.
  { intros E. unfold exact, exact_weight_ss1. rewrite E. cbn. ring. }
  split.
  - rewrite Hx. destruct (A k1 k2); cbn [b2R]; [|lra]. rewrite Rmult_1_l.
    apply Rle_trans with (Rsum B (fun b => g k1 k2 b * N)).
    + apply Rsum_le. intros b Hb. apply Rmult_le_compat_l; [auto|]. now apply Hm.
    + rewrite Rsum_scal_r, Hg1. lra.
  - intros E Htail. rewrite Hx, E. cbn [b2R].
    rewrite (@Rsum_ext B _ (fun b => g k1 k2 b * N)) by (intros b Hb; now rewrite (proj2 (Hm b Hb) Htail)).
    rewrite Rsum_scal_r, Hg1. ring.
Qed.
Print Assumptions C105_exact_weight_ss.

(** It is the statistic of the exact likelihood: the expected number of events of a process over the recording (the rate
    compute_rate returns, summed over bins times dt) is its background plus, for each parent, weight times dt times the
    statistic. *)
Theorem C105_expected_events :
  forall m T S_ p index, dm_mix m = false -> proper_dims m -> (0 < T)%nat ->
  stored T (dm_K m) (dm_L m) (dm_B m) (dm_dt m) S_ (dm_bas m) p ->
  exists R_, compute_rate m index (Some (sval_of T (dm_K m) S_)) None = Ok (T, R_) /\
  forall k2, (k2 < dm_K m)%nat ->
    dm_dt m * Rsum T (fun t => R_ t k2) =
    dm_lam m k2 * (INR T * dm_dt m) + Rsum (dm_K m) (fun k1 => dm_W m k1 k2 * (dm_dt m * exact_weight_ss1 p (dm_A m) (dm_g m) k1 k2)).
Proof.
  intros m T S_ p index Hmix Hd HT (ET & EK & EB & Edt & ES & EF).
  destruct (@C04_compute_rate m index T S_ Hd HT) as (R_ & E & HR). exists R_. split; [exact E|]. intros k2 H2.
  rewrite (@Rsum_ext T _ (fun t => dm_lam m k2 + Rsum (dm_K m) (fun k1 => Rsum (dm_B m) (fun b => net_weight m k1 k2 * dm_g m k1 k2 b * pa_F p t k1 b)))).
  2:{ intros t Ht. rewrite HR by auto. unfold net_rate, hawkes_rate. f_equal. apply Rsum_ext; intros k1 H1. apply Rsum_ext; intros b Hb.
      now rewrite (@convolve_causal _ _ _ _ _ _ _ EF). }
  rewrite Rsum_plus, Rsum_const, Rsum_swap.
  rewrite (@Rsum_ext (dm_K m) _ (fun k1 => dm_W m k1 k2 * exact_weight_ss1 p (dm_A m) (dm_g m) k1 k2)).
  2:{ intros k1 H1. unfold exact_weight_ss1. rewrite ET, EB.
      rewrite (@Rsum_ext T _ (fun t => net_weight m k1 k2 * Rsum (dm_B m) (fun b => pa_F p t k1 b * dm_g m k1 k2 b)))
        by (intros t Ht; rewrite <- Rsum_scal; apply Rsum_ext; intros; ring).
      rewrite Rsum_scal. unfold net_weight, edge_weight. rewrite Hmix. destruct (dm_A m k1 k2); cbn; ring. }
  rewrite (@Rsum_ext (dm_K m) (fun k1 => dm_W m k1 k2 * (dm_dt m * exact_weight_ss1 p (dm_A m) (dm_g m) k1 k2))
            (fun k1 => dm_dt m * (dm_W m k1 k2 * exact_weight_ss1 p (dm_A m) (dm_g m) k1 k2))) by (intros; ring).
  rewrite Rsum_scal. ring.
Qed.
Print Assumptions C105_expected_events.

(** The method's own docstring offers it "for comparison" with the approximation, but without the factor dt the two agree,
    even when no mass is cut off, only for unit bins. *)
Theorem C105_units_refuted :
  forall T K L B dt S_ bas p A g k1 k2,
  stored T K L B dt S_ bas p -> 0 < dt -> dt <> 1 -> normalised_basis dt L B bas -> stochastic_g K B g -> counts T K S_ ->
  (k1 < K)%nat -> (k2 < K)%nat -> A k1 k2 = true -> (0 < n_events T S_ k1)%Z ->
  (forall s, (s < T)%nat -> (T < s + L)%nat -> S_ s k1 = 0%Z) ->
  exact_weight_ss1 p A g k1 k2 <> IZR (weight_ss1 p k1 k2).
Proof.
  intros T K L B dt S_ bas p A g k1 k2 Hs Hdt Hne Hb Hg Hc H1 H2 HA HN Ht E.
  destruct (@C105_exact_weight_ss T K L B dt S_ bas p A g k1 k2 Hs Hdt Hb Hg Hc H1 H2) as (EN & _ & _ & _ & Q).
  specialize (Q HA Ht). rewrite E, EN in Q. apply IZR_lt in HN. apply Hne.
  apply Rmult_eq_reg_r with (IZR (n_events T S_ k1)); lra.
Qed.

Example C105_nonvacuous : exists T K L B dt S_ bas p A g,
  stored T K L B dt S_ bas p /\ 0 < dt /\ dt <> 1 /\ normalised_basis dt L B bas /\ stochastic_g K B g /\ counts T K S_ /\
  (1 < K)%nat /\ A 0%nat 1%nat = true /\ (0 < n_events T S_ 0)%Z /\ (forall s, (s < T)%nat -> (T < s + L)%nat -> S_ s 0%nat = 0%Z).
Proof.
  pose (S_ := fun t _ : nat => match t with O => 3%Z | _ => 0%Z end). pose (bas := fun l _ : nat => match l with O => 1/2 | _ => 3/2 end).
  destruct (@convolve_ok 4 2 S_ 2 1 bas) as (F & EF); try lia.
  exists 4%nat, 2%nat, 2%nat, 1%nat, (1/2), S_, bas, (mk_parents 2 1 (1/2) 4 S_ F), (fun _ _ => true), (fun _ _ _ => 1).
  split; [unfold stored; cbn; repeat split; exact EF|]. split; [lra|]. split; [lra|].
  split. { intros b Hb. split; [intros [|l] _; cbn; lra|cbn; lra]. }
  split. { intros k1 k2 _ _. split; [intros; lra|cbn; lra]. }
  split. { intros t k _ _. destruct t; cbn; lia. }
  split; [lia|]. split; [reflexivity|]. split; [reflexivity|]. intros s Hs Hl. destruct s; [lia|reflexivity].
Qed.
