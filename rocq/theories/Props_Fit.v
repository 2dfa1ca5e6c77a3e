(** * Props_Fit: fitting the standard model with scipy's optimisers (C94, C95). *)
From Coq Require Import FunctionalExtensionality.
From Verif Require Import Prelude ExtReal Arrays Spec_Basis Spec_Discrete M_Basis L_Basis M_Parents M_Discrete L_Discrete L_Minibatch
  Props_Discrete M_MeanField M_Standard Props_Network L_Standard Props_Standard M_Fit.
Set Implicit Arguments.
Open Scope R_scope.

(* ------------------------------------------------------------------ *)
(** ** Vocabulary *)

(** Stored data as add_data leaves it: counts, a column of ones, non-negative filtered counts. *)
Definition fit_data (m : smodel) : Prop :=
  forall d t, In d (sm_data m) -> (t < sd_T d)%nat ->
    sd_F d t 0%nat = 1 /\ (forall j, (j < sm_P m)%nat -> 0 <= sd_F d t j) /\ forall k, (k < sm_K m)%nat -> (0 <= sd_S d t k)%Z.
Definition row_pos (P : nat) (x : vec) : Prop := forall j, (j < P)%nat -> 0 < x j.
(** The optimiser's contract.  [asks_in Q A o]: every point strategy [o] asks about, and the point it returns, satisfies Q,
    as long as the gradients it is given satisfy A. *)
Fixpoint asks_in (Q A : vec -> Prop) (o : optim) : Prop :=
  match o with
  | Done x => Q x
  | AskF x next => Q x /\ forall v, asks_in Q A (next v)
  | AskG x next => Q x /\ forall g, A g -> asks_in Q A (next g)
  end.
(** What it returns when run on a pure objective f with gradient g. *)
Fixpoint pure_run (f : vec -> R) (g : vec -> vec) (o : optim) : vec :=
  match o with Done x => x | AskF x next => pure_run f g (next (f x)) | AskG x next => pure_run f g (next (g x)) end.

(** Projection of a starting point onto the bounds, as scipy does before the first evaluation. *)
Definition clip_to (lo : R) (hi : option R) (x : R) : R := match hi with Some h => Rmin (Rmax x lo) h | None => Rmax x lo end.
Definition clip_row (wmax : option R) (x : vec) : vec := fun j => clip_to fit_lo (fit_hi wmax j) (x j).
Definition below (hi : option R) (x : R) : Prop := match hi with Some h => x <= h | None => True end.
Definition in_bounds (wmax : option R) (P : nat) (x : vec) : Prop :=
  forall j, (j < P)%nat -> fit_lo <= x j /\ below (fit_hi wmax j) (x j).
(** A position whose gradient is reported as 0 throughout is not moved. *)
Definition frozen (allow : bool) (B k P : nat) (x0 x : vec) : Prop :=
  allow = false -> forall j, (j < P)%nat -> self_block B k j = true -> x j = x0 j.
Definition zero_self (allow : bool) (B k P : nat) (g : vec) : Prop :=
  allow = false -> forall j, (j < P)%nat -> self_block B k j = true -> g j = 0.
(** A bounded optimiser: stays within the bounds, leaves positions with zero gradient at their (projected) start, and
    returns a point at which the objective is no larger than at the projected start. *)
Definition bounded_optimiser (wmax : option R) (m : smodel) (opt : nat -> vec -> optim) : Prop :=
  forall k x0, (k < sm_K m)%nat ->
    asks_in (fun x => in_bounds wmax (sm_P m) x /\ frozen (sm_allow m) (sm_B m) k (sm_P m) (clip_row wmax x0) x)
            (zero_self (sm_allow m) (sm_B m) k (sm_P m)) (opt k x0) /\
    forall f g, (forall x, zero_self (sm_allow m) (sm_B m) k (sm_P m) (g x)) -> f (pure_run f g (opt k x0)) <= f (clip_row wmax x0).
(** W_max leaves room above the lower bound. *)
Definition wmax_ok (wmax : option R) : Prop := match wmax with Some h => fit_lo <= h | None => True end.
(** Self weights of a model that disallows self-connections are (nearly) zero. *)
Definition self_small (m : smodel) : Prop :=
  sm_allow m = false -> forall k j, (k < sm_K m)%nat -> (j < sm_P m)%nat -> self_block (sm_B m) k j = true -> Rabs (sm_w m k j) <= / 10 ^ 8.

(* ------------------------------------------------------------------ *)
(** ** The objective, row by row *)

Definition lp_row (m : smodel) (k : nat) (x : vec) : R :=
  ll_fin m (fun _ => x) [k] (sm_data m) + prior_fin m (fun _ => x) [k].
Definition grad_row (m : smodel) (k : nat) (x : vec) : vec :=
  fun j => if (negb (sm_allow m) && self_block (sm_B m) k j)%bool then 0
           else lsum (map (fun d => s_grad_data m k x d j) (sm_data m)) + s_grad_prior (sm_alpha m) (sm_beta m) x j.

Lemma rate_pos m d t x : fit_data m -> In d (sm_data m) -> (t < sd_T d)%nat -> row_pos (sm_P m) x -> 0 < s_rate (sm_P m) x d t.
Proof.
  intros Hf Hd Ht Hx. destruct (Hf d t Hd Ht) as (H0 & HF & _). unfold s_rate.
  replace (sm_P m) with (S (sm_P m - 1)) by (unfold sm_P; lia). rewrite Rsum_S_l, H0.
  assert (0 < x 0%nat) by (apply Hx; unfold sm_P; lia).
  assert (0 <= Rsum (sm_P m - 1) (fun j => sd_F d t (S j) * x (S j))).
  { apply Rsum_nonneg. intros j Hj. apply Rmult_le_pos; [apply HF; unfold sm_P in *; lia|]. left. apply Hx. unfold sm_P in *; lia. }
  lra.
Qed.

Lemma set_row_row m k x : sm_w (s_set_row m k x) k = x.
Proof. unfold s_set_row. cbn [sm_w sm_with_w]. apply functional_extensionality. intros j. now rewrite Nat.eqb_refl. Qed.
Lemma set_row_twice m k x y : s_set_row (s_set_row m k x) k y = s_set_row m k y.
Proof.
  unfold s_set_row. cbn [sm_w sm_with_w].
  assert (E : (fun k' j => if Nat.eqb k' k then y j else if Nat.eqb k' k then x j else sm_w m k' j) = (fun k' j => if Nat.eqb k' k then y j else sm_w m k' j)).
  { apply functional_extensionality. intros k'. destruct (Nat.eqb k' k); reflexivity. }
  rewrite E. reflexivity.
Qed.

Lemma post_row m k x : (k < sm_K m)%nat -> fit_data m -> row_pos (sm_P m) x ->
  s_log_posterior (s_set_row m k x) All (KArr [k]) = Ok (Fin (lp_row m k x)).
Proof.
  intros Hk Hf Hx. rewrite s_log_posterior_fin.
  - unfold lp_row. do 2 f_equal. unfold ll_fin, prior_fin. cbn [map lsum]. rewrite set_row_row. reflexivity.
  - discriminate.
  - intros k' [<-|[]]. exact Hk.
  - intros d t k' Hd Ht [<-|[]]. rewrite set_row_row. now apply rate_pos.
  - intros k' j [<-|[]] Hj. rewrite set_row_row. apply Hx. apply Hj.
Qed.
Lemma obj_row m k x : (k < sm_K m)%nat -> fit_data m -> row_pos (sm_P m) x ->
  s_objective (fun x => x) m k x = (Ok (- lp_row m k x), s_set_row m k x).
Proof. intros. unfold s_objective. now rewrite post_row. Qed.

Lemma gradient_row m k x : (k < sm_K m)%nat ->
  (sm_allow m = false -> forall j, (j < sm_P m)%nat -> self_block (sm_B m) k j = true -> Rabs (x j) <= / 10 ^ 8) ->
  s_compute_gradient (s_set_row m k x) k All = Ok (grad_row m k x).
Proof.
  intros Hk Hs. unfold s_compute_gradient. rewrite s_data_list_all. cbn [bindr].
  change (sm_K (s_set_row m k x)) with (sm_K m). rewrite (proj2 (Nat.ltb_lt k (sm_K m))) by auto.
  rewrite set_row_row. unfold s_gradient_row. cbn [s_set_row sm_with_w sm_data sm_allow sm_B sm_alpha sm_beta].
  change (sm_P (sm_with_w m (fun k' j => if Nat.eqb k' k then x j else sm_w m k' j))) with (sm_P m).
  unfold grad_row. destruct (sm_allow m); [reflexivity|]. cbn [negb andb].
  rewrite (proj2 (forall_lt_true _ _)); [reflexivity|]. intros j Hj. destruct (self_block (sm_B m) k j) eqn:Eb; [|reflexivity].
  unfold close0. apply Rleb_true. now apply Hs.
Qed.
Lemma grad_row_zero m k x : zero_self (sm_allow m) (sm_B m) k (sm_P m) (fun j => - grad_row m k x j).
Proof. intros Ha j Hj Hb. unfold grad_row. rewrite Ha, Hb. cbn. ring. Qed.

(** Invariance of the row quantities under changes of the weights. *)
Lemma lp_row_set m k k' x y : lp_row (s_set_row m k' y) k x = lp_row m k x. Proof. reflexivity. Qed.
Lemma grad_row_set m k k' x y : grad_row (s_set_row m k' y) k x = grad_row m k x. Proof. reflexivity. Qed.

(** The callbacks' effects amount to a pure run of the strategy. *)
Lemma minimize_pure m k (Q : vec -> Prop) : (k < sm_K m)%nat -> fit_data m ->
  (forall x, Q x -> row_pos (sm_P m) x) ->
  (forall x, Q x -> sm_allow m = false -> forall j, (j < sm_P m)%nat -> self_block (sm_B m) k j = true -> Rabs (x j) <= / 10 ^ 8) ->
  forall o, asks_in Q (zero_self (sm_allow m) (sm_B m) k (sm_P m)) o -> forall m0, (exists y, m0 = s_set_row m k y) \/ m0 = m ->
  let x := pure_run (fun x => - lp_row m k x) (fun x j => - grad_row m k x j) o in
  Q x /\ exists m1, s_minimize (s_objective (fun x => x)) s_gradient k o m0 = (Ok x, m1) /\ ((exists y, m1 = s_set_row m k y) \/ m1 = m).
Proof.
  intros Hk Hf Hpos Hself. induction o as [x|x next IH|x next IH]; intros Ho m0 Hm0.
  - split; [exact Ho|]. exists m0. split; [reflexivity|exact Hm0].
  - destruct Ho as (Hx & Ho). cbn [pure_run s_minimize].
    assert (Es : s_objective (fun x => x) m0 k x = (Ok (- lp_row m k x), s_set_row m k x)).
    { destruct Hm0 as [(y & ->)| ->]; rewrite obj_row; auto. now rewrite set_row_twice. }
    rewrite Es. apply IH; auto. left. eauto.
  - destruct Ho as (Hx & Ho). cbn [pure_run s_minimize].
    assert (Es : s_gradient m0 k x = (Ok (fun j => - grad_row m k x j), s_set_row m k x)).
    { unfold s_gradient. destruct Hm0 as [(y & ->)| ->].
      - rewrite set_row_twice, gradient_row; auto.
      - rewrite gradient_row; auto. }
    rewrite Es. apply IH; [|left; eauto]. apply Ho. apply grad_row_zero.
Qed.

(** The log posterior of all processes is the sum over the rows. *)
Lemma ll_fin_split m w l ds : ll_fin m w l ds = lsum (map (fun k => ll_fin m (fun _ => w k) [k] ds) l).
Proof.
  unfold ll_fin. cbn [map lsum].
  transitivity (lsum (map (fun d => lsum (map (fun k => Rsum (sd_T d) (fun t =>
    IZR (sd_S d t k) * ln (s_rate (sm_P m) (w k) d t) - s_rate (sm_P m) (w k) d t * sm_dt m)) l)) ds)).
  { apply lsum_map_ext. intros d _. now rewrite lsum_Rsum_swap. }
  induction ds as [|d ds IH]; cbn [map lsum].
  - now rewrite lsum_map_const, Rmult_0_r.
  - rewrite IH, <- lsum_map_plus. apply lsum_map_ext. intros k _. f_equal. apply Rsum_ext; intros. ring.
Qed.
Lemma prior_fin_split m w l : prior_fin m w l = lsum (map (fun k => prior_fin m (fun _ => w k) [k]) l).
Proof. unfold prior_fin. apply lsum_map_ext. intros k _. cbn [map lsum]. ring. Qed.

Definition all_pos (m : smodel) : Prop := forall k, (k < sm_K m)%nat -> row_pos (sm_P m) (sm_w m k).
Lemma post_all m : (0 < sm_K m)%nat -> fit_data m -> all_pos m ->
  s_log_posterior m All KNone = Ok (Fin (lsum (map (fun k => lp_row m k (sm_w m k)) (seq 0 (sm_K m))))).
Proof.
  intros HK Hf Hp.
  assert (E : s_log_posterior m All KNone = s_log_posterior m All (KArr (seq 0 (sm_K m)))) by reflexivity.
  rewrite E, s_log_posterior_fin.
  - rewrite ll_fin_split, prior_fin_split, <- lsum_map_plus. reflexivity.
  - destruct (sm_K m); [lia|discriminate].
  - intros k Hk. apply in_seq in Hk. lia.
  - intros d t k Hd Ht Hk. apply in_seq in Hk. apply rate_pos; auto. apply Hp. lia.
  - intros k j Hk Hj. apply in_seq in Hk. apply Hp; lia.
Qed.

Definition row_set (wmax : option R) (m : smodel) (k : nat) (x0 x : vec) : Prop :=
  in_bounds wmax (sm_P m) x /\ frozen (sm_allow m) (sm_B m) k (sm_P m) (clip_row wmax x0) x.
Definition outcome (opt : nat -> vec -> optim) (m : smodel) (k : nat) : vec :=
  pure_run (fun x => - lp_row m k x) (fun x j => - grad_row m k x j) (opt k (sm_w m k)).

Lemma fit_lo_pos : 0 < fit_lo. Proof. unfold fit_lo. apply Rinv_0_lt_compat. apply pow_lt. lra. Qed.
Lemma fit_lo_small : fit_lo <= / 10 ^ 8.
Proof. unfold fit_lo. apply Rinv_le_contravar; [apply pow_lt; lra|]. apply Rle_pow; [lra|lia]. Qed.
Lemma in_bounds_pos wmax P x : in_bounds wmax P x -> row_pos P x.
Proof. intros H j Hj. pose proof fit_lo_pos. destruct (H j Hj). lra. Qed.
Lemma clip_in_bounds wmax P x : wmax_ok wmax -> in_bounds wmax P (clip_row wmax x).
Proof.
  intros Hw j Hj. unfold clip_row, clip_to, fit_hi, below. destruct j as [|j]; [split; [apply Rmax_r|exact I]|].
  destruct wmax as [h|]; cbn [wmax_ok] in Hw; [|split; [apply Rmax_r|exact I]].
  split; [apply Rmin_glb; [apply Rmax_r|exact Hw]|apply Rmin_r].
Qed.
Lemma clip_small wmax x j : Rabs (x j) <= / 10 ^ 8 -> clip_row wmax x j <= / 10 ^ 8.
Proof.
  intros H. pose proof fit_lo_small as Hl. pose proof (Rle_abs (x j)) as Ha.
  assert (Hm : Rmax (x j) fit_lo <= / 10 ^ 8) by (apply Rmax_lub; lra).
  unfold clip_row, clip_to. destruct (fit_hi wmax j); [|exact Hm]. eapply Rle_trans; [apply Rmin_l|exact Hm].
Qed.
Lemma row_set_small wmax m k x0 x : (sm_allow m = false -> forall j, (j < sm_P m)%nat -> self_block (sm_B m) k j = true -> Rabs (x0 j) <= / 10 ^ 8) ->
  row_set wmax m k x0 x ->
  sm_allow m = false -> forall j, (j < sm_P m)%nat -> self_block (sm_B m) k j = true -> Rabs (x j) <= / 10 ^ 8.
Proof.
  intros H0 (Hb & Hf) Ha j Hj Hs. pose proof fit_lo_pos. destruct (Hb j Hj) as (Hlo & _). rewrite Rabs_right by lra.
  rewrite (Hf Ha j Hj Hs). apply clip_small. now apply H0.
Qed.

Lemma lp_row_same m m' k x : same_but_w m m' -> lp_row m' k x = lp_row m k x. Proof. intros ->. reflexivity. Qed.
Lemma outcome_row opt m m' k : same_but_w m m' -> sm_w m' k = sm_w m k -> outcome opt m' k = outcome opt m k.
Proof. intros -> E. cbn [sm_w sm_with_w] in E. unfold outcome. cbn [sm_w sm_with_w]. rewrite E. reflexivity. Qed.
Lemma fit_data_same m m' : same_but_w m m' -> fit_data m -> fit_data m'. Proof. intros -> H. exact H. Qed.

Lemma fit_rows_ok wmax opt ks : forall m, NoDup ks -> (forall k, In k ks -> (k < sm_K m)%nat) -> fit_data m ->
  (forall k x0, In k ks -> asks_in (row_set wmax m k x0) (zero_self (sm_allow m) (sm_B m) k (sm_P m)) (opt k x0)) ->
  (sm_allow m = false -> forall k j, In k ks -> (j < sm_P m)%nat -> self_block (sm_B m) k j = true -> Rabs (sm_w m k j) <= / 10 ^ 8) ->
  exists m', s_fit_rows opt ks m = (Ok tt, m') /\ same_but_w m m' /\
    (forall k, In k ks -> sm_w m' k = outcome opt m k /\ row_set wmax m k (sm_w m k) (sm_w m' k)) /\
    (forall k, ~ In k ks -> sm_w m' k = sm_w m k).
Proof.
  induction ks as [|k ks IH]; intros m Hnd Hks Hf Hopt Hself.
  { exists m. split; [reflexivity|]. split; [apply same_refl|]. split; [intros k []|reflexivity]. }
  inversion Hnd as [|? ? Hni Hnd']; subst. cbn [s_fit_rows].
  destruct (@minimize_pure m k (row_set wmax m k (sm_w m k)) (Hks k (or_introl eq_refl)) Hf) with (o := opt k (sm_w m k)) (m0 := m)
    as (HQ & m1 & E1 & Hm1).
  { intros x Hx. apply (@in_bounds_pos wmax). apply Hx. }
  { intros x Hx. apply (@row_set_small wmax m k (sm_w m k)); [|exact Hx]. intros Ha j. apply Hself; auto. now left. }
  { apply Hopt. now left. }
  { now right. }
  cbv zeta in HQ, E1. rewrite E1. set (x := pure_run _ _ _) in *.
  assert (Em : s_set_row m1 k x = s_set_row m k x). { destruct Hm1 as [(y & ->)| ->]; [apply set_row_twice|reflexivity]. }
  rewrite Em. assert (Hsb : same_but_w m (s_set_row m k x)) by reflexivity.
  assert (Hrow : forall k', k' <> k -> sm_w (s_set_row m k x) k' = sm_w m k').
  { intros k' Hk'. unfold s_set_row. cbn [sm_w sm_with_w]. apply functional_extensionality. intros j.
    destruct (Nat.eqb_spec k' k); [contradiction|reflexivity]. }
  destruct (IH (s_set_row m k x) Hnd') as (m' & E' & Hs' & Hin & Hout).
  { intros k' Hk'. apply Hks. now right. }
  { exact Hf. }
  { intros k' x0 Hk'. apply Hopt. now right. }
  { intros Ha k' j Hk' Hj Hb. rewrite Hrow; [|intros ->; contradiction]. apply Hself; auto. now right. }
  exists m'. split; [exact E'|]. split; [eapply same_trans; [exact Hsb|exact Hs']|]. split.
  - intros k' [<-|Hk'].
    + rewrite (Hout k Hni), set_row_row. split; [reflexivity|exact HQ].
    + destruct (Hin k' Hk') as (H1 & H2). assert (k' <> k) by (intros ->; contradiction). rewrite Hrow in H2 by auto.
      split; [|exact H2]. rewrite H1. apply outcome_row; [exact Hsb|now apply Hrow].
  - intros k' Hk'. rewrite Hout by (intros H; apply Hk'; now right). apply Hrow. intros ->. apply Hk'. now left.
Qed.

(* ------------------------------------------------------------------ *)
(** ** C94 *)

(** The model with every weight moved into the bounds. *)
Definition clipped (wmax : option R) (m : smodel) : smodel := sm_with_w m (fun k => clip_row wmax (sm_w m k)).

(** Whatever the optimiser does within its contract, fit_with_bfgs finishes without an exception, changes nothing but the
    weights, leaves them within the bounds, and the log posterior is at least that of the starting weights (moved into
    the bounds). *)
Theorem C94_fit_never_worse :
  forall wmax opt m, (0 < sm_K m)%nat -> fit_data m -> self_small m -> wmax_ok wmax -> bounded_optimiser wmax m opt ->
  exists m' v0 v1, s_fit_with_bfgs opt m = (Ok tt, m') /\ same_but_w m m' /\
    (forall k, (k < sm_K m)%nat -> in_bounds wmax (sm_P m) (sm_w m' k)) /\
    s_log_posterior (clipped wmax m) All KNone = Ok (Fin v0) /\ s_log_posterior m' All KNone = Ok (Fin v1) /\ v0 <= v1.
Proof.
  intros wmax opt m HK Hf Hs Hw Hopt.
  destruct (@fit_rows_ok wmax opt (seq 0 (sm_K m)) m) as (m' & E & Hsb & Hin & _).
  { apply seq_NoDup. } { intros k Hk. apply in_seq in Hk. lia. } { exact Hf. }
  { intros k x0 Hk. apply Hopt. apply in_seq in Hk. lia. }
  { intros Ha k j Hk. apply Hs; auto. apply in_seq in Hk. lia. }
  assert (Hin' : forall k, (k < sm_K m)%nat -> sm_w m' k = outcome opt m k /\ row_set wmax m k (sm_w m k) (sm_w m' k)).
  { intros k Hk. apply Hin. apply in_seq. lia. }
  assert (HK' : sm_K m' = sm_K m) by (rewrite Hsb; reflexivity).
  assert (HP' : sm_P m' = sm_P m) by (rewrite Hsb; reflexivity).
  exists m'. do 2 eexists. split; [exact E|]. split; [exact Hsb|]. split; [intros k Hk; apply Hin', Hk|].
  split. { apply post_all; [exact HK|exact Hf|]. intros k Hk. apply (@in_bounds_pos wmax), clip_in_bounds, Hw. }
  split. { apply post_all; [lia|eapply fit_data_same; eauto|]. intros k Hk. rewrite HP'. apply (@in_bounds_pos wmax). apply Hin'. lia. }
  rewrite HK'. change (sm_K (clipped wmax m)) with (sm_K m). apply lsum_le. intros k Hk. apply in_seq in Hk.
  assert (Hk' : (k < sm_K m)%nat) by lia. rewrite (lp_row_same k _ Hsb). destruct (Hin' k Hk') as (-> & _).
  change (lp_row (clipped wmax m) k (sm_w (clipped wmax m) k)) with (lp_row m k (clip_row wmax (sm_w m k))).
  destruct (Hopt k (sm_w m k) Hk') as (_ & Hd).
  specialize (Hd (fun x => - lp_row m k x) (fun x j => - grad_row m k x j) (fun x => @grad_row_zero m k x)).
  cbv beta in Hd. unfold outcome. lra.
Qed.
Print Assumptions C94_fit_never_worse.

(** Weights that start within the bounds are their own projection. *)
Theorem C94_start_within_bounds :
  forall wmax m k, in_bounds wmax (sm_P m) (sm_w m k) -> forall j, (j < sm_P m)%nat -> sm_w (clipped wmax m) k j = sm_w m k j.
Proof.
  intros wmax m k H j Hj. destruct (H j Hj) as (Hlo & Hhi). cbn [clipped sm_w sm_with_w]. unfold clip_row, clip_to.
  rewrite Rmax_left by exact Hlo. destruct (fit_hi wmax j) as [h|]; [|reflexivity]. now rewrite Rmin_left.
Qed.
Print Assumptions C94_start_within_bounds.

(** The outcome for process k depends only on the stored data, the hyperparameters and its own starting weights. *)
Theorem C94_rows_independent :
  forall wmax opt m1 m2 k m1' m2', fit_data m1 -> self_small m1 -> self_small m2 -> wmax_ok wmax -> bounded_optimiser wmax m1 opt ->
  same_but_w m1 m2 -> (k < sm_K m1)%nat -> sm_w m1 k = sm_w m2 k ->
  s_fit_with_bfgs opt m1 = (Ok tt, m1') -> s_fit_with_bfgs opt m2 = (Ok tt, m2') -> sm_w m1' k = sm_w m2' k.
Proof.
  intros wmax opt m1 m2 k m1' m2' Hf Hs1 Hs2 Hw Hopt Hsb Hk Hrow E1 E2.
  assert (HK : sm_K m2 = sm_K m1) by (rewrite Hsb; reflexivity).
  destruct (@fit_rows_ok wmax opt (seq 0 (sm_K m1)) m1) as (a & Ea & _ & Ha & _).
  { apply seq_NoDup. } { intros i Hi. apply in_seq in Hi. lia. } { exact Hf. }
  { intros i x0 Hi. apply Hopt. apply in_seq in Hi. lia. }
  { intros Hal i j Hi. apply Hs1; auto. apply in_seq in Hi. lia. }
  destruct (@fit_rows_ok wmax opt (seq 0 (sm_K m1)) m2) as (b & Eb & _ & Hb & _).
  { apply seq_NoDup. } { intros i Hi. apply in_seq in Hi. lia. } { eapply fit_data_same; eauto. }
  { intros i x0 Hi. rewrite Hsb. apply (Hopt i x0). apply in_seq in Hi. lia. }
  { intros Hal i j Hi. apply Hs2; auto. apply in_seq in Hi. lia. }
  unfold s_fit_with_bfgs in E1, E2. rewrite HK in E2. rewrite Ea in E1. rewrite Eb in E2. injection E1 as <-. injection E2 as <-.
  assert (Hin : In k (seq 0 (sm_K m1))) by (apply in_seq; lia).
  destruct (Ha k Hin) as (-> & _). destruct (Hb k Hin) as (-> & _). symmetry. apply outcome_row; auto.
Qed.
Print Assumptions C94_rows_independent.

(** If the optimiser finds the best point of some set of rows for every process, the fitted weights are jointly optimal
    among all weight matrices with rows in these sets. *)
Theorem C94_rowwise_is_joint_optimum :
  forall wmax opt m m' (Q : nat -> vec -> Prop), (0 < sm_K m)%nat -> fit_data m -> self_small m -> wmax_ok wmax -> bounded_optimiser wmax m opt ->
  s_fit_with_bfgs opt m = (Ok tt, m') ->
  (forall k x, (k < sm_K m)%nat -> Q k x -> row_pos (sm_P m) x /\
     forall v v', s_log_posterior (s_set_row m k x) All (KArr [k]) = Ok (Fin v) ->
                  s_log_posterior (s_set_row m k (sm_w m' k)) All (KArr [k]) = Ok (Fin v') -> v <= v') ->
  forall w, (forall k, (k < sm_K m)%nat -> Q k (w k)) ->
  exists v v', s_log_posterior (sm_with_w m w) All KNone = Ok (Fin v) /\ s_log_posterior m' All KNone = Ok (Fin v') /\ v <= v'.
Proof.
  intros wmax opt m m' Q HK Hf Hs Hw Hopt E HQ w Hwq.
  destruct (C94_fit_never_worse HK Hf Hs Hw Hopt) as (m2 & v0 & v1 & E2 & Hsb & Hb & _ & Ev1 & _).
  rewrite E in E2. injection E2 as <-.
  assert (HP' : sm_P m' = sm_P m) by (rewrite Hsb; reflexivity). assert (HK' : sm_K m' = sm_K m) by (rewrite Hsb; reflexivity).
  do 2 eexists. split.
  { apply post_all; [exact HK|exact Hf|]. intros k Hk. apply (HQ k (w k) Hk). apply Hwq. exact Hk. }
  split.
  { apply post_all; [lia|eapply fit_data_same; eauto|]. intros k Hk. rewrite HP'. apply (@in_bounds_pos wmax). apply Hb. lia. }
  rewrite HK'. change (sm_K (sm_with_w m w)) with (sm_K m). apply lsum_le. intros k Hk. apply in_seq in Hk.
  assert (Hk' : (k < sm_K m)%nat) by lia. rewrite (lp_row_same k _ Hsb).
  change (lp_row (sm_with_w m w) k (sm_w (sm_with_w m w) k)) with (lp_row m k (w k)).
  destruct (HQ k (w k) Hk' (Hwq k Hk')) as (Hp & Hle). apply Hle.
  - now apply post_row.
  - apply post_row; auto. apply (@in_bounds_pos wmax). now apply Hb.
Qed.
Print Assumptions C94_rowwise_is_joint_optimum.

(** First-order tangent bound on a row's log posterior: it is concave. *)
Lemma row_tangent m k x y : 1 <= sm_alpha m -> (k < sm_K m)%nat -> fit_data m -> row_pos (sm_P m) x -> row_pos (sm_P m) y ->
  lp_row m k y <= lp_row m k x
    + Rsum (sm_P m) (fun j => (lsum (map (fun d => s_grad_data m k x d j) (sm_data m)) + s_grad_prior (sm_alpha m) (sm_beta m) x j) * (y j - x j)).
Proof.
  intros Ha Hk Hf Hx Hy.
  rewrite (@Rsum_ext _ _ (fun j => lsum (map (fun d => s_grad_data m k x d j) (sm_data m)) * (y j - x j) + s_grad_prior (sm_alpha m) (sm_beta m) x j * (y j - x j)))
    by (intros; ring).
  rewrite Rsum_plus. unfold lp_row.
  assert (HL : ll_fin m (fun _ => y) [k] (sm_data m) <= ll_fin m (fun _ => x) [k] (sm_data m)
     + Rsum (sm_P m) (fun j => lsum (map (fun d => s_grad_data m k x d j) (sm_data m)) * (y j - x j))).
  { unfold ll_fin. cbn [map lsum].
    rewrite (@Rsum_ext _ (fun j => lsum (map (fun d => s_grad_data m k x d j) (sm_data m)) * (y j - x j))
      (fun j => lsum (map (fun d => s_grad_data m k x d j * (y j - x j)) (sm_data m)))).
    2:{ intros j _. now rewrite lsum_map_scal_r. }
    rewrite <- lsum_Rsum_swap, <- lsum_map_plus. apply lsum_le. intros d Hd.
    assert (E : Rsum (sm_P m) (fun j => s_grad_data m k x d j * (y j - x j))
      = Rsum (sd_T d) (fun t => (IZR (sd_S d t k) / s_rate (sm_P m) x d t - sm_dt m) * (s_rate (sm_P m) y d t - s_rate (sm_P m) x d t))).
    { unfold s_grad_data.
      rewrite (@Rsum_ext _ _ (fun j => Rsum (sd_T d) (fun t => (IZR (sd_S d t k) / s_rate (sm_P m) x d t - sm_dt m) * sd_F d t j * (y j - x j)))).
      2:{ intros j _. now rewrite Rsum_scal_r. }
      rewrite Rsum_swap. apply Rsum_ext; intros t Ht. unfold s_rate at 3 4. rewrite <- Rsum_minus, <- Rsum_scal.
      apply Rsum_ext; intros j Hj. ring. }
    rewrite E, <- Rsum_plus. apply Rsum_le. intros t Ht.
    assert (Hr1 : 0 < s_rate (sm_P m) x d t) by (now apply rate_pos). assert (Hr2 : 0 < s_rate (sm_P m) y d t) by (now apply rate_pos).
    set (r1 := s_rate (sm_P m) x d t) in *. set (r2 := s_rate (sm_P m) y d t) in *.
    pose proof (ln_tangent Hr1 Hr2) as HT.
    assert (Hn : 0 <= IZR (sd_S d t k)) by (apply (IZR_le 0); now apply (Hf d t Hd Ht)).
    pose proof (Rmult_le_compat_l _ _ _ Hn HT) as HM.
    assert (E3 : (IZR (sd_S d t k) / r1 - sm_dt m) * (r2 - r1) = IZR (sd_S d t k) * ((r2 - r1) / r1) - sm_dt m * (r2 - r1)) by (field; lra).
    rewrite E3. lra. }
  assert (HPr : prior_fin m (fun _ => y) [k] <= prior_fin m (fun _ => x) [k]
     + Rsum (sm_P m) (fun j => s_grad_prior (sm_alpha m) (sm_beta m) x j * (y j - x j))).
  { unfold prior_fin. cbn [map lsum].
    assert (EP : Rsum (sm_P m) (fun j => s_grad_prior (sm_alpha m) (sm_beta m) x j * (y j - x j))
      = Rsum (sm_P m - 1) (fun j => s_grad_prior (sm_alpha m) (sm_beta m) x (S j) * (y (S j) - x (S j)))).
    { replace (sm_P m) with (S (sm_P m - 1)) at 1 by (unfold sm_P; lia). rewrite Rsum_S_l. cbn [s_grad_prior]. ring. }
    rewrite EP. cbn [s_grad_prior].
    rewrite (@Rsum_ext _ (fun i => ((if Rltb 1 (sm_alpha m) then (sm_alpha m - 1) / x (S i) else 0) + - sm_beta m) * (y (S i) - x (S i)))
      (fun i => (if Rltb 1 (sm_alpha m) then (sm_alpha m - 1) * ((y (S i) - x (S i)) / x (S i)) else 0) + (- sm_beta m * y (S i) - - sm_beta m * x (S i)))).
    2:{ intros i Hi. assert (0 < x (S i)) by (apply Hx; unfold sm_P in *; lia). destruct (Rltb 1 (sm_alpha m)); field; lra. }
    rewrite Rsum_plus, Rsum_minus. destruct (Rltb 1 (sm_alpha m)).
    - assert (HS : Rsum (sm_P m - 1) (fun j => ln (y (S j))) <= Rsum (sm_P m - 1) (fun j => ln (x (S j))) + Rsum (sm_P m - 1) (fun i => (y (S i) - x (S i)) / x (S i))).
      { rewrite <- Rsum_plus. apply Rsum_le. intros j Hj. apply ln_tangent; [apply Hx|apply Hy]; unfold sm_P in *; lia. }
      assert (H0 : 0 <= sm_alpha m - 1) by lra. pose proof (Rmult_le_compat_l _ _ _ H0 HS). rewrite (Rsum_scal (sm_P m - 1) (sm_alpha m - 1)). lra.
    - rewrite Rsum_zero. lra. }
  lra.
Qed.

(** The stopping criterion of a bounded quasi-Newton method is that no feasible direction improves to first order.  For
    this model such a point is a global optimum: if, for every process, the gradient the model reports has no positive
    component along any feasible direction, no weights within the bounds (with the same forbidden self weights) have a
    higher log posterior. *)
Theorem C94_stationary_is_global_optimum :
  forall wmax m, 1 <= sm_alpha m -> (0 < sm_K m)%nat -> fit_data m -> self_small m ->
  (forall k, (k < sm_K m)%nat -> in_bounds wmax (sm_P m) (sm_w m k)) ->
  (forall k, (k < sm_K m)%nat -> exists g, s_compute_gradient m k All = Ok g /\
     forall y, in_bounds wmax (sm_P m) y -> frozen (sm_allow m) (sm_B m) k (sm_P m) (sm_w m k) y ->
       Rsum (sm_P m) (fun j => g j * (y j - sm_w m k j)) <= 0) ->
  forall w, (forall k, (k < sm_K m)%nat -> in_bounds wmax (sm_P m) (w k) /\ frozen (sm_allow m) (sm_B m) k (sm_P m) (sm_w m k) (w k)) ->
  exists v v', s_log_posterior (sm_with_w m w) All KNone = Ok (Fin v) /\ s_log_posterior m All KNone = Ok (Fin v') /\ v <= v'.
Proof.
  intros wmax m Ha HK Hf Hs Hb Hst w Hw. do 2 eexists.
  split. { apply post_all; [exact HK|exact Hf|]. intros k Hk. apply (@in_bounds_pos wmax). now apply Hw. }
  split. { apply post_all; [exact HK|exact Hf|]. intros k Hk. apply (@in_bounds_pos wmax). now apply Hb. }
  change (sm_K (sm_with_w m w)) with (sm_K m). apply lsum_le. intros k Hk. apply in_seq in Hk. assert (Hk' : (k < sm_K m)%nat) by lia.
  change (lp_row (sm_with_w m w) k (sm_w (sm_with_w m w) k)) with (lp_row m k (w k)).
  destruct (Hw k Hk') as (Hwb & Hwf). destruct (Hst k Hk') as (g & Eg & Hg). specialize (Hg (w k) Hwb Hwf).
  eapply Rle_trans; [apply (@row_tangent m k (sm_w m k) (w k)); auto; apply (@in_bounds_pos wmax); auto|].
  match goal with |- _ + ?S <= _ => enough (S <= 0) by lra end.
  eapply Rle_trans; [|exact Hg]. right. apply Rsum_ext. intros j Hj.
  assert (Em : s_set_row m k (sm_w m k) = m).
  { unfold s_set_row. assert (E : (fun k' j => if Nat.eqb k' k then sm_w m k j else sm_w m k' j) = sm_w m).
    { apply functional_extensionality. intros k'. apply functional_extensionality. intros i. destruct (Nat.eqb_spec k' k) as [->|]; reflexivity. }
    rewrite E. destruct m; reflexivity. }
  assert (Eg' : s_compute_gradient m k All = Ok (grad_row m k (sm_w m k))).
  { rewrite <- Em at 1. apply gradient_row; auto. }
  rewrite Eg in Eg'. injection Eg' as ->. unfold grad_row.
  destruct (negb (sm_allow m) && self_block (sm_B m) k j)%bool eqn:E; [|reflexivity].
  apply andb_prop in E as (E1 & E2). apply negb_true_iff in E1. rewrite (Hwf E1 j Hj E2). ring.
Qed.
Print Assumptions C94_stationary_is_global_optimum.

(** With self-connections disallowed the constructor puts the forbidden weights at 1e-32, but the lower bound 1e-16
    applies to them too: after fit_with_bfgs every one of them is exactly 1e-16, ten thousand trillion times larger. *)
Theorem C94_self_weights_raised_refuted :
  forall wmax opt m m', (0 < sm_K m)%nat -> fit_data m -> wmax_ok wmax -> bounded_optimiser wmax m opt -> sm_allow m = false -> step_ok m ->
  s_fit_with_bfgs opt m = (Ok tt, m') ->
  forall k j, (k < sm_K m)%nat -> (j < sm_P m)%nat -> self_block (sm_B m) k j = true ->
  sm_w m k j = / 10 ^ 32 /\ sm_w m' k j = / 10 ^ 16 /\ sm_w m k j < sm_w m' k j.
Proof.
  intros wmax opt m m' HK Hf Hw Hopt Ha (Hpos & H32) E k j Hk Hj Hb.
  assert (E32 : sm_w m k j = / 10 ^ 32) by now apply H32.
  assert (Hlt : / 10 ^ 32 < / 10 ^ 16).
  { apply Rinv_lt_contravar; [apply Rmult_lt_0_compat; apply pow_lt; lra|]. apply Rlt_pow; [lra|lia]. }
  assert (H8 : forall k' i, (k' < sm_K m)%nat -> (i < sm_P m)%nat -> self_block (sm_B m) k' i = true -> Rabs (sm_w m k' i) <= / 10 ^ 8).
  { intros k' i Hk' Hi Hs. rewrite H32 by auto. apply close_1e32. }
  destruct (@fit_rows_ok wmax opt (seq 0 (sm_K m)) m) as (m2 & E2 & _ & Hin & _).
  { apply seq_NoDup. } { intros i Hi. apply in_seq in Hi. lia. } { exact Hf. }
  { intros i x0 Hi. apply Hopt. apply in_seq in Hi. lia. }
  { intros _ i i' Hi. apply H8. apply in_seq in Hi. lia. }
  unfold s_fit_with_bfgs in E. rewrite E2 in E. injection E as <-.
  destruct (Hin k) as (_ & _ & Hfr); [apply in_seq; lia|]. rewrite (Hfr Ha j Hj Hb).
  assert (Ec : clip_row wmax (sm_w m k) j = / 10 ^ 16).
  { unfold clip_row, clip_to. rewrite E32. fold fit_lo in Hlt. rewrite (Rmax_right _ fit_lo) by (left; exact Hlt).
    destruct j as [|j]; [reflexivity|]. cbn [fit_hi]. destruct wmax as [h|]; [|reflexivity]. cbn in Hw. now rewrite Rmin_left. }
  rewrite Ec, E32. auto.
Qed.
Print Assumptions C94_self_weights_raised_refuted.

Lemma set_weight_row m k x j y : set_weight (s_set_row m k x) k j y = s_set_row m k (upd x j y).
Proof.
  unfold set_weight, s_set_row. cbn [sm_w sm_with_w].
  assert (E : upd2 (fun k' i => if Nat.eqb k' k then x i else sm_w m k' i) k j y
            = (fun k' i => if Nat.eqb k' k then upd x j y i else sm_w m k' i)).
  { apply functional_extensionality. intros k'. apply functional_extensionality. intros i. unfold upd2, upd.
    destruct (Nat.eqb k' k), (Nat.eqb i j); reflexivity. }
  rewrite E. reflexivity.
Qed.

Lemma row_derivative m k x j : (k < sm_K m)%nat -> (j < sm_P m)%nat -> fit_data m -> row_pos (sm_P m) x ->
  (sm_allow m = false -> forall i, (i < sm_P m)%nat -> self_block (sm_B m) k i = true -> Rabs (x i) <= / 10 ^ 8) ->
  (sm_allow m = true \/ self_block (sm_B m) k j = false) ->
  exists eps f, 0 < eps /\ (forall y, Rabs (y - x j) < eps -> s_log_posterior (s_set_row m k (upd x j y)) All (KArr [k]) = Ok (Fin (f y))) /\
    derivable_pt_lim f (x j) (grad_row m k x j).
Proof.
  intros Hk Hj Hf Hx Hs Hor.
  destruct (@C47_gradient (s_set_row m k x) k [k]) as (g & Eg & Hg).
  { constructor; [intros []|constructor]. } { now left. } { intros k' [<-|[]]. exact Hk. }
  { intros d t k' Hd Ht [<-|[]]. rewrite set_row_row. now apply rate_pos. }
  { intros k' i [<-|[]] Hi. rewrite set_row_row. apply Hx, Hi. }
  { rewrite set_row_row. exact Hs. }
  rewrite gradient_row in Eg by auto. injection Eg as <-. destruct (Hg j Hj) as (_ & H). specialize (H Hor).
  rewrite set_row_row in H. destruct H as (eps & f & He & Hfx & Hd). exists eps, f. split; [exact He|]. split; [|exact Hd].
  intros y Hy. rewrite <- set_weight_row. now apply Hfx.
Qed.

(** The gradient callback is the derivative of the objective callback, weight by weight (the forbidden self weights, whose
    gradient is reported as 0, excepted). *)
Theorem C94_gradient_of_objective :
  forall m k x j, (k < sm_K m)%nat -> (j < sm_P m)%nat -> fit_data m -> row_pos (sm_P m) x ->
  (sm_allow m = false -> forall i, (i < sm_P m)%nat -> self_block (sm_B m) k i = true -> Rabs (x i) <= / 10 ^ 8) ->
  exists g, fst (s_gradient m k x) = Ok g /\
    (sm_allow m = false -> self_block (sm_B m) k j = true -> g j = 0) /\
    ((sm_allow m = true \/ self_block (sm_B m) k j = false) ->
     exists eps f, 0 < eps /\ (forall y, Rabs (y - x j) < eps -> fst (s_objective (fun x => x) m k (upd x j y)) = Ok (f y)) /\
       derivable_pt_lim f (x j) (g j)).
Proof.
  intros m k x j Hk Hj Hf Hx Hs. unfold s_gradient. rewrite gradient_row by auto. cbn [bindr fst]. eexists. split; [reflexivity|].
  split. { intros Ha Hb. now apply grad_row_zero. }
  intros Hor. destruct (@row_derivative m k x j Hk Hj Hf Hx Hs Hor) as (eps & f & He & Hfx & Hd).
  exists eps, (fun y => - f y). split; [exact He|]. split.
  - intros y Hy. unfold s_objective. cbn [fst]. now rewrite Hfx.
  - apply derivable_pt_lim_opp. exact Hd.
Qed.
Print Assumptions C94_gradient_of_objective.

(** A model with data and an optimiser that meets the contract: it asks for the objective at the projected start, for the
    gradient and the objective at another feasible point, and returns the better of the two. *)
Definition other_point (allow : bool) (B k : nat) (x0 : vec) : vec :=
  fun j => if (negb allow && self_block B k j)%bool then clip_row None x0 j else 1.
Definition two_points (allow : bool) (B k : nat) (x0 : vec) : optim :=
  AskF (clip_row None x0) (fun v => AskG (other_point allow B k x0) (fun _ => AskF (other_point allow B k x0) (fun v' =>
    if Rltb v' v then Done (other_point allow B k x0) else Done (clip_row None x0)))).
Lemma other_in allow B k P x0 : in_bounds None P (other_point allow B k x0) /\ frozen allow B k P (clip_row None x0) (other_point allow B k x0).
Proof.
  split.
  - intros j Hj. unfold other_point. destruct (negb allow && self_block B k j)%bool; [now apply (@clip_in_bounds None P x0 I)|].
    split; [|destruct j; exact I]. pose proof fit_lo_small. assert (/ 10 ^ 8 <= / 1); [|rewrite Rinv_1 in *; lra]. apply Rinv_le_contravar; [lra|]. apply pow_R1_Rle. lra.
  - intros Ha j Hj Hb. unfold other_point. now rewrite Ha, Hb.
Qed.
Lemma two_points_ok m : bounded_optimiser None m (two_points (sm_allow m) (sm_B m)).
Proof.
  intros k x0 Hk. pose proof (@clip_in_bounds None (sm_P m) x0 I) as Hc.
  assert (Hfr : frozen (sm_allow m) (sm_B m) k (sm_P m) (clip_row None x0) (clip_row None x0)) by (intros _ j _ _; reflexivity).
  pose proof (other_in (sm_allow m) (sm_B m) k (sm_P m) x0) as Ho. split.
  - unfold two_points. cbn [asks_in]. split; [auto|]. intros v. split; [exact Ho|]. intros g _. split; [exact Ho|]. intros v'.
    destruct (Rltb v' v); [exact Ho|]. split; [exact Hc|exact Hfr].
  - intros f g _. unfold two_points. cbn [pure_run]. destruct (Rltb (f (other_point (sm_allow m) (sm_B m) k x0)) (f (clip_row None x0))) eqn:E; cbn [pure_run].
    + apply Rltb_true in E. lra.
    + lra.
Qed.
Definition ex_noself : smodel :=
  {| sm_K := 2; sm_B := 1; sm_dt := 1; sm_alpha := 2; sm_beta := 1; sm_allow := false; sm_L := 2;
     sm_bas := fun l _ => if Nat.eqb l 1 then 1 else 0; sm_w := remove_self 1 (fun _ _ => / 10 ^ 3); sm_data := [ex_sd] |}.
Example C94_nonvacuous :
  (0 < sm_K ex_smd)%nat /\ fit_data ex_smd /\ self_small ex_smd /\ bounded_optimiser None ex_smd (two_points true 1) /\
  fit_data ex_noself /\ step_ok ex_noself /\ self_block 1 1 2 = true /\ bounded_optimiser None ex_noself (two_points false 1).
Proof.
  assert (HF : forall m, sm_data m = [ex_sd] -> fit_data m).
  { intros m E d t Hd Ht. rewrite E in Hd. destruct Hd as [<-|[]]. cbn [ex_sd sd_F sd_S sd_T] in *. split; [reflexivity|].
    split. { intros j _. destruct (Nat.eqb j 0); [lra|]. destruct (_ && _)%bool; lra. }
    intros k _. unfold ex_S. destruct t as [|[|[|t]]], k as [|[|k]]; cbn; lia. }
  split; [cbn; lia|]. split; [now apply HF|]. split; [intros H; discriminate|]. split; [apply (two_points_ok ex_smd)|].
  split; [now apply HF|]. split; [|split; [reflexivity|apply (two_points_ok ex_noself)]].
  split.
  - intros k j _ _. cbn [ex_noself sm_w]. unfold remove_self. destruct (self_block 1 k j); apply Rinv_0_lt_compat, pow_lt; lra.
  - intros _ k j _ _ Hb. cbn [ex_noself sm_w sm_B] in *. unfold remove_self. now rewrite Hb.
Qed.

(* ------------------------------------------------------------------ *)
(** ** C95: log space *)

(** The log-space optimiser: unbounded below; with W_max it stays below ln W_max (from a feasible start); positions with
    zero gradient are not moved; the objective does not get worse. *)
Definition in_hi_log (wmax : option R) (P : nat) (x : vec) : Prop := forall j, (j < P)%nat -> below (fit_hi_log wmax j) (x j).
Definition log_optimiser (wmax : option R) (m : smodel) (opt : nat -> vec -> optim) : Prop :=
  forall k x0, (k < sm_K m)%nat -> in_hi_log wmax (sm_P m) x0 ->
    asks_in (fun x => in_hi_log wmax (sm_P m) x /\ frozen (sm_allow m) (sm_B m) k (sm_P m) x0 x)
            (zero_self (sm_allow m) (sm_B m) k (sm_P m)) (opt k x0) /\
    forall f g, (forall x, zero_self (sm_allow m) (sm_B m) k (sm_P m) (g x)) -> f (pure_run f g (opt k x0)) <= f x0.
Definition expv (x : vec) : vec := fun j => exp (x j).
Definition lnv (x : vec) : vec := fun j => ln (x j).

Lemma expv_pos P x : row_pos P (expv x). Proof. intros j _. apply exp_pos. Qed.
Lemma log_minimize_pure m k (Q : vec -> Prop) : (k < sm_K m)%nat -> fit_data m ->
  (forall x, Q x -> sm_allow m = false -> forall j, (j < sm_P m)%nat -> self_block (sm_B m) k j = true -> Rabs (expv x j) <= / 10 ^ 8) ->
  forall o, asks_in Q (zero_self (sm_allow m) (sm_B m) k (sm_P m)) o -> forall m0, (exists y, m0 = s_set_row m k y) \/ m0 = m ->
  let x := pure_run (fun x => - lp_row m k (expv x)) (fun x j => - grad_row m k (expv x) j * expv x j) o in
  Q x /\ exists m1, s_minimize (s_objective (fun x j => exp (x j))) s_gradient_log k o m0 = (Ok x, m1) /\ ((exists y, m1 = s_set_row m k y) \/ m1 = m).
Proof.
  intros Hk Hf Hself. induction o as [x|x next IH|x next IH]; intros Ho m0 Hm0.
  - split; [exact Ho|]. exists m0. split; [reflexivity|exact Hm0].
  - destruct Ho as (Hx & Ho). cbn [pure_run s_minimize].
    assert (Es : s_objective (fun x j => exp (x j)) m0 k x = (Ok (- lp_row m k (expv x)), s_set_row m k (expv x))).
    { unfold s_objective. fold (expv x). destruct Hm0 as [(y & ->)| ->]; rewrite ?set_row_twice, post_row; auto; apply expv_pos. }
    rewrite Es. apply IH; auto. left. eauto.
  - destruct Ho as (Hx & Ho). cbn [pure_run s_minimize].
    assert (Es : s_gradient_log m0 k x = (Ok (fun j => - grad_row m k (expv x) j * expv x j), s_set_row m k (expv x))).
    { unfold s_gradient_log. fold (expv x). destruct Hm0 as [(y & ->)| ->]; rewrite ?set_row_twice, gradient_row, set_row_row; auto. }
    rewrite Es. apply IH; [|left; eauto]. apply Ho. intros Ha j Hj Hb. unfold grad_row. rewrite Ha, Hb. cbn [negb andb]. ring.
Qed.

Definition log_outcome (opt : nat -> vec -> optim) (m : smodel) (k : nat) : vec :=
  pure_run (fun x => - lp_row m k (expv x)) (fun x j => - grad_row m k (expv x) j * expv x j) (opt k (lnv (sm_w m k))).
Definition hi_ok (wmax : option R) (m : smodel) (k : nat) : Prop := forall j, (j < sm_P m)%nat -> below (fit_hi wmax j) (sm_w m k j).
Definition log_set (wmax : option R) (m : smodel) (k : nat) (x0 x : vec) : Prop :=
  in_hi_log wmax (sm_P m) x /\ frozen (sm_allow m) (sm_B m) k (sm_P m) x0 x.
Lemma lnv_hi wmax m k : row_pos (sm_P m) (sm_w m k) -> hi_ok wmax m k -> in_hi_log wmax (sm_P m) (lnv (sm_w m k)).
Proof.
  intros Hp Hh j Hj. specialize (Hp j Hj). specialize (Hh j Hj). unfold fit_hi_log, below, lnv in *. destruct (fit_hi wmax j) as [h|]; [|exact I].
  destruct Hh as [Hh| ->]; [left; now apply ln_increasing|right; reflexivity].
Qed.

Lemma fit_log_rows_ok wmax opt ks : forall m, NoDup ks -> (forall k, In k ks -> (k < sm_K m)%nat) -> fit_data m ->
  log_optimiser wmax m opt ->
  (forall k, In k ks -> row_pos (sm_P m) (sm_w m k) /\ hi_ok wmax m k) ->
  (sm_allow m = false -> forall k j, In k ks -> (j < sm_P m)%nat -> self_block (sm_B m) k j = true -> Rabs (sm_w m k j) <= / 10 ^ 8) ->
  exists m', s_fit_log_rows opt ks m = (Ok tt, m') /\ same_but_w m m' /\
    (forall k, In k ks -> sm_w m' k = expv (log_outcome opt m k) /\ log_set wmax m k (lnv (sm_w m k)) (log_outcome opt m k)) /\
    (forall k, ~ In k ks -> sm_w m' k = sm_w m k).
Proof.
  induction ks as [|k ks IH]; intros m Hnd Hks Hf Hopt Hst Hself.
  { exists m. split; [reflexivity|]. split; [apply same_refl|]. split; [intros k []|reflexivity]. }
  inversion Hnd as [|? ? Hni Hnd']; subst. cbn [s_fit_log_rows]. fold (lnv (sm_w m k)).
  destruct (Hst k (or_introl eq_refl)) as (Hp & Hh).
  destruct (@log_minimize_pure m k (log_set wmax m k (lnv (sm_w m k))) (Hks k (or_introl eq_refl)) Hf) with (o := opt k (lnv (sm_w m k))) (m0 := m)
    as (HQ & m1 & E1 & Hm1).
  { intros x (_ & Hfr) Ha j Hj Hb. unfold expv. rewrite (Hfr Ha j Hj Hb). unfold lnv. rewrite exp_ln by now apply Hp. apply Hself; auto. now left. }
  { apply Hopt; [apply Hks; now left|now apply lnv_hi]. }
  { now right. }
  cbv zeta in HQ, E1. change (fun j => ln (sm_w m k j)) with (lnv (sm_w m k)). rewrite E1. fold (log_outcome opt m k) in HQ |- *.
  set (x := log_outcome opt m k) in *. fold (expv x).
  assert (Em : s_set_row m1 k (expv x) = s_set_row m k (expv x)). { destruct Hm1 as [(y & ->)| ->]; [apply set_row_twice|reflexivity]. }
  rewrite Em. assert (Hsb : same_but_w m (s_set_row m k (expv x))) by reflexivity.
  assert (Hrow : forall k', k' <> k -> sm_w (s_set_row m k (expv x)) k' = sm_w m k').
  { intros k' Hk'. unfold s_set_row. cbn [sm_w sm_with_w]. apply functional_extensionality. intros j.
    destruct (Nat.eqb_spec k' k); [contradiction|reflexivity]. }
  destruct (IH (s_set_row m k (expv x)) Hnd') as (m' & E' & Hs' & Hin & Hout).
  { intros k' Hk'. apply Hks. now right. }
  { exact Hf. }
  { exact Hopt. }
  { intros k' Hk'. assert (k' <> k) by (intros ->; contradiction). unfold hi_ok. rewrite Hrow by auto. apply Hst. now right. }
  { intros Ha k' j Hk' Hj Hb. rewrite Hrow; [|intros ->; contradiction]. apply Hself; auto. now right. }
  exists m'. split; [exact E'|]. split; [eapply same_trans; [exact Hsb|exact Hs']|]. split.
  - intros k' [<-|Hk'].
    + rewrite (Hout k Hni), set_row_row. split; [reflexivity|exact HQ].
    + destruct (Hin k' Hk') as (H1 & H2). assert (Hne : k' <> k) by (intros ->; contradiction).
      assert (Eo : log_outcome opt (s_set_row m k (expv x)) k' = log_outcome opt m k').
      { unfold log_outcome. rewrite Hrow by auto. reflexivity. }
      rewrite Eo, Hrow in H2 by auto. rewrite Eo in H1. split; [exact H1|exact H2].
  - intros k' Hk'. rewrite Hout by (intros H; apply Hk'; now right). apply Hrow. intros ->. apply Hk'. now left.
Qed.

Lemma lp_row_ext m k x y : (forall j, (j < sm_P m)%nat -> x j = y j) -> lp_row m k x = lp_row m k y.
Proof.
  intros H. unfold lp_row. f_equal.
  - unfold ll_fin. apply lsum_map_ext. intros d _. apply Rsum_ext. intros t _. cbn [map lsum]. now rewrite (@s_rate_ext _ x y d t H).
  - unfold prior_fin. cbn [map lsum].
    rewrite (@Rsum_ext (sm_P m - 1) (fun j => ln (x (S j))) (fun j => ln (y (S j)))).
    2:{ intros j Hj. rewrite H; [reflexivity|]. unfold sm_P in *; lia. }
    rewrite (@Rsum_ext (sm_P m - 1) (fun j => - sm_beta m * x (S j)) (fun j => - sm_beta m * y (S j))).
    2:{ intros j Hj. rewrite H; [reflexivity|]. unfold sm_P in *; lia. }
    reflexivity.
Qed.

(** fit_with_bfgs_logspace: from positive weights (within W_max, if given), whatever the optimiser does, it finishes,
    keeps all weights positive and within W_max, keeps the forbidden self weights exactly, and never lowers the log
    posterior. *)
Theorem C95_logspace_fit :
  forall wmax opt m, (0 < sm_K m)%nat -> fit_data m -> self_small m -> all_pos m -> (forall k, (k < sm_K m)%nat -> hi_ok wmax m k) ->
  (forall h, wmax = Some h -> 0 < h) -> log_optimiser wmax m opt ->
  exists m' v0 v1, s_fit_with_bfgs_logspace opt m = (Ok tt, m') /\ same_but_w m m' /\
    (forall k j, (k < sm_K m)%nat -> (j < sm_P m)%nat -> 0 < sm_w m' k j /\ below (fit_hi wmax j) (sm_w m' k j)) /\
    (sm_allow m = false -> forall k j, (k < sm_K m)%nat -> (j < sm_P m)%nat -> self_block (sm_B m) k j = true -> sm_w m' k j = sm_w m k j) /\
    s_log_posterior m All KNone = Ok (Fin v0) /\ s_log_posterior m' All KNone = Ok (Fin v1) /\ v0 <= v1.
Proof.
  intros wmax opt m HK Hf Hs Hp Hh Hwp Hopt.
  destruct (@fit_log_rows_ok wmax opt (seq 0 (sm_K m)) m) as (m' & E & Hsb & Hin & _).
  { apply seq_NoDup. } { intros k Hk. apply in_seq in Hk. lia. } { exact Hf. } { exact Hopt. }
  { intros k Hk. apply in_seq in Hk. split; [apply Hp; lia|apply Hh; lia]. }
  { intros Ha k j Hk. apply Hs; auto. apply in_seq in Hk. lia. }
  assert (Hin' : forall k, (k < sm_K m)%nat -> sm_w m' k = expv (log_outcome opt m k) /\ log_set wmax m k (lnv (sm_w m k)) (log_outcome opt m k)).
  { intros k Hk. apply Hin. apply in_seq. lia. }
  assert (HK' : sm_K m' = sm_K m) by (rewrite Hsb; reflexivity).
  assert (HP' : sm_P m' = sm_P m) by (rewrite Hsb; reflexivity).
  exists m'. do 2 eexists. split; [exact E|]. split; [exact Hsb|]. split; [|split; [|split; [|split]]].
  - intros k j Hk Hj. destruct (Hin' k Hk) as (-> & Hb & _). split; [apply exp_pos|]. specialize (Hb j Hj).
    unfold fit_hi_log, below in *. destruct (fit_hi wmax j) as [h|] eqn:Eh; [|exact I]. unfold expv.
    assert (0 < h). { apply Hwp. destruct j; [discriminate|]. exact Eh. }
    rewrite <- (exp_ln h) by auto. destruct Hb as [Hb| ->]; [left; now apply exp_increasing|right; reflexivity].
  - intros Ha k j Hk Hj Hb. destruct (Hin' k Hk) as (-> & _ & Hfr). unfold expv. rewrite (Hfr Ha j Hj Hb). unfold lnv. apply exp_ln. now apply Hp.
  - now apply post_all.
  - apply post_all; [lia|eapply fit_data_same; eauto|]. intros k Hk. rewrite HP'. destruct (Hin' k ltac:(lia)) as (-> & _). apply expv_pos.
  - rewrite HK'. apply lsum_le. intros k Hk. apply in_seq in Hk. assert (Hk' : (k < sm_K m)%nat) by lia.
    rewrite (lp_row_same k _ Hsb). destruct (Hin' k Hk') as (-> & _).
    destruct (Hopt k (lnv (sm_w m k)) Hk' (lnv_hi (Hp k Hk') (Hh k Hk'))) as (_ & Hd).
    specialize (Hd (fun x => - lp_row m k (expv x)) (fun x j => - grad_row m k (expv x) j * expv x j)).
    cbv beta in Hd. fold (log_outcome opt m k) in Hd.
    assert (Hz : forall x, zero_self (sm_allow m) (sm_B m) k (sm_P m) (fun j => - grad_row m k (expv x) j * expv x j)).
    { intros x Ha j Hj Hb. unfold grad_row. rewrite Ha, Hb. cbn [negb andb]. ring. }
    specialize (Hd Hz).
    rewrite (@lp_row_ext m k (sm_w m k) (expv (lnv (sm_w m k)))); [lra|].
    intros j Hj. unfold expv, lnv. rewrite exp_ln; [reflexivity|]. now apply Hp.
Qed.
Print Assumptions C95_logspace_fit.

(** The log-space gradient callback is the derivative of the log-space objective callback. *)
Theorem C95_gradient_of_objective :
  forall m k x j, (k < sm_K m)%nat -> (j < sm_P m)%nat -> fit_data m ->
  (sm_allow m = false -> forall i, (i < sm_P m)%nat -> self_block (sm_B m) k i = true -> exp (x i) <= / 10 ^ 8) ->
  exists g, fst (s_gradient_log m k x) = Ok g /\
    (sm_allow m = false -> self_block (sm_B m) k j = true -> g j = 0) /\
    ((sm_allow m = true \/ self_block (sm_B m) k j = false) ->
     exists eps f, 0 < eps /\ (forall y, Rabs (y - x j) < eps -> fst (s_objective (fun x j => exp (x j)) m k (upd x j y)) = Ok (f y)) /\
       derivable_pt_lim f (x j) (g j)).
Proof.
  intros m k x j Hk Hj Hf Hs.
  assert (Hs' : sm_allow m = false -> forall i, (i < sm_P m)%nat -> self_block (sm_B m) k i = true -> Rabs (expv x i) <= / 10 ^ 8).
  { intros Ha i Hi Hb. unfold expv. rewrite Rabs_right by (left; apply exp_pos). now apply Hs. }
  unfold s_gradient_log. fold (expv x). rewrite gradient_row, set_row_row by auto. cbn [bindr fst]. eexists. split; [reflexivity|].
  split. { intros Ha Hb. unfold grad_row. rewrite Ha, Hb. cbn [negb andb]. ring. }
  intros Hor. destruct (@row_derivative m k (expv x) j Hk Hj Hf (@expv_pos _ x) Hs' Hor) as (eps & F & He & HF & Hd).
  destruct (derivable_continuous_pt exp (x j) (derivable_pt_exp (x j)) eps He) as (dl & Hdl & Hc).
  exists dl, (fun y => - F (exp y)). split; [exact Hdl|]. split.
  - intros y Hy. unfold s_objective. cbn [fst].
    assert (Eu : (fun i => exp (upd x j y i)) = upd (expv x) j (exp y)).
    { apply functional_extensionality. intros i. unfold upd, expv. destruct (Nat.eqb i j); reflexivity. }
    rewrite Eu, HF; [reflexivity|]. unfold expv.
    destruct (Req_dec y (x j)) as [->|Hne]; [rewrite Rminus_diag_eq, Rabs_R0 by reflexivity; exact He|].
    apply (Hc y). split; [|exact Hy]. split; [exact I|]. congruence.
  - apply (@derivable_lim_eq _ _ (- (grad_row m k (expv x) j * exp (x j)))); [unfold expv; ring|].
    apply (derivable_pt_lim_opp (fun y => F (exp y))).
    apply (derivable_pt_lim_comp exp F); [apply derivable_pt_lim_exp|exact Hd].
Qed.
Print Assumptions C95_gradient_of_objective.

(** In log space the objective is not convex, yet a point where the log-space gradient of every process vanishes maximises
    the log posterior over all positive weights (with the same forbidden self weights). *)
Theorem C95_stationary_is_global_optimum :
  forall m (u : mat), 1 <= sm_alpha m -> (0 < sm_K m)%nat -> fit_data m ->
  (forall k j, (k < sm_K m)%nat -> sm_w m k j = exp (u k j)) -> self_small m ->
  (forall k, (k < sm_K m)%nat -> exists g, fst (s_gradient_log m k (u k)) = Ok g /\ forall j, (j < sm_P m)%nat -> g j = 0) ->
  forall w, (forall k, (k < sm_K m)%nat -> row_pos (sm_P m) (w k) /\ frozen (sm_allow m) (sm_B m) k (sm_P m) (sm_w m k) (w k)) ->
  exists v v', s_log_posterior (sm_with_w m w) All KNone = Ok (Fin v) /\ s_log_posterior m All KNone = Ok (Fin v') /\ v <= v'.
Proof.
  intros m u Ha HK Hf Hu Hs Hst w Hw.
  assert (Hp : all_pos m). { intros k Hk j Hj. rewrite Hu by auto. apply exp_pos. }
  do 2 eexists.
  split. { apply post_all; [exact HK|exact Hf|]. intros k Hk. now apply Hw. }
  split. { now apply post_all. }
  change (sm_K (sm_with_w m w)) with (sm_K m). apply lsum_le. intros k Hk. apply in_seq in Hk. assert (Hk' : (k < sm_K m)%nat) by lia.
  change (lp_row (sm_with_w m w) k (sm_w (sm_with_w m w) k)) with (lp_row m k (w k)).
  destruct (Hw k Hk') as (Hwb & Hwf). destruct (Hst k Hk') as (g & Eg & Hg).
  eapply Rle_trans; [apply (@row_tangent m k (sm_w m k) (w k)); auto|].
  match goal with |- _ + ?S <= _ => enough (S = 0) by lra end.
  apply Rsum_0. intros j Hj.
  assert (Er : expv (u k) = sm_w m k). { apply functional_extensionality. intros i. unfold expv. now rewrite Hu. }
  unfold s_gradient_log in Eg. fold (expv (u k)) in Eg. rewrite gradient_row, set_row_row in Eg; auto.
  2:{ rewrite Er. intros Hal i. now apply Hs. }
  cbn [bindr fst] in Eg. injection Eg as <-. specialize (Hg j Hj). cbv beta in Hg. rewrite Er in Hg.
  destruct (negb (sm_allow m) && self_block (sm_B m) k j)%bool eqn:E.
  - apply andb_prop in E as (E1 & E2). apply negb_true_iff in E1. rewrite (Hwf E1 j Hj E2). ring.
  - assert (E0 : grad_row m k (sm_w m k) j = 0).
    { specialize (Hp k Hk' j Hj). apply Rmult_integral in Hg as [Hg|Hg]; lra. }
    unfold grad_row in E0. rewrite E in E0. rewrite E0. ring.
Qed.
Print Assumptions C95_stationary_is_global_optimum.

(** Non-vacuity: a log-space optimiser; the stationary model of C55 in log coordinates. *)
Definition log_point (allow : bool) (B k : nat) (x0 : vec) : vec :=
  fun j => if (negb allow && self_block B k j)%bool then x0 j else Rmin (x0 j) 0.
Definition two_points_log (allow : bool) (B k : nat) (x0 : vec) : optim :=
  let c := log_point allow B k x0 in
  AskF x0 (fun v => AskG c (fun _ => AskF c (fun v' => if Rltb v' v then Done c else Done x0))).
Example C95_nonvacuous :
  (0 < sm_K ex_noself)%nat /\ all_pos ex_noself /\ log_optimiser (Some 1) ex_noself (two_points_log false 1) /\
  (forall k, (k < 2)%nat -> hi_ok (Some 1) ex_noself k) /\ self_small ex_noself /\
  (forall k j, (k < 1)%nat -> sm_w ex_stat k j = exp 0) /\
  exists g, fst (s_gradient_log ex_stat 0 (fun _ => 0)) = Ok g /\ forall j, (j < sm_P ex_stat)%nat -> g j = 0.
Proof.
  destruct C94_nonvacuous as (_ & _ & _ & _ & _ & (Hp & H32) & _).
  split; [cbn; lia|]. split; [intros k Hk j Hj; now apply Hp|]. split; [|split; [|split; [|split]]].
  - intros k x0 Hk Hx0. unfold two_points_log. cbv zeta. set (c := log_point false 1 k x0).
    assert (Hc : in_hi_log (Some 1) (sm_P ex_noself) c /\ frozen (sm_allow ex_noself) (sm_B ex_noself) k (sm_P ex_noself) x0 c).
    { split.
      - intros j Hj. specialize (Hx0 j Hj). unfold below, fit_hi_log, fit_hi, c, log_point in *. destruct j; [exact I|].
        destruct (_ && _)%bool; [exact Hx0|]. eapply Rle_trans; [apply Rmin_l|exact Hx0].
      - intros _ j Hj Hb. unfold c, log_point. change (sm_B ex_noself) with 1%nat in Hb. now rewrite Hb. }
    split.
    + cbn [asks_in]. split; [split; [exact Hx0|intros _ j _ _; reflexivity]|]. intros v. split; [exact Hc|]. intros g _. split; [exact Hc|]. intros v'.
      destruct (Rltb v' v); [exact Hc|]. split; [exact Hx0|intros _ j _ _; reflexivity].
    + intros f g _. cbn [pure_run]. destruct (Rltb (f c) (f x0)) eqn:E; cbn [pure_run]; [apply Rltb_true in E; lra|lra].
  - intros k Hk j Hj. unfold below, fit_hi. destruct j; [exact I|]. cbn [ex_noself sm_w]. unfold remove_self.
    assert (H1 : forall n, / 10 ^ n <= 1). { intros n. rewrite <- Rinv_1. apply Rinv_le_contravar; [lra|]. apply pow_R1_Rle. lra. }
    destruct (self_block 1 k (S j)); apply H1.
  - intros Ha k j Hk Hj Hb. rewrite (H32 Ha k j Hk Hj Hb). apply close_1e32.
  - intros k j _. cbn [ex_stat sm_w]. now rewrite exp_0.
  - unfold s_gradient_log. rewrite gradient_row, set_row_row; [|cbn; lia|intros H; discriminate].
    cbn [bindr fst]. eexists. split; [reflexivity|]. intros j Hj. cbv beta. rewrite exp_0.
    destruct C55_nonvacuous as (_ & _ & _ & _ & (g & Eg & Hg) & _).
    assert (Em : s_set_row ex_stat 0 (fun _ => 1) = ex_stat).
    { unfold s_set_row, sm_with_w, ex_stat. cbn. f_equal. apply functional_extensionality. intros k. destruct (Nat.eqb k 0); reflexivity. }
    assert (E1 : s_compute_gradient ex_stat 0 All = Ok (grad_row ex_stat 0 (fun _ => 1))).
    { rewrite <- Em at 1. apply gradient_row; [cbn; lia|intros H; discriminate]. }
    rewrite Eg in E1. injection E1 as ->. specialize (Hg j Hj).
    rewrite Hg. ring.
Qed.
