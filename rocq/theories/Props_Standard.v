(** * Props_Standard: the standard Hawkes model (C11, C43, C47, C48, C50, C51, C53, C54, C55). *)
From Coq Require Import Permutation.
From Verif Require Import Prelude ExtReal Arrays Spec_Basis Spec_Discrete M_Basis L_Basis M_Parents M_Discrete L_Discrete L_Minibatch
  Props_Discrete M_MeanField M_Standard Props_Network L_Standard.
Set Implicit Arguments.
Open Scope R_scope.

Definition s_dims (m : smodel) : Prop := (0 < sm_K m /\ 0 < sm_B m /\ 0 < sm_L m)%nat.

(* ------------------------------------------------------------------ *)
(** ** C48 *)

(** After adding a data set, the rate computed for it (addressed by its position or as the last one) is the
    Hawkes rate with the bias, W and G that the model reports. *)
Theorem C48_rate_is_hawkes :
  forall m T S_, s_dims m -> (0 < T)%nat -> counts T (sm_K m) S_ ->
  (forall k1 k2, (k1 < sm_K m)%nat -> (k2 < sm_K m)%nat -> s_W m k1 k2 <> 0) ->
  exists m', s_add_data m (sval_of T (sm_K m) S_) None None = Ok m' /\
  forall index ks l, index = Z.of_nat (length (sm_data m)) \/ index = (-1)%Z ->
    (ks = KNone /\ l = seq 0 (sm_K m) \/ (exists k, ks = KInt k /\ l = [k]) \/ ks = KArr l /\ l <> []) ->
    (forall k, In k l -> (k < sm_K m)%nat) ->
  exists cols, s_compute_rate m' (Some index) ks = Ok (T, cols) /\ length cols = length l /\
  forall c k t, nth_error l c = Some k -> (t < T)%nat -> nth c cols (fun _ => 0) t =
    hawkes_rate (sm_K m) (sm_B m) (s_bias m) (s_W m) (s_G m) (causal_conv (sm_L m) (sm_bas m) S_) t k.
Proof.
  intros m T S_ (HK & HB & HL) HT Hc HW.
  destruct (@s_add_data_ok m T S_ HT HK HB HL Hc None) as (m' & E); [discriminate|].
  exists m'. split; [exact E|]. apply s_add_data_inv in E as (T' & F & ps & Ed & _ & _ & _ & (F0 & EF0 & -> & _) & Eps & ->).
  cbn [sval_of sv_dims] in Ed. injection Ed as <-. cbn [s_batches] in Eps. injection Eps as <-.
  set (d := {| sd_T := T; sd_S := S_; sd_F := flatten_F (sm_B m) F0 |}).
  intros index ks l Hi Hks Hl.
  assert (Ed : s_data_at (sm_with_data m (sm_data m ++ [d])) index = Ok d).
  { unfold s_data_at. cbn [sm_data sm_with_data]. rewrite app_length. cbn [length].
    assert (Ep : py_index (length (sm_data m) + 1) index = Some (length (sm_data m))).
    { destruct Hi as [->| ->].
      - apply py_index_nat. lia.
      - unfold py_index. destruct (Z.leb_spec 0 (-1)); [lia|]. cbn [andb].
        destruct (Z.leb_spec 0 (Z.of_nat (length (sm_data m) + 1) + -1)); [|lia].
        destruct (Z.ltb_spec (-1) 0); [|lia]. cbn [andb]. f_equal. lia. }
    rewrite Ep, nth_error_app2, Nat.sub_diag by lia. reflexivity. }
  assert (El : s_ks (sm_with_data m (sm_data m ++ [d])) ks = Ok l).
  { destruct Hks as [(-> & ->)|[(k & -> & ->)|(-> & Hne)]].
    - now apply (s_ks_none (sm_with_data m (sm_data m ++ [d]))).
    - unfold s_ks. cbn [sm_K sm_with_data]. rewrite (proj2 (Nat.ltb_lt _ _)); [reflexivity|]. apply Hl. now left.
    - now apply (s_ks_arr (sm_with_data m (sm_data m ++ [d]))). }
  unfold s_compute_rate. cbv iota. change (sv_at (sval_of T (sm_K m) S_)) with S_. fold d. rewrite Ed. cbn [bindr]. rewrite El. cbn [bindr].
  eexists. split; [reflexivity|]. split; [now rewrite map_length|].
  intros c k t Hck Ht. cbn [sm_w sm_with_data].
  rewrite (nth_indep _ (fun _ => 0) (s_rate (sm_P (sm_with_data m (sm_data m ++ [d]))) (sm_w m k) d)).
  2:{ rewrite map_length. apply nth_error_Some. congruence. }
  change (s_rate (sm_P (sm_with_data m (sm_data m ++ [d]))) (sm_w m k) d)
    with ((fun k => s_rate (sm_P (sm_with_data m (sm_data m ++ [d]))) (sm_w m k) d) k).
  assert (Hk : (k < sm_K m)%nat) by (apply Hl; eapply nth_error_In; eauto).
  rewrite map_nth. apply nth_error_nth with (d := k) in Hck. rewrite Hck.
  change (sm_P (sm_with_data m (sm_data m ++ [d]))) with (sm_P m).
  rewrite s_rate_split by (auto; reflexivity). unfold hawkes_rate, s_bias. f_equal.
  apply Rsum_ext; intros k1 Hk1. apply Rsum_ext; intros b Hb.
  unfold d, flatten_F, sd_F. cbn [Nat.add]. rewrite div_idx, mod_idx by auto.
  rewrite (@convolve_causal _ _ _ _ _ _ _ EF0) by auto. unfold s_G. cbn [Nat.add sv_at sval_of].
  field. auto.
Qed.
Print Assumptions C48_rate_is_hawkes.

(** The layout itself: if row k' of the weights holds the background rate followed by, for each source k, the
    products of W[k,k'] and a normalised impulse response G[k,k',.], then those are what the model reports. *)
Theorem C48_reported_parameters :
  forall m (b0 : vec) (W : mat) (G : ten),
  (forall k', (k' < sm_K m)%nat -> sm_w m k' 0%nat = b0 k') ->
  (forall k k' b, (k < sm_K m)%nat -> (k' < sm_K m)%nat -> (b < sm_B m)%nat ->
     sm_w m k' (1 + k * sm_B m + b)%nat = W k k' * G k k' b) ->
  (forall k k', (k < sm_K m)%nat -> (k' < sm_K m)%nat -> Rsum (sm_B m) (G k k') = 1 /\ W k k' <> 0) ->
  forall k k' b, (k < sm_K m)%nat -> (k' < sm_K m)%nat -> (b < sm_B m)%nat ->
  s_bias m k' = b0 k' /\ s_W m k k' = W k k' /\ s_G m k k' b = G k k' b.
Proof.
  intros m b0 W G H0 HW HG k k' b Hk Hk' Hb.
  assert (EW : s_W m k k' = W k k').
  { unfold s_W. rewrite (Rsum_ext _ (fun b => W k k' * G k k' b)).
    - rewrite Rsum_scal. destruct (HG k k' Hk Hk') as [-> _]. ring.
    - intros c Hc. rewrite <- HW by auto. f_equal. }
  split; [now apply H0|]. split; [exact EW|]. unfold s_G. rewrite EW.
  replace (1 + (k * sm_B m + b))%nat with (1 + k * sm_B m + b)%nat by lia. rewrite HW by auto. field. now apply HG.
Qed.
Print Assumptions C48_reported_parameters.

(** A freshly constructed two-process model with one data set. *)
Definition ex_sm : smodel :=
  {| sm_K := 2; sm_B := 1; sm_dt := 1; sm_alpha := 2; sm_beta := 1; sm_allow := true; sm_L := 2;
     sm_bas := fun l _ => if Nat.eqb l 1 then 1 else 0; sm_w := fun _ _ => / 10 ^ 3; sm_data := [] |}.
Example ex_sm_init : sm_init 2 1 1 2 1 true false 2 (sm_bas ex_sm) = Ok ex_sm.
Proof.
  unfold sm_init. cbn [andb]. destruct (Rltb 2 1) eqn:E; [apply Rltb_true in E; lra|reflexivity].
Qed.
Example C48_nonvacuous : s_dims ex_sm /\ counts 3 (sm_K ex_sm) ex_S /\
  (forall k1 k2, (k1 < 2)%nat -> (k2 < 2)%nat -> s_W ex_sm k1 k2 <> 0).
Proof.
  split; [repeat split; cbn; lia|]. split; [apply ex_counts|]. intros. unfold s_W. cbn. lra.
Qed.

(* ------------------------------------------------------------------ *)
(** ** C47 *)

(** The model with the weight of process k at position j replaced. *)
Definition set_weight (m : smodel) (k j : nat) (x : R) : smodel := sm_with_w m (upd2 (sm_w m) k j x).

Lemma near_all (A : Type) (l : list A) (f : A -> R -> R) (c : A -> R) x0 :
  (forall a, In a l -> 0 < f a x0) -> (forall a x, In a l -> f a x = f a x0 + c a * (x - x0)) ->
  exists eps, 0 < eps /\ forall x a, Rabs (x - x0) < eps -> In a l -> 0 < f a x.
Proof.
  induction l as [|a l IH]; intros Hp Ha.
  - exists 1. split; [lra|]. intros x b _ [].
  - destruct IH as (e & He & H). { intros; apply Hp; now right. } { intros; apply Ha; now right. }
    assert (Hpa := Hp a (or_introl eq_refl)).
    set (e2 := f a x0 / (Rabs (c a) + 1)).
    assert (Hc : 0 <= Rabs (c a)) by apply Rabs_pos.
    assert (He2 : 0 < e2) by (apply Rdiv_lt_0_compat; lra).
    exists (Rmin e e2). split; [now apply Rmin_pos|].
    intros x b Hx Hb. destruct Hb as [<-|Hb].
    + rewrite Ha by now left. assert (Hx2 : Rabs (x - x0) < e2) by (eapply Rlt_le_trans; [exact Hx|apply Rmin_r]).
      assert (Hm : Rabs (c a * (x - x0)) < f a x0).
      { rewrite Rabs_mult. assert (E : e2 * (Rabs (c a) + 1) = f a x0) by (unfold e2; field; lra).
        assert (0 <= Rabs (x - x0)) by apply Rabs_pos. nra. }
      apply Rabs_def2 in Hm. lra.
    + apply H; [|auto]. eapply Rlt_le_trans; [exact Hx|apply Rmin_l].
Qed.

Lemma upd2_row {A} (w : nat -> nat -> A) k j x : forall i, upd2 w k j x k i = upd (w k) j x i.
Proof. intros i. unfold upd2, upd. rewrite Nat.eqb_refl. reflexivity. Qed.
Lemma upd2_other {A} (w : nat -> nat -> A) k j x k' : k' <> k -> forall i, upd2 w k j x k' i = w k' i.
Proof. intros H i. unfold upd2. destruct (Nat.eqb_spec k' k); [contradiction|reflexivity]. Qed.
Lemma s_rate_ext P w w' d t : (forall j, (j < P)%nat -> w j = w' j) -> s_rate P w d t = s_rate P w' d t.
Proof. intros H. unfold s_rate. apply Rsum_ext; intros j Hj. now rewrite H. Qed.
Lemma s_rate_set m k j x k' d t : (j < sm_P m)%nat ->
  s_rate (sm_P m) (sm_w (set_weight m k j x) k') d t
  = s_rate (sm_P m) (sm_w m k') d t + (if Nat.eqb k' k then sd_F d t j else 0) * (x - sm_w m k j).
Proof.
  intros Hj. cbn [sm_w set_weight sm_with_w]. destruct (Nat.eqb_spec k' k) as [->|Hne].
  - rewrite (@s_rate_ext _ _ (upd (sm_w m k) j x)) by (intros; apply upd2_row). now rewrite s_rate_upd.
  - rewrite (@s_rate_ext _ _ (sm_w m k')) by (intros; now apply upd2_other). ring.
Qed.

Lemma derivable_cell n dt a c x0 : 0 < a ->
  derivable_pt_lim (fun x => n * ln (a + c * (x - x0)) - (a + c * (x - x0)) * dt) x0 ((n / a - dt) * c).
Proof.
  intros Ha.
  assert (Haff : derivable_pt_lim (fun x => a + c * (x - x0)) x0 c).
  { apply derivable_lim_ext with (f := (fct_cte a + mult_real_fct c (id - fct_cte x0))%F); [intros y; reflexivity|].
    apply (@derivable_lim_eq _ _ (0 + c * (1 - 0))); [ring|].
    apply derivable_pt_lim_plus; [apply derivable_pt_lim_const|]. apply derivable_pt_lim_scal.
    apply derivable_pt_lim_minus; [apply derivable_pt_lim_id|apply derivable_pt_lim_const]. }
  assert (Hln : derivable_pt_lim (fun x => ln (a + c * (x - x0))) x0 (/ a * c)).
  { apply (derivable_pt_lim_comp (fun x => a + c * (x - x0)) ln); [exact Haff|].
    replace (a + c * (x0 - x0)) with a by ring. now apply derivable_pt_lim_ln. }
  apply derivable_lim_ext with (f := minus_fct (mult_real_fct n (fun x => ln (a + c * (x - x0)))) (mult_real_fct dt (fun x => a + c * (x - x0)))).
  { intros y. unfold minus_fct, mult_real_fct. ring. }
  apply (@derivable_lim_eq _ _ (n * (/ a * c) - dt * c)); [field; lra|].
  apply derivable_pt_lim_minus; now apply derivable_pt_lim_scal.
Qed.

Lemma derivable_upd (f : R -> R) f' (w : vec) i j : derivable_pt_lim f (w j) f' ->
  derivable_pt_lim (fun x => f (upd w j x i)) (w j) (if Nat.eqb i j then f' else 0).
Proof.
  intros H. unfold upd. destruct (Nat.eqb_spec i j); [exact H|apply derivable_pt_lim_const].
Qed.

(** compute_gradient(k) succeeds and its j-th entry is the derivative of log_posterior (over any set of processes
    containing k; by default all) with respect to weight j of process k; entries of the self block are 0 when
    self-connections are disallowed. *)
Theorem C47_gradient :
  forall m k l, NoDup l -> In k l -> (forall k', In k' l -> (k' < sm_K m)%nat) ->
  rates_pos m l -> weights_pos m l ->
  (sm_allow m = false -> forall j, (j < sm_P m)%nat -> self_block (sm_B m) k j = true -> Rabs (sm_w m k j) <= / 10 ^ 8) ->
  exists g, s_compute_gradient m k All = Ok g /\
  forall j, (j < sm_P m)%nat ->
    (sm_allow m = false -> self_block (sm_B m) k j = true -> g j = 0) /\
    ((sm_allow m = true \/ self_block (sm_B m) k j = false) ->
     exists eps f, 0 < eps /\
       (forall x, Rabs (x - sm_w m k j) < eps ->
          s_log_posterior (set_weight m k j x) All (KArr l) = Ok (Fin (f x))) /\
       derivable_pt_lim f (sm_w m k j) (g j)).
Proof.
  intros m k l Hnd Hk Hl Hr Hw Hself.
  set (g := fun j => lsum (map (fun d => s_grad_data m k (sm_w m k) d j) (sm_data m)) + s_grad_prior (sm_alpha m) (sm_beta m) (sm_w m k) j).
  assert (Eg : s_compute_gradient m k All = Ok (if sm_allow m then g else fun j => if self_block (sm_B m) k j then 0 else g j)).
  { unfold s_compute_gradient. rewrite s_data_list_all. cbn [bindr].
    rewrite (proj2 (Nat.ltb_lt k (sm_K m))) by auto. unfold s_gradient_row. destruct (sm_allow m); [reflexivity|].
    rewrite (proj2 (forall_lt_true _ _)); [reflexivity|]. intros j Hj. destruct (self_block (sm_B m) k j) eqn:Eb; [|reflexivity].
    unfold close0. apply Rleb_true. now apply Hself. }
  rewrite Eg. eexists. split; [reflexivity|]. intros j Hj.
  split. { intros Ha Hb. now rewrite Ha, Hb. }
  intros Hor.
  assert (Egj : (if sm_allow m then g else fun j => if self_block (sm_B m) k j then 0 else g j) j = g j).
  { destruct (sm_allow m); [reflexivity|]. destruct Hor as [H|H]; [discriminate|]. now rewrite H. }
  rewrite Egj. clear Egj Eg Hor Hself.
  assert (Hne : l <> []) by (intros ->; destruct Hk).
  (* neighbourhood where all rates stay positive *)
  destruct (@near_all (sdata * nat * nat)
     (flat_map (fun d => flat_map (fun t => map (fun k' => (d, t, k')) l) (seq 0 (sd_T d))) (sm_data m))
     (fun a x => let '(d, t, k') := a in s_rate (sm_P m) (sm_w (set_weight m k j x) k') d t)
     (fun a => let '(d, t, k') := a in if Nat.eqb k' k then sd_F d t j else 0) (sm_w m k j)) as (e1 & He1 & Hrate).
  { intros [[d t] k'] Hin. apply in_flat_map in Hin as (d' & Hd & Hin). apply in_flat_map in Hin as (t' & Ht & Hin).
    apply in_map_iff in Hin as (k2 & E & Hk2). injection E as -> -> ->. apply in_seq in Ht.
    rewrite s_rate_set by auto. rewrite Rminus_diag_eq, Rmult_0_r, Rplus_0_r by reflexivity. apply Hr; auto. lia. }
  { intros [[d t] k'] x _. rewrite !s_rate_set by auto. ring. }
  set (e2 := match j with O => 1 | _ => sm_w m k j end).
  assert (He2 : 0 < e2). { unfold e2. destruct j; [lra|]. apply Hw; auto. lia. }
  exists (Rmin e1 e2), (fun x => ll_fin (set_weight m k j x) (sm_w (set_weight m k j x)) l (sm_data m) + prior_fin (set_weight m k j x) (sm_w (set_weight m k j x)) l).
  split; [now apply Rmin_pos|]. split.
  - intros x Hx. assert (Hx1 : Rabs (x - sm_w m k j) < e1) by (eapply Rlt_le_trans; [exact Hx|apply Rmin_l]).
    assert (Hx2 : Rabs (x - sm_w m k j) < e2) by (eapply Rlt_le_trans; [exact Hx|apply Rmin_r]).
    apply (@s_log_posterior_fin (set_weight m k j x)); auto.
    + intros d t k' Hd Ht Hk'. apply (Hrate x (d, t, k') Hx1). apply in_flat_map. exists d. split; [exact Hd|].
      apply in_flat_map. exists t. split; [apply in_seq; lia|]. apply in_map_iff. eauto.
    + intros k' i Hk' Hi. cbn [sm_w set_weight sm_with_w]. change (sm_P (set_weight m k j x)) with (sm_P m) in Hi.
      unfold upd2. destruct (Nat.eqb_spec k' k), (Nat.eqb_spec i j); cbn [andb]; try (now apply Hw; auto).
      subst. destruct j; [lia|]. unfold e2 in Hx2. apply Rabs_def2 in Hx2. lra.
  - apply derivable_pt_lim_plus with (f1 := fun x => ll_fin (set_weight m k j x) (sm_w (set_weight m k j x)) l (sm_data m))
      (f2 := fun x => prior_fin (set_weight m k j x) (sm_w (set_weight m k j x)) l).
    + unfold ll_fin. apply derivable_lim_lsum with (f := fun d x => Rsum (sd_T d) (fun t => lsum (map (fun k' => IZR (sd_S d t k') * ln (s_rate (sm_P m) (sm_w (set_weight m k j x) k') d t) - s_rate (sm_P m) (sm_w (set_weight m k j x) k') d t * sm_dt m) l))).
      intros d Hd. unfold s_grad_data.
      apply derivable_lim_Rsum with (f := fun t x => lsum (map (fun k' => IZR (sd_S d t k') * ln (s_rate (sm_P m) (sm_w (set_weight m k j x) k') d t) - s_rate (sm_P m) (sm_w (set_weight m k j x) k') d t * sm_dt m) l)).
      intros t Ht.
      apply (@derivable_lim_eq _ _ (lsum (map (fun k' => if Nat.eqb k' k then (IZR (sd_S d t k) / s_rate (sm_P m) (sm_w m k) d t - sm_dt m) * sd_F d t j else 0) l))).
      { now apply lsum_nodup_ind. }
      apply derivable_lim_lsum with (f := fun k' x => IZR (sd_S d t k') * ln (s_rate (sm_P m) (sm_w (set_weight m k j x) k') d t) - s_rate (sm_P m) (sm_w (set_weight m k j x) k') d t * sm_dt m).
      intros k' Hk'.
      apply derivable_lim_ext with (f := fun x => IZR (sd_S d t k') * ln (s_rate (sm_P m) (sm_w m k') d t + (if Nat.eqb k' k then sd_F d t j else 0) * (x - sm_w m k j)) - (s_rate (sm_P m) (sm_w m k') d t + (if Nat.eqb k' k then sd_F d t j else 0) * (x - sm_w m k j)) * sm_dt m).
      { intros y. now rewrite s_rate_set. }
      eapply derivable_lim_eq; [|apply derivable_cell; now apply Hr].
      destruct (Nat.eqb_spec k' k) as [->|]; ring.
    + unfold prior_fin.
      apply (@derivable_lim_eq _ _ (lsum (map (fun k' => if Nat.eqb k' k then s_grad_prior (sm_alpha m) (sm_beta m) (sm_w m k) j else 0) l))).
      { now apply lsum_nodup_ind. }
      apply derivable_lim_lsum with (f := fun k' x => (if Rltb 1 (sm_alpha m) then (sm_alpha m - 1) * Rsum (sm_P m - 1) (fun i => ln (sm_w (set_weight m k j x) k' (S i))) else 0) + Rsum (sm_P m - 1) (fun i => - sm_beta m * sm_w (set_weight m k j x) k' (S i))).
      intros k' Hk'. destruct (Nat.eqb_spec k' k) as [->|Hne'].
      2:{ apply derivable_lim_ext with (f := fun _ => (if Rltb 1 (sm_alpha m) then (sm_alpha m - 1) * Rsum (sm_P m - 1) (fun i => ln (sm_w m k' (S i))) else 0) + Rsum (sm_P m - 1) (fun i => - sm_beta m * sm_w m k' (S i))).
          2:{ apply derivable_pt_lim_const. }
          intros y. f_equal.
          - destruct (Rltb 1 (sm_alpha m)); [|reflexivity]. f_equal. apply Rsum_ext; intros i _. cbn [sm_w set_weight sm_with_w]. now rewrite (@upd2_other _ (sm_w m) k j y k' Hne').
          - apply Rsum_ext; intros i _. cbn [sm_w set_weight sm_with_w]. now rewrite (@upd2_other _ (sm_w m) k j y k' Hne'). }
      assert (Hu : forall y i, sm_w (set_weight m k j y) k i = upd (sm_w m k) j y i) by (intros; apply upd2_row).
      assert (D1 : derivable_pt_lim (fun x => Rsum (sm_P m - 1) (fun i => ln (sm_w (set_weight m k j x) k (S i)))) (sm_w m k j)
                     (match j with O => 0 | _ => / sm_w m k j end)).
      { apply (@derivable_lim_eq _ _ (Rsum (sm_P m - 1) (fun i => if Nat.eqb (S i) j then / sm_w m k j else 0))).
        { destruct j as [|j']; [now apply Rsum_0|]. cbn [Nat.eqb]. rewrite (Rsum_ind _ j' (fun _ => / sm_w m k (S j'))).
          rewrite (proj2 (Nat.ltb_lt _ _)) by lia. reflexivity. }
        apply derivable_lim_Rsum with (f := fun i x => ln (sm_w (set_weight m k j x) k (S i))). intros i Hi.
        apply derivable_lim_ext with (f := fun x => ln (upd (sm_w m k) j x (S i))); [intros y; now rewrite Hu|].
        destruct (Nat.eqb_spec (S i) j) as [E|E].
        - pose proof (@derivable_upd ln (/ sm_w m k j) (sm_w m k) (S i) j) as H. rewrite E, Nat.eqb_refl in *. apply H.
          apply derivable_pt_lim_ln. apply Hw; auto. lia.
        - apply derivable_lim_ext with (f := fun _ => ln (sm_w m k (S i))); [|apply derivable_pt_lim_const].
          intros y. now rewrite upd_neq. }
      assert (D2 : derivable_pt_lim (fun x => Rsum (sm_P m - 1) (fun i => - sm_beta m * sm_w (set_weight m k j x) k (S i))) (sm_w m k j)
                     (match j with O => 0 | _ => - sm_beta m end)).
      { apply (@derivable_lim_eq _ _ (Rsum (sm_P m - 1) (fun i => if Nat.eqb (S i) j then - sm_beta m else 0))).
        { destruct j as [|j']; [now apply Rsum_0|]. cbn [Nat.eqb]. rewrite (Rsum_ind _ j' (fun _ => - sm_beta m)).
          rewrite (proj2 (Nat.ltb_lt _ _)) by lia. reflexivity. }
        apply derivable_lim_Rsum with (f := fun i x => - sm_beta m * (sm_w (set_weight m k j x) k (S i))). intros i Hi.
        apply derivable_lim_ext with (f := fun x => - sm_beta m * upd (sm_w m k) j x (S i)); [intros y; now rewrite Hu|].
        destruct (Nat.eqb_spec (S i) j) as [E|E].
        - pose proof (@derivable_upd (fun y => - sm_beta m * y) (- sm_beta m) (sm_w m k) (S i) j) as H. rewrite E, Nat.eqb_refl in *. apply H.
          apply (@derivable_lim_eq _ _ (- sm_beta m * 1)); [ring|]. apply (derivable_pt_lim_scal id). apply derivable_pt_lim_id.
        - apply derivable_lim_ext with (f := fun _ => - sm_beta m * sm_w m k (S i)); [|apply derivable_pt_lim_const].
          intros y. now rewrite upd_neq. }
      destruct (Rltb 1 (sm_alpha m)) eqn:Ea.
      * eapply derivable_lim_eq; [|apply derivable_pt_lim_plus; [apply derivable_pt_lim_scal, D1|apply D2]].
        unfold s_grad_prior. rewrite Ea. destruct j; [ring|]. field. apply Rgt_not_eq. apply Hw; auto. lia.
      * apply derivable_lim_ext with (f := fun x => 0 + Rsum (sm_P m - 1) (fun i => - sm_beta m * sm_w (set_weight m k j x) k (S i))); [intros y; reflexivity|].
        eapply derivable_lim_eq; [|apply (derivable_pt_lim_plus (fun _ => 0)); [apply derivable_pt_lim_const|apply D2]].
        unfold s_grad_prior. rewrite Ea. destruct j; ring.
Qed.
Print Assumptions C47_gradient.

(** A model with data: filtered spikes of [ex_S] over two bins. *)
Definition ex_sd : sdata := {| sd_T := 2; sd_S := ex_S; sd_F := fun t j => if Nat.eqb j 0 then 1 else if (Nat.eqb t 1 && Nat.eqb j 1)%bool then 2 else 0 |}.
Definition ex_smd : smodel := sm_with_data ex_sm [ex_sd].
Example C47_nonvacuous : NoDup [0;1]%nat /\ rates_pos ex_smd [0;1]%nat /\ weights_pos ex_smd [0;1]%nat /\ sm_allow ex_smd = true /\
  (exists d t k, In d (sm_data ex_smd) /\ (t < sd_T d)%nat /\ (0 < sd_S d t k)%Z).
Proof.
  split; [repeat constructor; cbn; intuition lia|]. split.
  { intros d t k [<-|[]] _ _. unfold s_rate, ex_smd, sm_P. cbn [sm_K sm_B ex_sm sm_with_data Nat.add Nat.mul Rsum ex_sd sd_F sm_w Nat.eqb andb].
    destruct (Nat.eqb t 1); cbn [andb]; lra. }
  split; [intros k j _ _; cbn; lra|]. split; [reflexivity|].
  exists ex_sd, 0%nat, 0%nat. cbn. repeat split; auto; lia.
Qed.

(* ------------------------------------------------------------------ *)
(** ** C55 *)

(** Mixing two weight matrices. *)
Definition mix_w (th : R) (w1 w2 : mat) : mat := fun k j => th * w1 k j + (1 - th) * w2 k j.
Definition data_counts (m : smodel) (l : list nat) : Prop :=
  forall d t k, In d (sm_data m) -> (t < sd_T d)%nat -> In k l -> (0 <= sd_S d t k)%Z.

Lemma s_rate_mix P w1 w2 th d t : s_rate P (fun j => th * w1 j + (1 - th) * w2 j) d t = th * s_rate P w1 d t + (1 - th) * s_rate P w2 d t.
Proof. unfold s_rate. rewrite <- !Rsum_scal, <- Rsum_plus. apply Rsum_ext; intros; ring. Qed.
Lemma lsum_le {A} (f g : A -> R) l : (forall a, In a l -> f a <= g a) -> lsum (map f l) <= lsum (map g l).
Proof. induction l as [|a l IH]; intros H; cbn; [lra|]. apply Rplus_le_compat; [apply H; now left|]. apply IH; intros; apply H; now right. Qed.
Lemma mix_pos th a b : 0 <= th <= 1 -> 0 < a -> 0 < b -> 0 < th * a + (1 - th) * b.
Proof.
  intros H Ha Hb. destruct (Req_dec th 0) as [->|]; [nra|]. assert (0 < th * a) by (apply Rmult_lt_0_compat; lra).
  assert (0 <= (1 - th) * b) by (apply Rmult_le_pos; lra). lra.
Qed.

(** log_posterior, jointly in all weights, is concave on the weights that give positive rates (alpha >= 1 is the
    constructor's requirement). *)
Theorem C55_concave :
  forall m l w1 w2 th, 1 <= sm_alpha m -> 0 <= th <= 1 -> l <> [] -> (forall k, In k l -> (k < sm_K m)%nat) -> data_counts m l ->
  (forall w, w = w1 \/ w = w2 -> rates_pos (sm_with_w m w) l /\ weights_pos (sm_with_w m w) l) ->
  exists v1 v2 v,
    s_log_posterior (sm_with_w m w1) All (KArr l) = Ok (Fin v1) /\
    s_log_posterior (sm_with_w m w2) All (KArr l) = Ok (Fin v2) /\
    s_log_posterior (sm_with_w m (mix_w th w1 w2)) All (KArr l) = Ok (Fin v) /\
    th * v1 + (1 - th) * v2 <= v.
Proof.
  intros m l w1 w2 th Ha Hth Hne Hl Hc Hw.
  destruct (Hw w1 (or_introl eq_refl)) as (Hr1 & Hp1). destruct (Hw w2 (or_intror eq_refl)) as (Hr2 & Hp2).
  assert (Hr : rates_pos (sm_with_w m (mix_w th w1 w2)) l).
  { intros d t k Hd Ht Hk. cbn [sm_w sm_with_w]. unfold mix_w. rewrite s_rate_mix. apply mix_pos; [auto|now apply Hr1|now apply Hr2]. }
  assert (Hp : weights_pos (sm_with_w m (mix_w th w1 w2)) l).
  { intros k j Hk Hj. apply mix_pos; [auto|now apply Hp1|now apply Hp2]. }
  do 3 eexists. split; [apply s_log_posterior_fin; auto|]. split; [apply s_log_posterior_fin; auto|].
  split; [apply s_log_posterior_fin; auto|].
  cbn [sm_w sm_data sm_with_w]. rewrite !Rmult_plus_distr_l.
  match goal with |- ?a + ?b + (?c + ?d) <= ?e + ?f => enough (a + c <= e /\ b + d <= f) by lra end. split.
  - unfold ll_fin. rewrite <- !lsum_map_scal, <- lsum_map_plus. apply lsum_le. intros d Hd.
    rewrite <- !Rsum_scal, <- Rsum_plus. apply Rsum_le. intros t Ht.
    rewrite <- !lsum_map_scal, <- lsum_map_plus. apply lsum_le. intros k Hk.
    change (sm_P (sm_with_w m w1)) with (sm_P m). change (sm_P (sm_with_w m w2)) with (sm_P m).
    change (sm_P (sm_with_w m (mix_w th w1 w2))) with (sm_P m). cbn [sm_dt sm_with_w].
    change (mix_w th w1 w2 k) with (fun j => th * w1 k j + (1 - th) * w2 k j). rewrite s_rate_mix.
    set (r1 := s_rate (sm_P m) (w1 k) d t). set (r2 := s_rate (sm_P m) (w2 k) d t).
    assert (0 < r1) by now apply (Hr1 d t k). assert (0 < r2) by now apply (Hr2 d t k).
    pose proof (@ln_concave r1 r2 th ltac:(auto) ltac:(auto) Hth) as HJ.
    assert (Hn : 0 <= IZR (sd_S d t k)) by (apply (IZR_le 0); now apply Hc).
    pose proof (Rmult_le_compat_l _ _ _ Hn HJ). nra.
  - unfold prior_fin. cbn [sm_alpha sm_beta sm_with_w].
    change (sm_P (sm_with_w m w1)) with (sm_P m). change (sm_P (sm_with_w m w2)) with (sm_P m).
    change (sm_P (sm_with_w m (mix_w th w1 w2))) with (sm_P m).
    rewrite <- !lsum_map_scal, <- lsum_map_plus. apply lsum_le. intros k Hk.
    assert (E2 : Rsum (sm_P m - 1) (fun j => - sm_beta m * mix_w th w1 w2 k (S j))
      = th * Rsum (sm_P m - 1) (fun j => - sm_beta m * w1 k (S j)) + (1 - th) * Rsum (sm_P m - 1) (fun j => - sm_beta m * w2 k (S j))).
    { rewrite <- !Rsum_scal, <- Rsum_plus. apply Rsum_ext; intros; unfold mix_w; ring. }
    rewrite E2. destruct (Rltb 1 (sm_alpha m)); [|lra].
    assert (E1 : th * Rsum (sm_P m - 1) (fun j => ln (w1 k (S j))) + (1 - th) * Rsum (sm_P m - 1) (fun j => ln (w2 k (S j)))
      <= Rsum (sm_P m - 1) (fun j => ln (mix_w th w1 w2 k (S j)))).
    { rewrite <- !Rsum_scal, <- Rsum_plus. apply Rsum_le. intros j Hj. apply ln_concave; auto.
      - apply Hp1; auto. change (sm_P (sm_with_w m w1)) with (sm_P m). lia.
      - apply Hp2; auto. change (sm_P (sm_with_w m w2)) with (sm_P m). lia. }
    assert (H0 : 0 <= sm_alpha m - 1) by lra. pose proof (Rmult_le_compat_l _ _ _ H0 E1). nra.
Qed.
Print Assumptions C55_concave.

(** A stationary point (zero gradient for every process asked for) is a global maximum among all weights with
    positive rates; with self-connections disallowed, among those that keep the same self block. *)
Theorem C55_stationary_is_global_maximum :
  forall m l w2 v1 v2, 1 <= sm_alpha m -> l <> [] -> (forall k, In k l -> (k < sm_K m)%nat) -> data_counts m l ->
  rates_pos m l -> weights_pos m l -> rates_pos (sm_with_w m w2) l -> weights_pos (sm_with_w m w2) l ->
  (forall k, In k l -> exists g, s_compute_gradient m k All = Ok g /\ forall j, (j < sm_P m)%nat -> g j = 0) ->
  (sm_allow m = false -> forall k j, In k l -> (j < sm_P m)%nat -> self_block (sm_B m) k j = true -> w2 k j = sm_w m k j) ->
  s_log_posterior m All (KArr l) = Ok (Fin v1) ->
  s_log_posterior (sm_with_w m w2) All (KArr l) = Ok (Fin v2) ->
  v2 <= v1.
Proof.
  intros m l w2 v1 v2 Ha Hne Hl Hc Hr1 Hp1 Hr2 Hp2 Hg Hself E1 E2.
  rewrite s_log_posterior_fin in E1, E2 by auto. injection E1 as <-. injection E2 as <-.
  cbn [sm_w sm_data sm_with_w].
  set (G := fun k j => lsum (map (fun d => s_grad_data m k (sm_w m k) d j) (sm_data m)) + s_grad_prior (sm_alpha m) (sm_beta m) (sm_w m k) j).
  assert (HG : forall k j, In k l -> (j < sm_P m)%nat -> G k j * (w2 k j - sm_w m k j) = 0).
  { intros k j Hk Hj. destruct (Hg k Hk) as (g & Eg & Hz). specialize (Hz j Hj).
    unfold s_compute_gradient in Eg. rewrite s_data_list_all in Eg. cbn [bindr] in Eg.
    rewrite (proj2 (Nat.ltb_lt k (sm_K m))) in Eg by auto. unfold s_gradient_row in Eg.
    destruct (sm_allow m) eqn:Eal.
    - injection Eg as <-. unfold G. rewrite Hz. ring.
    - destruct (forall_lt _ _); [|discriminate]. injection Eg as <-. cbv beta in Hz.
      destruct (self_block (sm_B m) k j) eqn:Eb.
      + rewrite Hself; auto. ring.
      + unfold G. rewrite Hz. ring. }
  assert (HGs : lsum (map (fun k => Rsum (sm_P m) (fun j => G k j * (w2 k j - sm_w m k j))) l) = 0).
  { rewrite (lsum_map_ext _ (fun _ => 0)); [rewrite lsum_map_const; ring|]. intros k Hk. apply Rsum_0. auto. }
  assert (HL : ll_fin m w2 l (sm_data m) <= ll_fin m (sm_w m) l (sm_data m)
     + lsum (map (fun k => Rsum (sm_P m) (fun j => lsum (map (fun d => s_grad_data m k (sm_w m k) d j) (sm_data m)) * (w2 k j - sm_w m k j))) l)).
  { unfold ll_fin.
    assert (Esw : lsum (map (fun k => Rsum (sm_P m) (fun j => lsum (map (fun d => s_grad_data m k (sm_w m k) d j) (sm_data m)) * (w2 k j - sm_w m k j))) l)
      = lsum (map (fun d => Rsum (sd_T d) (fun t => lsum (map (fun k => (IZR (sd_S d t k) / s_rate (sm_P m) (sm_w m k) d t - sm_dt m) * (s_rate (sm_P m) (w2 k) d t - s_rate (sm_P m) (sm_w m k) d t)) l))) (sm_data m))).
    { rewrite (@lsum_map_ext _ _ (fun d => lsum (map (fun k => Rsum (sd_T d) (fun t => (IZR (sd_S d t k) / s_rate (sm_P m) (sm_w m k) d t - sm_dt m) * (s_rate (sm_P m) (w2 k) d t - s_rate (sm_P m) (sm_w m k) d t))) l)) (sm_data m)).
      2:{ intros d _. now rewrite lsum_Rsum_swap. }
      assert (Esw2 : forall (h : sdata -> nat -> R) ds, lsum (map (fun d => lsum (map (fun k => h d k) l)) ds) = lsum (map (fun k => lsum (map (fun d => h d k) ds)) l)).
      { intros h ds. induction ds as [|d ds IH]; cbn [map lsum].
        - now rewrite lsum_map_const, Rmult_0_r.
        - rewrite IH, <- lsum_map_plus. reflexivity. }
      rewrite Esw2. apply lsum_map_ext. intros k Hk.
      rewrite (@Rsum_ext _ _ (fun j => lsum (map (fun d => s_grad_data m k (sm_w m k) d j * (w2 k j - sm_w m k j)) (sm_data m)))).
      2:{ intros j _. now rewrite lsum_map_scal_r. }
      rewrite <- lsum_Rsum_swap. apply lsum_map_ext. intros d Hd. unfold s_grad_data.
      rewrite (@Rsum_ext _ _ (fun j => Rsum (sd_T d) (fun t => (IZR (sd_S d t k) / s_rate (sm_P m) (sm_w m k) d t - sm_dt m) * sd_F d t j * (w2 k j - sm_w m k j)))).
      2:{ intros j _. now rewrite Rsum_scal_r. }
      rewrite Rsum_swap. apply Rsum_ext; intros t Ht. unfold s_rate at 3 4. rewrite <- Rsum_minus, <- Rsum_scal.
      apply Rsum_ext; intros j Hj. ring. }
    rewrite Esw, <- lsum_map_plus. apply lsum_le. intros d Hd. rewrite <- Rsum_plus. apply Rsum_le. intros t Ht.
    rewrite <- lsum_map_plus. apply lsum_le. intros k Hk.
    set (r1 := s_rate (sm_P m) (sm_w m k) d t). set (r2 := s_rate (sm_P m) (w2 k) d t).
    assert (Hr1' : 0 < r1) by now apply (Hr1 d t k). assert (Hr2' : 0 < r2) by now apply (Hr2 d t k).
    pose proof (ln_tangent Hr1' Hr2') as HT.
    assert (Hn : 0 <= IZR (sd_S d t k)) by (apply (IZR_le 0); now apply Hc).
    pose proof (Rmult_le_compat_l _ _ _ Hn HT) as HM.
    assert (E : (IZR (sd_S d t k) / r1 - sm_dt m) * (r2 - r1) = IZR (sd_S d t k) * ((r2 - r1) / r1) - sm_dt m * (r2 - r1)) by (field; lra).
    rewrite E. lra. }
  assert (HP : prior_fin m w2 l <= prior_fin m (sm_w m) l
     + lsum (map (fun k => Rsum (sm_P m) (fun j => s_grad_prior (sm_alpha m) (sm_beta m) (sm_w m k) j * (w2 k j - sm_w m k j))) l)).
  { unfold prior_fin. rewrite <- lsum_map_plus. apply lsum_le. intros k Hk.
    replace (sm_P m) with (S (sm_P m - 1)) at 5 by (unfold sm_P; lia). rewrite Rsum_S_l.
    cbn [s_grad_prior]. rewrite Rmult_0_l, Rplus_0_l.
    rewrite (@Rsum_ext _ (fun i => ((if Rltb 1 (sm_alpha m) then (sm_alpha m - 1) / sm_w m k (S i) else 0) + - sm_beta m) * (w2 k (S i) - sm_w m k (S i)))
      (fun i => (if Rltb 1 (sm_alpha m) then (sm_alpha m - 1) * ((w2 k (S i) - sm_w m k (S i)) / sm_w m k (S i)) else 0) + (- sm_beta m * w2 k (S i) - - sm_beta m * sm_w m k (S i)))).
    2:{ intros i Hi. assert (0 < sm_w m k (S i)) by (apply Hp1; [auto|]; unfold sm_P in *; lia). destruct (Rltb 1 (sm_alpha m)); field; lra. }
    rewrite Rsum_plus, Rsum_minus. destruct (Rltb 1 (sm_alpha m)).
    -
      assert (HS : Rsum (sm_P m - 1) (fun j => ln (w2 k (S j))) <= Rsum (sm_P m - 1) (fun j => ln (sm_w m k (S j))) + Rsum (sm_P m - 1) (fun i => (w2 k (S i) - sm_w m k (S i)) / sm_w m k (S i))).
      { rewrite <- Rsum_plus. apply Rsum_le. intros j Hj. apply ln_tangent.
        - apply Hp1; [auto|]. unfold sm_P in *; lia.
        - apply (Hp2 k (S j)); [auto|]. unfold sm_P in *; cbn in *; lia. }
      assert (H0 : 0 <= sm_alpha m - 1) by lra. pose proof (Rmult_le_compat_l _ _ _ H0 HS). rewrite (Rsum_scal (sm_P m - 1) (sm_alpha m - 1)). lra.
    - rewrite Rsum_zero. lra. }
  assert (HGe : lsum (map (fun k => Rsum (sm_P m) (fun j => lsum (map (fun d => s_grad_data m k (sm_w m k) d j) (sm_data m)) * (w2 k j - sm_w m k j))) l)
     + lsum (map (fun k => Rsum (sm_P m) (fun j => s_grad_prior (sm_alpha m) (sm_beta m) (sm_w m k) j * (w2 k j - sm_w m k j))) l) = 0).
  { rewrite <- lsum_map_plus, <- HGs. apply lsum_map_ext. intros k Hk. rewrite <- Rsum_plus. apply Rsum_ext; intros. unfold G. ring. }
  change (ll_fin (sm_with_w m w2) w2 l (sm_data m)) with (ll_fin m w2 l (sm_data m)).
  change (prior_fin (sm_with_w m w2) w2 l) with (prior_fin m w2 l). lra.
Qed.
Print Assumptions C55_stationary_is_global_maximum.

(** One process, two events in one bin, rate exactly 2: both gradients vanish. *)
Definition ex_stat : smodel :=
  {| sm_K := 1; sm_B := 1; sm_dt := 1; sm_alpha := 2; sm_beta := 1; sm_allow := true; sm_L := 2;
     sm_bas := fun _ _ => 1; sm_w := fun _ _ => 1; sm_data := [{| sd_T := 1; sd_S := fun _ _ => 2%Z; sd_F := fun _ _ => 1 |}] |}.
Example C55_nonvacuous : 1 <= sm_alpha ex_stat /\ data_counts ex_stat [0%nat] /\ rates_pos ex_stat [0%nat] /\ weights_pos ex_stat [0%nat] /\
  (exists g, s_compute_gradient ex_stat 0 All = Ok g /\ forall j, (j < sm_P ex_stat)%nat -> g j = 0) /\
  rates_pos (sm_with_w ex_stat (fun _ _ => 2)) [0%nat] /\ weights_pos (sm_with_w ex_stat (fun _ _ => 2)) [0%nat].
Proof.
  split; [cbn; lra|]. split; [intros d t k [<-|[]] _ _; cbn; lia|].
  split; [intros d t k [<-|[]] _ _; unfold s_rate, sm_P; cbn; lra|]. split; [intros k j _ _; cbn; lra|]. split.
  { unfold s_compute_gradient. rewrite s_data_list_all. cbn [bindr sm_K ex_stat Nat.ltb Nat.leb]. unfold s_gradient_row. cbn [sm_allow ex_stat].
    eexists. split; [reflexivity|]. intros j Hj. unfold s_grad_data, s_rate. cbn [map lsum ex_stat sm_data sd_T sd_S sd_F sm_dt sm_w sm_alpha sm_beta].
    unfold sm_P in *. cbn in Hj. cbn [sm_K sm_B ex_stat Nat.add Nat.mul Rsum].
    destruct j as [|[|j]]; [| |lia]; cbn [s_grad_prior].
    - field.
    - rewrite (proj2 (Rltb_true 1 2)) by lra. field. }
  split; [intros d t k [<-|[]] _ _; unfold s_rate, sm_P; cbn; lra|intros k j _ _; cbn; lra].
Qed.

(* ------------------------------------------------------------------ *)
(** ** C51 *)

(** Positive weights; self block at 1e-32 when self-connections are disallowed. *)
Definition step_ok (m : smodel) : Prop :=
  (forall k j, (k < sm_K m)%nat -> (j < sm_P m)%nat -> 0 < sm_w m k j) /\
  (sm_allow m = false -> forall k j, (k < sm_K m)%nat -> (j < sm_P m)%nat -> self_block (sm_B m) k j = true -> sm_w m k j = / 10 ^ 32).
(** A velocity the optimiser may be given: none, or one that is zero on the self block. *)
Definition vel_ok (m : smodel) (v : option mat) : Prop :=
  match v with
  | None => True
  | Some v => sm_allow m = false -> forall k j, (k < sm_K m)%nat -> (j < sm_P m)%nat -> self_block (sm_B m) k j = true -> v k j = 0
  end.
(** Everything but the weights is unchanged. *)
Definition same_but_w (m m' : smodel) : Prop := m' = sm_with_w m (sm_w m').
Definition mb_ok (n : nat) (o : sop) : Prop := match o with SGd _ => True | SSgd _ _ _ mb => (mb < n)%nat end.

Lemma with_w_same m w : same_but_w m (sm_with_w m w). Proof. reflexivity. Qed.
Lemma same_refl m : same_but_w m m. Proof. destruct m; reflexivity. Qed.
Lemma same_trans a b c : same_but_w a b -> same_but_w b c -> same_but_w a c.
Proof. unfold same_but_w. intros H1 H2. rewrite H2, H1 at 1. reflexivity. Qed.

Lemma close_1e32 : Rabs (/ 10 ^ 32) <= / 10 ^ 8.
Proof. rewrite Rabs_pos_eq by lra. lra. Qed.

Lemma s_grad_ok m k ds : step_ok m -> (k < sm_K m)%nat ->
  exists g, s_gradient_row m k (sm_w m k) ds = Ok g /\
    (sm_allow m = false -> forall j, self_block (sm_B m) k j = true -> g j = 0).
Proof.
  intros (Hp & Hs) Hk. unfold s_gradient_row. destruct (sm_allow m); [eexists; split; [reflexivity|discriminate]|].
  rewrite (proj2 (forall_lt_true _ _)).
  - eexists. split; [reflexivity|]. intros _ j Hb. cbv beta. now rewrite Hb.
  - intros j Hj. destruct (self_block (sm_B m) k j) eqn:Eb; [|reflexivity]. apply Rleb_true. rewrite Hs by auto. apply close_1e32.
Qed.

Lemma row_step_ok m k (row v : vec) : step_ok m -> (k < sm_K m)%nat ->
  (forall j, row j = exp (ln (sm_w m k j) + v j)) ->
  (sm_allow m = false -> forall j, (j < sm_P m)%nat -> self_block (sm_B m) k j = true -> v j = 0) ->
  step_ok (sm_with_w m (fun k' j => if Nat.eqb k' k then row j else sm_w m k' j)).
Proof.
  intros (Hp & Hs) Hk Er Hv. split.
  - intros k' j Hk' Hj. cbn [sm_w sm_with_w]. destruct (Nat.eqb k' k); [rewrite Er; apply exp_pos|now apply Hp].
  - intros Ha k' j Hk' Hj Hb. cbn [sm_w sm_with_w sm_allow sm_B] in *. change (sm_P (sm_with_w m _)) with (sm_P m) in Hj.
    destruct (Nat.eqb_spec k' k) as [->|]; [|now apply Hs].
    rewrite Er, Hv by auto. rewrite Rplus_0_r, exp_ln by now apply Hp. now apply Hs.
Qed.

Lemma s_rows_ok e ks : forall m, step_ok m -> (forall k, In k ks -> (k < sm_K m)%nat) ->
  exists m', s_rows (fun m k => s_gd_row m e k) m ks = Ok m' /\ step_ok m' /\ same_but_w m m'.
Proof.
  induction ks as [|k ks IH]; intros m Hm Hks; cbn [s_rows].
  - exists m. split; [reflexivity|]. split; [auto|apply same_refl].
  - assert (Hk := Hks k (or_introl eq_refl)).
    unfold s_gd_row at 1. unfold s_compute_gradient. rewrite s_data_list_all. cbn [bindr].
    rewrite (proj2 (Nat.ltb_lt k (sm_K m))) by auto.
    destruct (@s_grad_ok m k (sm_data m) Hm Hk) as (g & Eg & Hg). rewrite Eg. cbn [bindr].
    set (m1 := sm_with_w m _).
    destruct (IH m1) as (m' & E & Hm' & Hsame).
    + apply (@row_step_ok m k (fun j => exp (ln (sm_w m k j) + e * (g j * sm_w m k j))) (fun j => e * (g j * sm_w m k j))); auto.
      intros Ha j Hj Hb. rewrite Hg by auto. ring.
    + intros k' Hk'. apply Hks. now right.
    + exists m'. split; [exact E|]. split; [auto|]. eapply same_trans; [|exact Hsame]. apply with_w_same.
Qed.

Lemma s_sgd_rows_ok mb lr mom prev ks : forall m vel,
  step_ok m -> (mb < length (sm_data m))%nat -> vel_ok m (Some prev) -> vel_ok m (Some vel) -> (forall k, In k ks -> (k < sm_K m)%nat) ->
  exists m' vel', s_sgd_rows mb lr mom prev (m, vel) ks = Ok (m', vel') /\ step_ok m' /\ same_but_w m m' /\ vel_ok m' (Some vel').
Proof.
  induction ks as [|k ks IH]; intros m vel Hm Hmb Hprev Hvel Hks; cbn [s_sgd_rows].
  - exists m, vel. split; [reflexivity|]. split; [auto|]. split; [apply same_refl|auto].
  - assert (Hk := Hks k (or_introl eq_refl)).
    destruct (nth_error (sm_data m) mb) as [d|] eqn:Ed; [|apply nth_error_None in Ed; lia].
    rewrite (@s_data_at_nat m mb d Ed). cbn [bindr]. unfold s_compute_gradient. cbn [s_indices s_data_list].
    rewrite (@s_data_at_nat m mb d Ed). cbn [bindr].
    rewrite (proj2 (Nat.ltb_lt k (sm_K m))) by auto.
    destruct (@s_grad_ok m k [d] Hm Hk) as (g & Eg & Hg). rewrite Eg. cbn [bindr].
    set (v := fun j => mom * prev k j + lr * (g j * sm_w m k j / INR (sd_T d))).
    assert (Hv : sm_allow m = false -> forall j, (j < sm_P m)%nat -> self_block (sm_B m) k j = true -> v j = 0).
    { intros Ha j Hj Hb. unfold v. rewrite Hg by auto. rewrite (Hprev Ha k j) by auto. unfold Rdiv. ring. }
    set (m1 := sm_with_w m _).
    destruct (IH m1 (fun k' j => if Nat.eqb k' k then v j else vel k' j)) as (m' & vel' & E & Hm' & Hsame & Hvel').
    + apply (@row_step_ok m k (fun j => exp (ln (sm_w m k j) + v j)) v); auto.
    + exact Hmb.
    + exact Hprev.
    + intros Ha k' j Hk' Hj Hb. destruct (Nat.eqb_spec k' k) as [->|]; [now apply Hv|now apply Hvel].
    + intros k' Hk'. apply Hks. now right.
    + exists m', vel'. split; [exact E|]. split; [auto|]. split; [|auto]. eapply same_trans; [|exact Hsame]. apply with_w_same.
Qed.

(** Any sequence of gradient-descent and SGD steps, with any step sizes, momenta, minibatch choices and threading or
    restarting of the velocity, runs to completion, keeps every weight positive, keeps the self block at 1e-32 when
    self-connections are disallowed, and changes nothing but the weights. *)
Theorem C51_history_positive :
  forall m v h, step_ok m -> vel_ok m v -> (0 < length (sm_data m))%nat -> (forall o, In o h -> mb_ok (length (sm_data m)) o) ->
  exists m' v', s_run (m, v) h = Ok (m', v') /\ step_ok m' /\ same_but_w m m' /\ vel_ok m' v'.
Proof.
  intros m v h. revert m v. induction h as [|o h IH]; intros m v Hm Hv Hd Hh; cbn [s_run].
  - exists m, v. split; [reflexivity|]. split; [auto|]. split; [apply same_refl|auto].
  - assert (Ho := Hh o (or_introl eq_refl)).
    assert (Hstep : exists m1 v1, s_op (m, v) o = Ok (m1, v1) /\ step_ok m1 /\ same_but_w m m1 /\ vel_ok m1 v1).
    { destruct o as [e|fresh lr mom mb]; cbn [s_op fst snd].
      - unfold s_gradient_descent_step. destruct (@s_rows_ok e (seq 0 (sm_K m)) m Hm) as (m1 & E & H1 & H2).
        { intros k Hk. apply in_seq in Hk. lia. }
        rewrite E. cbn [bindr]. exists m1, v. split; [reflexivity|]. split; [auto|]. split; [auto|].
        rewrite H2. destruct v; exact Hv.
      - unfold s_sgd_step. destruct (sm_data m) as [|d0 ds] eqn:Ed; [cbn in Hd; lia|]. rewrite <- Ed in Hd, Hh, Ho. cbn [mb_ok] in Ho.
        match goal with |- context [s_sgd_rows mb lr mom ?p] => set (pv := p) end.
        destruct (@s_sgd_rows_ok mb lr mom pv (seq 0 (sm_K m)) m (fun _ _ => 0)) as (m1 & v1 & E & H1 & H2 & H3); auto.
        + intros Ha k j Hk Hj Hb. unfold pv. destruct fresh; [reflexivity|]. destruct v as [v|]; [|reflexivity]. now apply Hv.
        + intros Ha k j Hk Hj Hb. reflexivity.
        + intros k Hk. apply in_seq in Hk. lia.
        + match goal with |- context [bindr ?x _] => assert (E2 : x = Ok (m1, v1)) by exact E; rewrite E2 end. cbn [bindr fst snd]. exists m1, (Some v1). auto. }
    destruct Hstep as (m1 & v1 & E & H1 & H2 & H3). rewrite E. cbn [bindr].
    assert (Ed : sm_data m1 = sm_data m) by (rewrite H2; reflexivity).
    destruct (IH m1 v1 H1 H3) as (m' & v' & E' & Hm' & Hs & Hv').
    + now rewrite Ed.
    + intros o' Ho'. rewrite Ed. apply Hh. now right.
    + exists m', v'. split; [exact E'|]. split; [auto|]. split; [|auto]. eapply same_trans; eauto.
Qed.
Print Assumptions C51_history_positive.

(** Two models that differ at most in the weights of processes other than k. *)
Definition agree_row (k : nat) (m1 m2 : smodel) : Prop :=
  same_but_w m1 m2 /\ forall j, (j < sm_P m1)%nat -> sm_w m1 k j = sm_w m2 k j.
Definition agree_vel (P k : nat) (v1 v2 : option mat) : Prop :=
  match v1, v2 with
  | None, None => True
  | Some a, Some b => forall j, (j < P)%nat -> a k j = b k j
  | _, _ => False
  end.
Lemma same_P m m' : same_but_w m m' -> sm_P m' = sm_P m. Proof. intros ->. reflexivity. Qed.

Lemma s_gradient_row_ext m1 m2 k ds g1 g2 : agree_row k m1 m2 ->
  s_gradient_row m1 k (sm_w m1 k) ds = Ok g1 -> s_gradient_row m2 k (sm_w m2 k) ds = Ok g2 ->
  forall j, (j < sm_P m1)%nat -> g1 j = g2 j.
Proof.
  intros (Hs & Hw) E1 E2 j Hj.
  assert (Eg : lsum (map (fun d => s_grad_data m1 k (sm_w m1 k) d j) ds) + s_grad_prior (sm_alpha m1) (sm_beta m1) (sm_w m1 k) j
    = lsum (map (fun d => s_grad_data m2 k (sm_w m2 k) d j) ds) + s_grad_prior (sm_alpha m2) (sm_beta m2) (sm_w m2 k) j).
  { replace (sm_alpha m2) with (sm_alpha m1) by (rewrite Hs; reflexivity).
    replace (sm_beta m2) with (sm_beta m1) by (rewrite Hs; reflexivity).
    f_equal.
    - apply lsum_map_ext. intros d _. unfold s_grad_data. replace (sm_dt m2) with (sm_dt m1) by (rewrite Hs; reflexivity).
      rewrite (same_P Hs). apply Rsum_ext; intros t _. now rewrite (@s_rate_ext _ (sm_w m1 k) (sm_w m2 k)).
    - unfold s_grad_prior. destruct j; [reflexivity|]. now rewrite Hw. }
  unfold s_gradient_row in E1, E2. replace (sm_allow m2) with (sm_allow m1) in E2 by (rewrite Hs; reflexivity).
  replace (sm_B m2) with (sm_B m1) in E2 by (rewrite Hs; reflexivity).
  destruct (sm_allow m1).
  - injection E1 as <-. injection E2 as <-. exact Eg.
  - destruct (forall_lt _ _); [|discriminate]. destruct (forall_lt _ _) in E2; [|discriminate].
    injection E1 as <-. injection E2 as <-. cbv beta. destruct (self_block (sm_B m1) k j); [reflexivity|exact Eg].
Qed.

Lemma s_compute_gradient_ext m1 m2 k ix g1 g2 : agree_row k m1 m2 ->
  s_compute_gradient m1 k ix = Ok g1 -> s_compute_gradient m2 k ix = Ok g2 ->
  forall j, (j < sm_P m1)%nat -> g1 j = g2 j.
Proof.
  intros Ha E1 E2.
  assert (Ed : sm_data m2 = sm_data m1) by (destruct Ha as (Hs & _); rewrite Hs; reflexivity).
  assert (Eix : s_data_list m2 (s_indices m2 ix) = s_data_list m1 (s_indices m1 ix)).
  { unfold s_indices. rewrite Ed. generalize (match ix with All => map Z.of_nat (seq 0 (length (sm_data m1))) | One i => [i] | Many l => l end).
    intros l. induction l as [|i l IH]; [reflexivity|]. cbn [s_data_list]. rewrite IH. unfold s_data_at. now rewrite Ed. }
  unfold s_compute_gradient in E1, E2.
  assert (H : exists ds, s_gradient_row m1 k (sm_w m1 k) ds = Ok g1 /\ s_gradient_row m2 k (sm_w m2 k) ds = Ok g2).
  { destruct ix; [|discriminate|]; (apply bindr_ok in E1 as (ds & Ed1 & E1); apply bindr_ok in E2 as (ds2 & Ed2 & E2);
    rewrite Eix, Ed1 in Ed2; injection Ed2 as <-; exists ds;
    destruct (Nat.ltb k (sm_K m1)); [|discriminate]; destruct (Nat.ltb k (sm_K m2)); [|discriminate]; auto). }
  destruct H as (ds & H1 & H2). now apply (@s_gradient_row_ext m1 m2 k ds g1 g2 Ha H1 H2).
Qed.

Lemma set_row_agree m1 m2 k k' (r1 r2 : vec) : agree_row k m1 m2 ->
  (k' = k -> forall j, (j < sm_P m1)%nat -> r1 j = r2 j) ->
  agree_row k (sm_with_w m1 (fun a j => if Nat.eqb a k' then r1 j else sm_w m1 a j))
              (sm_with_w m2 (fun a j => if Nat.eqb a k' then r2 j else sm_w m2 a j)).
Proof.
  intros (Hs & Hw) Hr. split.
  - unfold same_but_w in *. rewrite Hs. reflexivity.
  - intros j Hj. cbn [sm_w sm_with_w]. destruct (Nat.eqb_spec k k'); [apply Hr; auto|apply Hw; auto].
Qed.

Lemma s_rows_agree e k ks : forall m1 m2 m1' m2', agree_row k m1 m2 ->
  s_rows (fun m k => s_gd_row m e k) m1 ks = Ok m1' -> s_rows (fun m k => s_gd_row m e k) m2 ks = Ok m2' -> agree_row k m1' m2'.
Proof.
  induction ks as [|k' ks IH]; intros m1 m2 m1' m2' Ha E1 E2; cbn [s_rows] in *.
  - injection E1 as <-. injection E2 as <-. exact Ha.
  - apply bindr_ok in E1 as (a1 & Ea1 & E1). apply bindr_ok in E2 as (a2 & Ea2 & E2). refine (IH a1 a2 _ _ _ E1 E2).
    unfold s_gd_row in Ea1, Ea2. apply bindr_ok in Ea1 as (g1 & G1 & Ea1). apply bindr_ok in Ea2 as (g2 & G2 & Ea2).
    injection Ea1 as <-. injection Ea2 as <-. apply set_row_agree; [exact Ha|].
    intros -> j Hj. pose proof (@s_compute_gradient_ext m1 m2 k _ g1 g2 Ha G1 G2 j Hj) as Hg. destruct Ha as (_ & Hw). now rewrite Hg, Hw.
Qed.

Lemma s_sgd_rows_agree mb lr mom p1 p2 k ks : forall m1 m2 v1 v2 st1 st2, agree_row k m1 m2 ->
  (forall j, (j < sm_P m1)%nat -> p1 k j = p2 k j) -> (forall j, (j < sm_P m1)%nat -> v1 k j = v2 k j) ->
  s_sgd_rows mb lr mom p1 (m1, v1) ks = Ok st1 -> s_sgd_rows mb lr mom p2 (m2, v2) ks = Ok st2 ->
  agree_row k (fst st1) (fst st2) /\ sm_P (fst st1) = sm_P m1 /\ forall j, (j < sm_P m1)%nat -> snd st1 k j = snd st2 k j.
Proof.
  induction ks as [|k' ks IH]; intros m1 m2 v1 v2 st1 st2 Ha Hp Hv E1 E2; cbn [s_sgd_rows] in *.
  - injection E1 as <-. injection E2 as <-. cbn [fst snd]. auto.
  - apply bindr_ok in E1 as (d1 & D1 & E1). apply bindr_ok in E2 as (d2 & D2 & E2).
    apply bindr_ok in E1 as (g1 & G1 & E1). apply bindr_ok in E2 as (g2 & G2 & E2).
    assert (d2 = d1). { unfold s_data_at in D1, D2. replace (sm_data m2) with (sm_data m1) in D2 by (destruct Ha as (Hs & _); rewrite Hs; reflexivity). congruence. }
    subst d2.
    assert (Hveq : k' = k -> forall j, (j < sm_P m1)%nat ->
      mom * p1 k' j + lr * (g1 j * sm_w m1 k' j / INR (sd_T d1)) = mom * p2 k' j + lr * (g2 j * sm_w m2 k' j / INR (sd_T d1))).
    { intros -> j Hj. pose proof (@s_compute_gradient_ext m1 m2 k _ g1 g2 Ha G1 G2 j Hj) as Hg. destruct Ha as (_ & Hw). now rewrite Hg, Hw, Hp. }
    refine (IH _ _ _ _ _ _ _ _ _ E1 E2).
    + apply set_row_agree; [exact Ha|]. intros E j Hj. cbv beta zeta. rewrite Hveq by auto. destruct Ha as (_ & Hw). subst k'. now rewrite Hw.
    + exact Hp.
    + intros j Hj. cbv beta. destruct (Nat.eqb_spec k k'); [now apply Hveq|now apply Hv].
Qed.

(** The updates of process k's weights, over any history, depend on process k's weights only. *)
Theorem C51_rows_independent :
  forall h k m1 m2 v1 v2 st1 st2, agree_row k m1 m2 -> agree_vel (sm_P m1) k v1 v2 ->
  s_run (m1, v1) h = Ok st1 -> s_run (m2, v2) h = Ok st2 ->
  forall j, (j < sm_P m1)%nat -> sm_w (fst st1) k j = sm_w (fst st2) k j.
Proof.
  induction h as [|o h IH]; intros k m1 m2 v1 v2 st1 st2 Ha Hv E1 E2 j Hj; cbn [s_run] in *.
  - injection E1 as <-. injection E2 as <-. now apply Ha.
  - apply bindr_ok in E1 as ((a1 & b1) & O1 & E1). apply bindr_ok in E2 as ((a2 & b2) & O2 & E2).
    assert (Hstep : agree_row k a1 a2 /\ sm_P a1 = sm_P m1 /\ agree_vel (sm_P m1) k b1 b2).
    { destruct o as [e|fresh lr mom mb]; cbn [s_op fst snd] in *.
      - apply bindr_ok in O1 as (x1 & O1 & Q1). apply bindr_ok in O2 as (x2 & O2 & Q2).
        injection Q1 as <- <-. injection Q2 as <- <-.
        unfold s_gradient_descent_step in O2. replace (sm_K m2) with (sm_K m1) in O2 by (destruct Ha as (Hs & _); rewrite Hs; reflexivity).
        split; [now apply (@s_rows_agree e k _ m1 m2 _ _ Ha O1 O2)|]. split; [|exact Hv].
        clear -O1. unfold s_gradient_descent_step in O1. revert O1. generalize (seq 0 (sm_K m1)). intros l. revert m1.
        induction l as [|k l IH]; intros m1 O1; cbn [s_rows] in O1; [now injection O1 as <-|].
        apply bindr_ok in O1 as (y & Y & O1). rewrite (IH _ O1). unfold s_gd_row in Y. apply bindr_ok in Y as (g & _ & Y). now injection Y as <-.
      - apply bindr_ok in O1 as (x1 & O1 & Q1). apply bindr_ok in O2 as (x2 & O2 & Q2).
        injection Q1 as <- <-. injection Q2 as <- <-. unfold s_sgd_step in O1, O2.
        replace (sm_data m2) with (sm_data m1) in O2 by (destruct Ha as (Hs & _); rewrite Hs; reflexivity).
        replace (sm_K m2) with (sm_K m1) in O2 by (destruct Ha as (Hs & _); rewrite Hs; reflexivity).
        destruct (sm_data m1); [discriminate|].
        refine (@s_sgd_rows_agree mb lr mom _ _ k _ m1 m2 _ _ _ _ Ha _ _ O1 O2).
        + intros i Hi. destruct fresh; [reflexivity|]. destruct v1, v2; cbn [agree_vel] in Hv; try contradiction; [now apply Hv|reflexivity].
        + intros i Hi. reflexivity. }
    destruct Hstep as (H1 & H2 & H3). refine (IH k a1 a2 b1 b2 _ _ H1 _ E1 E2 j _); rewrite H2; auto.
Qed.
Print Assumptions C51_rows_independent.

Example C51_nonvacuous : step_ok ex_smd /\ vel_ok ex_smd None /\ (0 < length (sm_data ex_smd))%nat /\ mb_ok (length (sm_data ex_smd)) (SSgd false (1/2) (9/10) 0) /\
  step_ok (sm_with_w {| sm_K := 2; sm_B := 1; sm_dt := 1; sm_alpha := 2; sm_beta := 1; sm_allow := false; sm_L := 2;
     sm_bas := fun l _ => if Nat.eqb l 1 then 1 else 0; sm_w := fun _ _ => / 10 ^ 3; sm_data := [ex_sd] |} (remove_self 1 (fun _ _ => / 10 ^ 3))) /\
  agree_row 0 ex_smd (sm_with_w ex_smd (fun k _ => if Nat.eqb k 0 then / 10 ^ 3 else 5)).
Proof.
  split; [split; [intros k j _ _; cbn; lra|intros H; discriminate H]|]. split; [exact I|]. split; [cbn; lia|]. split; [cbn; lia|].
  split; [split|].
  - intros k j _ _. cbn [sm_w sm_with_w]. unfold remove_self. destruct (self_block 1 k j); lra.
  - intros _ k j _ _ Hb. cbn [sm_w sm_with_w sm_B] in *. unfold remove_self. now rewrite Hb.
  - split; [reflexivity|]. intros j _. reflexivity.
Qed.
