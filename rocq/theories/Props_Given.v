(** * Props_Given: component objects passed to the constructor, and several models in one program (C132). *)
From Coq Require Import FunctionalExtensionality Permutation.
From Verif Require Import Prelude ExtReal Arrays M_Basis M_Parents M_Discrete M_Gibbs M_Dist M_Network M_Sweep M_Given Spec_Parents Spec_Gibbs Spec_Network L_Sweep Props_Sweep.
Set Implicit Arguments.
Open Scope R_scope.

(** The weights object of model i was built with model i and with its network. *)
Definition own_weights (w : world) (i : nat) : Prop :=
  let mo := w_mod w i in let x := w_wt w (mo_wt mo) in
  wt_owner x = i /\ wt_net x = mo_net mo /\ wt_K x = mo_K mo /\ wt_mix x = mo_mix mo.
(** Models i and j have no component object in common. *)
Definition share_nothing (w : world) (i j : nat) : Prop :=
  mo_bias (w_mod w i) <> mo_bias (w_mod w j) /\ mo_ir (w_mod w i) <> mo_ir (w_mod w j) /\
  mo_wt (w_mod w i) <> mo_wt (w_mod w j) /\ mo_net (w_mod w i) <> mo_net (w_mod w j).
(** The operations of a history that concern model i, as operations on a model of its own. *)
Fixpoint ops_on (i : nat) (h : list wop) : list gop :=
  match h with
  | [] => []
  | WAdd j s f mb :: h' => if Nat.eqb j i then GAdd s f mb :: ops_on i h' else ops_on i h'
  | WSweep j rn d :: h' => if Nat.eqb j i then GSweep rn d :: ops_on i h' else ops_on i h'
  | _ :: h' => ops_on i h'
  end.

(* ---------------- one sweep ---------------- *)
Lemma Nat_upd_ne {A} (f : nat -> A) i j x : j <> i -> upd f i x j = f j.
Proof. intros H. unfold upd. destruct (Nat.eqb_spec j i); congruence. Qed.

Lemma view_parents d i w w' : st_parents d i w = Ok w' ->
  exists data, resample_parents (w_gsl w) (sd_mult d) (params_of (dm_of w i)) 0 (mo_data (w_mod w i)) = Ok data /\
  w' = set_mod w i (mo_with_data (w_mod w i) data).
Proof.
  unfold st_parents. destruct (resample_parents _ _ _ _ _) as [data|e] eqn:E; cbn; [|discriminate].
  intros H. exists data. split; auto. now injection H.
Qed.


Definition with_netobj (st : gibbs) (no : netobj) : gibbs := {| gi_m := gi_m st; gi_net := no; gi_h := gi_h st |}.
Lemma view_st_bias d i w : view (st_bias d i w) i =
  with_model (view w i) (with_lam (dm_of w i) (bias_resample (sd_bias d) (h_alpha (gi_h (view w i))) (h_beta (gi_h (view w i)))
                                                              (mo_data (w_mod w i)))).
Proof. unfold view, dm_of, st_bias, with_model, with_lam. cbn. rewrite upd_eq. reflexivity. Qed.
Lemma view_st_ir d i w : view (st_ir d i w) i =
  with_model (view w i) (with_g (dm_of w i) (ir_resample (sd_ir d) (h_gamma (gi_h (view w i))) (mo_data (w_mod w i)))).
Proof. unfold view, dm_of, st_ir, with_model, with_g. cbn. rewrite upd_eq. reflexivity. Qed.
Lemma view_st_net lgam d i w : view (st_net lgam d i w) i =
  with_netobj (view w i) (net_resample lgam (sd_net d) (sd_er d) (dm_A (dm_of w i)) (dm_W (dm_of w i)) (gi_net (view w i))).
Proof. unfold view, dm_of, st_net, with_netobj. cbn. rewrite upd_eq. reflexivity. Qed.
Lemma view_set_data d i w : view (set_mod w i (mo_with_data (w_mod w i) d)) i = with_model (view w i) (with_data (dm_of w i) d).
Proof. unfold view, dm_of, with_model, with_data. cbn. rewrite !upd_eq. reflexivity. Qed.

Lemma own_st_wt lgam d i w : own_weights w i -> view (st_wt lgam d i w) i =
  with_model (view w i) (if mo_mix (w_mod w i)
    then mix_resample lgam (h_kappa0 (gi_h (view w i))) (h_nu0 (gi_h (view w i))) (sd_W d) (sd_u d) (net_view (gi_net (view w i))) (dm_of w i)
    else ss_resample (h_parallel (gi_h (view w i))) (sd_order d) (sd_W d) (sd_u d) (net_view (gi_net (view w i))) (dm_of w i)).
Proof.
  intros (Ho & Hn & HK & Hm). unfold st_wt. rewrite Hm. destruct (mo_mix (w_mod w i)) eqn:E.
  - unfold mix_step, mix_resample, view, dm_of, with_model, with_W, with_A. cbn. rewrite !upd_eq. cbn. rewrite Hn. reflexivity.
  - unfold ss_step. cbn [set_wt w_wt]. rewrite !upd_eq. cbn [wt_with_W wt_parallel].
    unfold ss_resample. cbn [view gi_h h_parallel gi_net].
    destruct (wt_parallel (w_wt w (mo_wt (w_mod w i)))) eqn:Ep.
    + cbn [set_par w_wt w_par fst snd wt_owner wt_with_W]. cbn. rewrite !upd_eq. cbn. rewrite Ho, Hn.
      unfold view, dm_of, with_model, with_A, with_W. cbn. rewrite !upd_eq. cbn. rewrite Ep.
      f_equal. f_equal. unfold resample_A_parallel. destruct (mo_data (w_mod w i)); reflexivity.
    + cbn. unfold view, dm_of, with_model, with_A, with_W. cbn. rewrite !upd_eq. cbn. rewrite Ep, Hn, HK.
      reflexivity.
Qed.

(** The parts of an object that no operation changes. *)
Definition mo_static (mo : mod_o) : mod_o := mo_with_data mo [].
Definition wt_static (x : wt_o) : wt_o := wt_with_W (wt_with_A x (fun _ _ => true)) (fun _ _ => 0).
Definition ir_static (x : ir_o) : nat * nat * nat * vec := (ir_owner x, ir_K x, ir_B x, ir_gamma x).
Definition static_eq (w w' : world) : Prop :=
  (forall j, mo_static (w_mod w' j) = mo_static (w_mod w j)) /\ (forall a, wt_static (w_wt w' a) = wt_static (w_wt w a)) /\
  (forall a, ir_static (w_ir w' a) = ir_static (w_ir w a)) /\ w_next w' = w_next w /\ w_models w' = w_models w /\ w_gsl w' = w_gsl w.
(** An operation on model j leaves every other model object, and every component that is not j's, as it was. *)
Definition only_touches (j : nat) (w w' : world) : Prop :=
  (forall i, i <> j -> w_mod w' i = w_mod w i) /\ (forall a, a <> mo_bias (w_mod w j) -> w_bias w' a = w_bias w a) /\
  (forall a, a <> mo_ir (w_mod w j) -> w_ir w' a = w_ir w a) /\ (forall a, a <> mo_wt (w_mod w j) -> w_wt w' a = w_wt w a) /\
  (forall a, a <> mo_net (w_mod w j) -> w_net w' a = w_net w a).
Definition on (j : nat) (w w' : world) : Prop := static_eq w w' /\ only_touches j w w'.

Lemma static_refs w w' j : static_eq w w' -> mo_bias (w_mod w' j) = mo_bias (w_mod w j) /\ mo_ir (w_mod w' j) = mo_ir (w_mod w j) /\
  mo_wt (w_mod w' j) = mo_wt (w_mod w j) /\ mo_net (w_mod w' j) = mo_net (w_mod w j) /\ mo_mix (w_mod w' j) = mo_mix (w_mod w j) /\
  mo_K (w_mod w' j) = mo_K (w_mod w j).
Proof.
  intros (H & _). specialize (H j). unfold mo_static, mo_with_data in H. injection H as E1 E2 E3 E4 E5 E6 E7 E8 E9 E10 E11.
  now rewrite E1, E2, E8, E9, E10, E11.
Qed.
Lemma static_own w w' j : static_eq w w' -> own_weights w j -> own_weights w' j.
Proof.
  intros H. destruct (static_refs j H) as (_ & _ & E3 & E4 & E5 & E6). unfold own_weights. rewrite E3, E4, E5, E6.
  destruct H as (_ & H & _). specialize (H (mo_wt (w_mod w j))). unfold wt_static, wt_with_W, wt_with_A in H.
  injection H as F1 F2 F3 F4 _ _ _. now rewrite F1, F2, F3, F4.
Qed.
Lemma on_trans j w1 w2 w3 : on j w1 w2 -> on j w2 w3 -> on j w1 w3.
Proof.
  intros [S1 (A1 & B1 & C1 & D1 & E1)] [S2 (A2 & B2 & C2 & D2 & E2)]. pose proof (static_refs j S1) as (F1 & F2 & F3 & F4 & _).
  rewrite F1 in B2; rewrite F2 in C2; rewrite F3 in D2; rewrite F4 in E2.
  destruct S1 as (a1 & b1 & c1 & d1 & e1 & f1), S2 as (a2 & b2 & c2 & d2 & e2 & f2).
  split; repeat split; intros; try congruence.
  all: first [now rewrite A2, A1 by auto|now rewrite B2, B1 by auto|now rewrite C2, C1 by auto|now rewrite D2, D1 by auto
             |now rewrite E2, E1 by auto].
Qed.
Lemma on_refl j w : on j w w.
Proof. split; repeat split; intros; reflexivity. Qed.

Ltac upd_case := match goal with |- context [upd ?f ?a ?x ?b] => unfold upd; destruct (Nat.eqb_spec b a); subst; auto; try congruence end.
Lemma on_set_data j d w : on j w (set_mod w j (mo_with_data (w_mod w j) d)).
Proof. split; repeat split; intros; cbn; auto; upd_case. Qed.
Lemma on_st_bias d j w : on j w (st_bias d j w).
Proof. unfold st_bias. split; repeat split; intros; cbn; auto; upd_case. Qed.
Lemma on_st_ir d j w : on j w (st_ir d j w).
Proof. unfold st_ir. split; repeat split; intros; cbn; auto; upd_case. Qed.
Lemma on_st_net lgam d j w : on j w (st_net lgam d j w).
Proof. unfold st_net. split; repeat split; intros; cbn; auto; upd_case. Qed.
Lemma on_set_wt j w A W : on j w (set_wt w (mo_wt (w_mod w j)) (wt_with_W (wt_with_A (w_wt w (mo_wt (w_mod w j))) A) W)).
Proof. split; repeat split; intros; cbn; auto; upd_case. Qed.
Lemma on_set_wt_A j w A : on j w (set_wt w (mo_wt (w_mod w j)) (wt_with_A (w_wt w (mo_wt (w_mod w j))) A)).
Proof. split; repeat split; intros; cbn; auto; upd_case. Qed.
Lemma on_set_wt_W j w W : on j w (set_wt w (mo_wt (w_mod w j)) (wt_with_W (w_wt w (mo_wt (w_mod w j))) W)).
Proof. split; repeat split; intros; cbn; auto; upd_case. Qed.
Lemma on_set_par j w x : on j w (set_par w x).
Proof. split; repeat split; intros; reflexivity. Qed.
Lemma on_st_wt lgam d j w : on j w (st_wt lgam d j w).
Proof.
  unfold st_wt. destruct (wt_mix _).
  - apply on_set_wt.
  - unfold ss_step. set (W' := ss_W_resample _ _ _ _).
    eapply on_trans; [apply (on_set_wt_W j w W')|].
    set (w1 := set_wt w (mo_wt (w_mod w j)) (wt_with_W (w_wt w (mo_wt (w_mod w j))) W')).
    change (mo_wt (w_mod w j)) with (mo_wt (w_mod w1 j)).
    destruct (wt_parallel _).
    + set (w2 := set_par w1 _). apply (@on_trans j w1 w2); [apply on_set_par|].
      change (mo_wt (w_mod w1 j)) with (mo_wt (w_mod w2 j)). apply on_set_wt_A.
    + apply on_set_wt_A.
Qed.
Lemma on_w_sweep lgam rn d j w w' : w_sweep lgam rn d j w = Ok w' -> on j w w'.
Proof.
  unfold w_sweep. destruct (st_parents d j w) as [w1|e] eqn:E; cbn [bindr]; [|discriminate].
  apply view_parents in E. destruct E as (data & _ & ->). intros H.
  eapply on_trans; [apply on_set_data|].
  eapply on_trans; [apply on_st_bias|]. eapply on_trans; [apply on_st_ir|].
  set (w2 := st_ir d j (st_bias d j (set_mod w j (mo_with_data (w_mod w j) data)))) in *.
  destruct (mo_mix (w_mod w2 j)); injection H as <-.
  - eapply on_trans; [apply on_st_wt|]. destruct rn; [apply on_st_net|apply on_refl].
  - eapply on_trans; [apply on_st_net|apply on_st_wt].
Qed.

(** Another model that shares no component with j sees nothing of an operation on j. *)
Lemma on_view i j w w' : on j w w' -> i <> j -> share_nothing w i j -> view w' i = view w i.
Proof.
  intros [(_ & _ & _ & _ & _ & Hg) (A & B & C & D & E)] Hij (H1 & H2 & H3 & H4). unfold view, dm_of.
  rewrite A, B, C, D, E, Hg by auto. reflexivity.
Qed.

Lemma own_sweep lgam rn d i w : own_weights w i ->
  match w_sweep lgam rn d i w with
  | Ok w' => sweep lgam rn d (view w i) = Ok (view w' i)
  | Raise e => sweep lgam rn d (view w i) = Raise e
  end.
Proof.
  intros Hown. unfold w_sweep. destruct (st_parents d i w) as [w1|e] eqn:E; cbn [bindr].
  - apply view_parents in E. destruct E as (data & Ep & ->). set (w1 := set_mod w i (mo_with_data (w_mod w i) data)).
    set (w2 := st_bias d i w1). set (w3 := st_ir d i w2).
    assert (S1 : on i w w1) by apply on_set_data.
    assert (S2 : on i w w2) by (eapply on_trans; [exact S1|apply on_st_bias]).
    assert (S3 : on i w w3) by (eapply on_trans; [exact S2|apply on_st_ir]).
    assert (V1 : view w1 i = with_model (view w i) (with_data (dm_of w i) data)) by apply view_set_data.
    assert (V2 := view_st_bias d i w1). fold w2 in V2. assert (V3 := view_st_ir d i w2). fold w3 in V3.
    assert (Hm : dm_mix (gi_m (view w i)) = mo_mix (w_mod w i)) by apply Hown.
    pose proof (static_refs i (proj1 S3)) as (_ & _ & _ & _ & Em & _). 
    assert (D1 : dm_of w1 i = with_data (dm_of w i) data) by (change (gi_m (view w1 i) = gi_m (with_model (view w i) (with_data (dm_of w i) data))); now rewrite V1).
    assert (F1 : mo_data (w_mod w1 i) = data) by (unfold w1; cbn; now rewrite upd_eq).
    assert (F2 : mo_data (w_mod w2 i) = data) by exact F1.
    assert (F3 : mo_data (w_mod w3 i) = data) by exact F1.
    assert (D2 : dm_of w2 i = with_lam (with_data (dm_of w i) data) (bias_resample (sd_bias d) (h_alpha (gi_h (view w i))) (h_beta (gi_h (view w i))) data)).
    { change (dm_of w2 i) with (gi_m (view w2 i)). rewrite V2, V1, D1, F1. reflexivity. }
    assert (D3 : dm_of w3 i = with_g (dm_of w2 i) (ir_resample (sd_ir d) (h_gamma (gi_h (view w i))) data)).
    { change (dm_of w3 i) with (gi_m (view w3 i)). rewrite V3, V2, V1, F2. reflexivity. }
    assert (N3 : gi_net (view w3 i) = gi_net (view w i)) by (rewrite V3, V2, V1; reflexivity).
    assert (H3 : gi_h (view w3 i) = gi_h (view w i)) by (rewrite V3, V2, V1; reflexivity).
    unfold sweep. rewrite Hm, Em. destruct (mo_mix (w_mod w i)) eqn:Emix.
    + unfold mix_sweep. change (h_gsl (gi_h (view w i))) with (w_gsl w). change (dm_data (gi_m (view w i))) with (mo_data (w_mod w i)).
      change (gi_m (view w i)) with (dm_of w i). rewrite Ep. cbn [bindr].
      assert (V4 := @own_st_wt lgam d i w3 (static_own (proj1 S3) Hown)). rewrite Em, H3, N3 in V4. cbv iota in V4.
      set (w4 := st_wt lgam d i w3) in *.
      assert (D4 : dm_of w4 i = gi_m (view w4 i)) by reflexivity. rewrite V4 in D4. cbn [with_model gi_m] in D4.
      assert (N4 : gi_net (view w4 i) = gi_net (view w i)) by (rewrite V4; exact N3).
      assert (H4 : gi_h (view w4 i) = gi_h (view w i)) by (rewrite V4; exact H3).
      rewrite D2 in D3. rewrite D3 in D4. f_equal.
      destruct rn.
      * rewrite view_st_net, D4. unfold with_netobj. rewrite N4, H4. change (gi_m (view w4 i)) with (dm_of w4 i). now rewrite D4.
      * rewrite <- D4. rewrite <- N4. rewrite <- H4. reflexivity.
    + unfold ss_sweep. change (h_gsl (gi_h (view w i))) with (w_gsl w). change (dm_data (gi_m (view w i))) with (mo_data (w_mod w i)).
      change (gi_m (view w i)) with (dm_of w i). rewrite Ep. cbn [bindr].
      assert (V4 := view_st_net lgam d i w3). set (w4 := st_net lgam d i w3) in *.
      assert (S4 : on i w w4) by (eapply on_trans; [exact S3|apply on_st_net]).
      pose proof (static_refs i (proj1 S4)) as (_ & _ & _ & _ & Em4 & _).
      rewrite (@own_st_wt lgam d i w4 (static_own (proj1 S4) Hown)), Em4, Emix. cbv iota.
      assert (D4 : dm_of w4 i = dm_of w3 i) by (change (gi_m (view w4 i) = gi_m (view w3 i)); now rewrite V4).
      assert (H4 : gi_h (view w4 i) = gi_h (view w i)) by (rewrite V4; exact H3).
      rewrite D4, D3, D2, H4. unfold with_model. rewrite V4. cbn [with_netobj gi_net gi_h].
      rewrite D3, D2, N3, H3. reflexivity.
  - unfold st_parents in E. destruct (resample_parents _ _ _ _ _) as [data|e'] eqn:E'; cbn [bindr] in E; [discriminate|].
    injection E as <-. unfold sweep, ss_sweep, mix_sweep. change (h_gsl (gi_h (view w i))) with (w_gsl w).
    change (dm_data (gi_m (view w i))) with (mo_data (w_mod w i)). change (gi_m (view w i)) with (dm_of w i). rewrite E'.
    now destruct (dm_mix _).
Qed.

(* ---------------- building a model ---------------- *)
Definition keeps (w w' : world) : Prop :=
  (forall a, (a < w_next w)%nat -> w_bias w' a = w_bias w a /\ w_ir w' a = w_ir w a /\ w_wt w' a = w_wt w a /\
                                   w_net w' a = w_net w a /\ w_mod w' a = w_mod w a).
Lemma ss_step_wt d a i data w : exists A W par,
  ss_step d a i data w = set_wt (set_par w par) a (wt_with_W (wt_with_A (w_wt w a) A) W).
Proof.
  unfold ss_step. set (W := ss_W_resample _ _ _ _).
  destruct (wt_parallel _).
  - cbn. rewrite !upd_eq. eexists _, W, _. unfold set_wt, set_par. cbn. f_equal. apply functional_extensionality. intros x.
    unfold upd. destruct (Nat.eqb x a); reflexivity.
  - cbn. rewrite !upd_eq. eexists _, W, (w_par w). unfold set_wt, set_par. cbn. f_equal. apply functional_extensionality. intros x.
    unfold upd. destruct (Nat.eqb x a); reflexivity.
Qed.

Definition fresh_wt (c : ctor) (i aN : nat) : wt_o :=
  {| wt_owner := i; wt_net := aN; wt_K := c_K c; wt_mix := c_mix c; wt_kappa0 := h_kappa0 (c_h c); wt_nu0 := h_nu0 (c_h c);
     wt_parallel := h_parallel (c_h c); wt_A := fun _ _ => true; wt_W := fun _ _ => 0 |}.
Lemma new_wt lgam c i aW w : exists A W par,
  (if c_mix c then mix_step lgam (c_draws c) aW [] w else ss_step (c_draws c) aW i [] w) =
  set_wt (set_par w par) aW (wt_with_W (wt_with_A (w_wt w aW) A) W).
Proof.
  destruct (c_mix c).
  - unfold mix_step. eexists _, _, (w_par w). destruct w. reflexivity.
  - apply ss_step_wt.
Qed.


(** [nothing below n changes] *)
Definition keeps_below (n : nat) (w w' : world) : Prop :=
  (forall a, (a < n)%nat -> w_bias w' a = w_bias w a /\ w_ir w' a = w_ir w a /\ w_wt w' a = w_wt w a /\
                            w_net w' a = w_net w a /\ w_mod w' a = w_mod w a) /\
  w_models w' = w_models w /\ w_next w' = w_next w /\ w_gsl w' = w_gsl w.
Lemma keeps_trans n w1 w2 w3 : keeps_below n w1 w2 -> keeps_below n w2 w3 -> keeps_below n w1 w3.
Proof.
  intros (H1 & a1 & b1 & c1) (H2 & a2 & b2 & c2). repeat split; try congruence; intros;
  destruct (H1 _ H) as (? & ? & ? & ? & ?), (H2 _ H) as (? & ? & ? & ? & ?); congruence.
Qed.
Ltac kb := repeat split; intros; cbn; rewrite ?Nat_upd_ne by lia; auto.
Lemma n_bias_kb c i w : keeps_below i w (n_bias c i w).
Proof. unfold n_bias. destruct (c_bkgd c); kb. Qed.
Lemma n_bias_same c i w : w_ir (n_bias c i w) = w_ir w /\ w_wt (n_bias c i w) = w_wt w /\ w_net (n_bias c i w) = w_net w /\
  w_mod (n_bias c i w) = w_mod w.
Proof. unfold n_bias. destruct (c_bkgd c); auto. Qed.
Lemma n_ir_ok c i w w' : n_ir c i w = Ok w' -> keeps_below i w w' /\ w_bias w' = w_bias w /\ w_wt w' = w_wt w /\ w_net w' = w_net w /\
  w_mod w' = w_mod w.
Proof.
  unfold n_ir. destruct (c_ir c).
  - unfold guard. destruct (Nat.eqb _ _); cbn [bindr]; [|discriminate]. destruct (Nat.eqb _ _); cbn [bindr]; [|discriminate].
    intros H. injection H as <-. repeat split; auto.
  - intros H. injection H as <-. split; [kb|auto].
Qed.
Lemma n_net_ok c i w w' : n_net c i w = Ok w' -> keeps_below i w w' /\ w_bias w' = w_bias w /\ w_wt w' = w_wt w /\ w_ir w' = w_ir w /\
  w_mod w' = w_mod w.
Proof.
  unfold n_net. destruct (c_net c).
  - unfold guard. destruct (Nat.eqb _ _); cbn [bindr]; [|discriminate]. intros H. injection H as <-. repeat split; auto.
  - intros H. injection H as <-. split; [kb|auto].
Qed.
Lemma n_wt_ok lgam c i aN w w' : n_wt lgam c i aN w = Ok w' -> keeps_below i w w' /\ w_bias w' = w_bias w /\ w_ir w' = w_ir w /\
  w_net w' = w_net w /\ w_mod w' = w_mod w /\ (c_wt c = None -> wt_static (w_wt w' (3 + i)) = fresh_wt c i aN).
Proof.
  unfold n_wt. destruct (c_wt c).
  - unfold guard. destruct (Nat.eqb _ _); cbn [bindr]; [|discriminate]. intros H. injection H as <-. repeat split; auto; discriminate.
  - destruct (new_wt lgam c i (3 + i) (set_wt w (3 + i) (fresh_wt c i aN))) as (A & W & par & E). unfold fresh_wt in E. rewrite E.
    intros H. injection H as <-. split; [kb|]. repeat split; auto. intros _. cbn. rewrite !upd_eq. reflexivity.
Qed.

Lemma w_new_ok lgam c w w' : w_new lgam c w = Ok w' ->
  keeps w w' /\ w_models w' = w_models w ++ [w_next w] /\ w_next w' = (5 + w_next w)%nat /\ w_gsl w' = w_gsl w /\
  w_mod w' (w_next w) = built c (w_next w) /\
  (c_wt c = None -> wt_static (w_wt w' (3 + w_next w)) = fresh_wt c (w_next w) (given (c_net c) (4 + w_next w))) /\
  (c_ir c = None -> ir_static (w_ir w' (2 + w_next w)) = (w_next w, c_K c, c_B c, h_gamma (c_h c))).
Proof.
  unfold w_new. set (i := w_next w). intros H.
  destruct (n_ir c i (n_bias c i w)) as [w1|] eqn:E1; cbn [bindr] in H; [|discriminate].
  destruct (n_net c i w1) as [w2|] eqn:E2; cbn [bindr] in H; [|discriminate].
  unfold guard in H. destruct (negb _) eqn:Eg; cbn [bindr] in H; [|discriminate].
  destruct (n_wt lgam c i (given (c_net c) (4 + i)) (set_mod w2 i (built c i))) as [w3|] eqn:E3; cbn [bindr] in H; [|discriminate].
  injection H as <-.
  assert (Hir : c_ir c = None -> ir_static (w_ir w1 (2 + i)) = (i, c_K c, c_B c, h_gamma (c_h c))).
  { intros Hc. unfold n_ir in E1. rewrite Hc in E1. injection E1 as <-. cbn. rewrite upd_eq. reflexivity. }
  destruct (n_bias_same c i w) as (_ & _ & _ & M0).
  apply n_ir_ok in E1. destruct E1 as (K1 & B1 & T1 & N1 & M1). apply n_net_ok in E2. destruct E2 as (K2 & B2 & T2 & I2 & M2).
  apply n_wt_ok in E3. destruct E3 as (K3 & B3 & I3 & N3 & M3 & S3).
  assert (Km : keeps_below i w2 (set_mod w2 i (built c i))) by kb.
  pose proof (keeps_trans (keeps_trans (n_bias_kb c i w) K1) (keeps_trans K2 (keeps_trans Km K3))) as (Ha & Hm & Hn & Hg).
  split; [exact Ha|]. cbn. rewrite Hm. repeat split; auto.
  - rewrite M3. cbn. apply upd_eq.
  - intros Hc. cbn. rewrite I3. cbn. rewrite I2. auto.
Qed.

(* ---------------- histories ---------------- *)
Definition no_weights (o : wop) : Prop := match o with WNew c => c_wt c = None | _ => True end.
Definition nothing_passed (o : wop) : Prop :=
  match o with WNew c => c_bkgd c = None /\ c_ir c = None /\ c_wt c = None /\ c_net c = None | _ => True end.
(** The constructor calls of a history do not receive the components of the model with these components. *)
Definition not_given (mo : mod_o) (o : wop) : Prop :=
  match o with
  | WNew c => c_bkgd c <> Some (mo_bias mo) /\ c_ir c <> Some (mo_ir mo) /\ c_wt c <> Some (mo_wt mo) /\ c_net c <> Some (mo_net mo)
  | _ => True
  end.
Definition refs_below (n : nat) (mo : mod_o) : Prop :=
  (mo_bias mo < n /\ mo_ir mo < n /\ mo_wt mo < n /\ mo_net mo < n)%nat.
Definition well_formed (w : world) : Prop :=
  forall j, In j (w_models w) -> (j < w_next w)%nat /\ refs_below (w_next w) (w_mod w j) /\ own_weights w j.

Lemma is_model_iff i w : is_model i w = true <-> In i (w_models w).
Proof.
  unfold is_model. rewrite existsb_exists. split.
  - intros (x & Hx & E). apply Nat.eqb_eq in E. now subst.
  - intros H. exists i. split; auto. apply Nat.eqb_refl.
Qed.

Lemma fold_keeps (ff : dmodel -> nat -> dmodel) m0 : (forall m' x, exists p, ff m' x = append_data m' p) ->
  forall l m', with_data m0 (dm_data m') = m' -> with_data m0 (dm_data (fold_left ff l m')) = fold_left ff l m'.
Proof.
  intros Hf. induction l as [|x l IH]; intros m' Hm'; cbn [fold_left]; auto. apply IH.
  destruct (Hf m' x) as [p ->]. rewrite <- Hm' at 2. reflexivity.
Qed.
Lemma add_keeps m s f mb : with_data m (dm_data (snd (add_data_st m s f mb))) = snd (add_data_st m s f mb).
Proof.
  assert (E : with_data m (dm_data m) = m) by (destruct m; reflexivity).
  unfold add_data_st. destruct (check_S (dm_K m) s) as [T|e]; [|exact E]. destruct (get_F m T s f) as [F|e]; [|exact E].
  destruct mb as [nb|]; [|reflexivity]. destruct (Z.eqb nb 0); [exact E|]. destruct (Z.ltb nb 0); [exact E|].
  cbv beta iota delta [snd]. apply fold_keeps; [|exact E]. intros. eexists. reflexivity.
Qed.

Lemma wstep_on lgam o w : (exists i, (match o with WAdd j _ _ _ => j = i | WSweep j _ _ => j = i | _ => False end)) ->
  exists i, In i (w_models w) /\ (match o with WAdd j _ _ _ => j = i | WSweep j _ _ => j = i | _ => False end) /\ on i w (wstep lgam o w) \/
            wstep lgam o w = w.
Proof.
  intros [i Hi]. exists i. destruct o; try contradiction; subst; cbn [wstep].
  - destruct (is_model i w) eqn:E; [left|now right]. apply is_model_iff in E. repeat split; auto; apply on_set_data.
  - destruct (is_model i w) eqn:E; [|now right]. apply is_model_iff in E. destruct (w_sweep lgam rn d i w) eqn:Es; [|now right].
    left. split; [auto|split; [auto|]]. eapply on_w_sweep; eauto.
Qed.

Lemma on_wf i w w' : on i w w' -> well_formed w -> well_formed w'.
Proof.
  intros [Hs _] Hw j Hj. pose proof (static_refs j Hs) as (R1 & R2 & R3 & R4 & _). pose proof Hs as (_ & _ & _ & Hn & Hm & _).
  rewrite Hm in Hj. destruct (Hw j Hj) as (H1 & H2 & H3). rewrite Hn. split; [auto|split].
  - unfold refs_below in *. now rewrite R1, R2, R3, R4.
  - eapply static_own; eauto.
Qed.

Lemma arg_below o n w : arg_exists o w = true -> (w_next w <= n)%nat -> (given o n < S n)%nat.
Proof. destruct o; cbn; intros H Hn; [apply Nat.ltb_lt in H; lia|lia]. Qed.

Lemma keeps_own w w' j : keeps w w' -> (j < w_next w)%nat -> refs_below (w_next w) (w_mod w j) -> own_weights w j ->
  own_weights w' j /\ w_mod w' j = w_mod w j /\ (w_gsl w' = w_gsl w -> view w' j = view w j).
Proof.
  intros Hk Hj (Rb & Ri & Rw & Rn) Ho. destruct (Hk j Hj) as (_ & _ & _ & _ & Hm).
  destruct (Hk _ Rb) as (E1 & _). destruct (Hk _ Ri) as (_ & E2 & _). destruct (Hk _ Rw) as (_ & _ & E3 & _).
  destruct (Hk _ Rn) as (_ & _ & _ & E4 & _). unfold own_weights, view, dm_of. rewrite Hm, E1, E2, E3, E4.
  split; [exact Ho|split; auto]. intros ->. reflexivity.
Qed.

Lemma new_wf lgam c w w' : w_new lgam c w = Ok w' -> args_exist c w = true -> c_wt c = None -> well_formed w -> well_formed w'.
Proof.
  intros H He Hc Hw. apply w_new_ok in H. destruct H as (Hk & Hm & Hn & Hg & Hb & Hwt & _). specialize (Hwt Hc).
  unfold args_exist in He. rewrite !andb_true_iff in He. destruct He as [[[He1 He2] He3] He4].
  intros j Hj. rewrite Hm, in_app_iff in Hj. rewrite Hn. destruct Hj as [Hj|[<-|[]]].
  - destruct (Hw j Hj) as (H1 & H2 & H3). destruct (keeps_own Hk H1 H2 H3) as (H3' & Hm' & _). split; [lia|split; auto].
    rewrite Hm'. unfold refs_below in *. lia.
  - split; [lia|]. unfold own_weights. rewrite Hb. unfold built. cbn [mo_wt mo_net mo_K mo_mix]. rewrite Hc. cbn [given]. split.
    + unfold refs_below. cbn [mo_bias mo_ir mo_wt mo_net given].
      pose proof (@arg_below (c_bkgd c) (1 + w_next w) w He1). pose proof (@arg_below (c_ir c) (2 + w_next w) w He2).
      pose proof (@arg_below (c_net c) (4 + w_next w) w He4). lia.
    + unfold wt_static, fresh_wt, wt_with_W, wt_with_A in Hwt. injection Hwt as W1 W2 W3 W4 _ _ _. auto.
Qed.

Lemma net_wf no w : well_formed w -> well_formed (set_next (set_net w (w_next w) no) (1 + w_next w)).
Proof.
  intros Hw j Hj. cbn in Hj. destruct (Hw j Hj) as (H1 & H2 & H3). cbn [set_next set_net w_next w_mod]. split; [lia|split; auto].
  unfold refs_below in *. cbn [set_next set_net w_mod]. lia.
Qed.

Lemma wstep_wf lgam o w : no_weights o -> well_formed w -> well_formed (wstep lgam o w).
Proof.
  intros Ho Hw. destruct o.
  - cbn [wstep]. destruct (args_exist c w) eqn:E; auto. destruct (w_new lgam c w) eqn:E'; auto. eapply new_wf; eauto.
  - apply net_wf; auto.
  - destruct (@wstep_on lgam (WAdd i s f mb) w (ex_intro _ i eq_refl)) as (j & [(Hj & <- & Hon)|E]); [|rewrite E; auto].
    eapply on_wf; eauto.
  - destruct (@wstep_on lgam (WSweep i rn d) w (ex_intro _ i eq_refl)) as (j & [(Hj & <- & Hon)|E]); [|rewrite E; auto].
    eapply on_wf; eauto.
Qed.
Lemma wrun_wf lgam h : forall w, Forall no_weights h -> well_formed w -> well_formed (wrun lgam h w).
Proof. induction h; intros w Hh Hw; cbn; auto. inversion Hh; subst. apply IHh; auto. apply wstep_wf; auto. Qed.
Lemma start_wf w : w_models w = [] -> well_formed w.
Proof. intros E j Hj. rewrite E in Hj. destruct Hj. Qed.

Lemma wstep_gop_self lgam w i : In i (w_models w) -> own_weights w i ->
  (forall s f mb, view (wstep lgam (WAdd i s f mb) w) i = snd (gstep lgam (GAdd s f mb) (view w i))) /\
  (forall rn d, view (wstep lgam (WSweep i rn d) w) i = snd (gstep lgam (GSweep rn d) (view w i))).
Proof.
  intros Hi Ho. apply is_model_iff in Hi. split; intros; cbn [wstep gstep]; rewrite Hi.
  - rewrite view_set_data. change (gi_m (view w i)) with (dm_of w i). rewrite add_keeps. destruct (add_data_st (dm_of w i) s f mb). reflexivity.
  - pose proof (@own_sweep lgam rn d i w Ho). destruct (w_sweep lgam rn d i w); rewrite H; reflexivity.
Qed.

(** Sweeps of any model of a program that never passes a weights object are the ordinary sweeps (the ones all other theorems are
    about) of what that model shows, whatever other components were passed and whoever else uses them. *)
Theorem C132_sweeps_are_ordinary_partial : forall lgam w0 h i, w_models w0 = [] -> Forall no_weights h ->
  In i (w_models (wrun lgam h w0)) ->
  let w := wrun lgam h w0 in
  (forall s f mb, view (wstep lgam (WAdd i s f mb) w) i = snd (gstep lgam (GAdd s f mb) (view w i))) /\
  (forall rn d, view (wstep lgam (WSweep i rn d) w) i = snd (gstep lgam (GSweep rn d) (view w i))).
Proof.
  intros lgam w0 h i H0 Hh Hi w. apply wstep_gop_self; auto.
  apply (@wrun_wf lgam h w0 Hh (@start_wf w0 H0)); auto.
Qed.

Definition apart (w : world) (i : nat) : Prop := forall j, In j (w_models w) -> j <> i -> share_nothing w i j.
Lemma run_alone lgam h : forall w i, well_formed w -> In i (w_models w) -> apart w i -> Forall no_weights h ->
  Forall (not_given (w_mod w i)) h ->
  view (wrun lgam h w) i = grun lgam (ops_on i h) (view w i).
Proof.
  induction h as [|o h IH]; intros w i Hw Hi Ha Hn Hg; [reflexivity|].
  inversion Hn as [|? ? Hn1 Hn2]; subst. inversion Hg as [|? ? Hg1 Hg2]; subst. cbn [wrun].
  assert (Hw' := @wstep_wf lgam o w Hn1 Hw). destruct (Hw i Hi) as (Hil & Hir & Hio).
  (* what one step does *)
  assert (Step : In i (w_models (wstep lgam o w)) /\ apart (wstep lgam o w) i /\
          (not_given (w_mod (wstep lgam o w) i) = not_given (w_mod w i)) /\
          view (wstep lgam o w) i = grun lgam (ops_on i [o]) (view w i)).
  { assert (Q : forall j w', on j w w' -> In j (w_models w) ->
        In i (w_models w') /\ apart w' i /\ not_given (w_mod w' i) = not_given (w_mod w i) /\ (j <> i -> view w' i = view w i)).
    { intros j w' Hon Hj. pose proof Hon as [Hs _]. pose proof (static_refs i Hs) as (R1 & R2 & R3 & R4 & _).
      destruct Hs as (_ & _ & _ & _ & Hm & _). split; [rewrite Hm; auto|]. split; [|split].
      - intros k Hk Hki. rewrite Hm in Hk. pose proof (static_refs k (proj1 Hon)) as (Q1 & Q2 & Q3 & Q4 & _).
        unfold share_nothing. rewrite R1, R2, R3, R4, Q1, Q2, Q3, Q4. apply Ha; auto.
      - unfold not_given. apply functional_extensionality. intros [c| | |]; auto. now rewrite R1, R2, R3, R4.
      - intros Hji. eapply on_view; eauto. }
    destruct o as [c|no|j s f mb|j rn d].
    - cbn [wstep ops_on grun]. destruct (args_exist c w) eqn:Eargs; [|auto].
      destruct (w_new lgam c w) as [w'|] eqn:Ew; [|auto].
      pose proof Ew as Ew2. apply w_new_ok in Ew2. destruct Ew2 as (Hk & Hm & Hnx & Hgs & Hb & Hwt & _).
      destruct (keeps_own Hk Hil Hir Hio) as (_ & Hmi & Hv). rewrite Hm, Hmi. split; [apply in_or_app; auto|]. split; [|split; auto].
      intros j Hj Hji. rewrite Hm, in_app_iff in Hj. unfold share_nothing. rewrite Hmi. destruct Hj as [Hj|[<-|[]]].
      + destruct (Hw j Hj) as (Hjl & _). destruct (Hk j Hjl) as (_ & _ & _ & _ & ->). apply Ha; auto.
      + rewrite Hb. unfold built. cbn [mo_bias mo_ir mo_wt mo_net]. destruct Hg1 as (G1 & G2 & G3 & G4). destruct Hir as (L1 & L2 & L3 & L4).
        repeat split; intros E; [destruct (c_bkgd c) eqn:Ec|destruct (c_ir c) eqn:Ec|destruct (c_wt c) eqn:Ec|destruct (c_net c) eqn:Ec];
        cbn [given] in E; try congruence; lia.
    - cbn [wstep ops_on grun]. split; [exact Hi|]. split; [exact Ha|]. split; [reflexivity|].
      unfold view, dm_of. cbn. rewrite Nat_upd_ne; auto. destruct Hir. lia.
    - cbn [ops_on]. destruct (Nat.eqb_spec j i) as [->|Hji].
      + destruct (@wstep_gop_self lgam w i Hi Hio) as [Hself _].
        destruct (Q i (wstep lgam (WAdd i s f mb) w)) as (q1 & q2 & q3 & _); auto.
        { cbn [wstep]. rewrite (proj2 (is_model_iff i w) Hi). apply on_set_data. }
        split; [auto|split; [auto|split; [auto|]]]. cbn [grun]. apply Hself.
      + destruct (@wstep_on lgam (WAdd j s f mb) w (ex_intro _ j eq_refl)) as (j' & [(Hj & <- & Hon)|E]).
        * destruct (Q j _ Hon Hj) as (q1 & q2 & q3 & q4). cbn [grun]. auto.
        * rewrite E. auto.
    - cbn [ops_on]. destruct (Nat.eqb_spec j i) as [->|Hji].
      + destruct (@wstep_gop_self lgam w i Hi Hio) as [_ Hself].
        assert (Hon : on i w (wstep lgam (WSweep i rn d) w)).
        { cbn [wstep]. rewrite (proj2 (is_model_iff i w) Hi). destruct (w_sweep lgam rn d i w) eqn:Es; [eapply on_w_sweep; eauto|apply on_refl]. }
        destruct (Q i _ Hon Hi) as (q1 & q2 & q3 & _). 
        split; [auto|split; [auto|split; [auto|]]]. cbn [grun]. apply Hself.
      + destruct (@wstep_on lgam (WSweep j rn d) w (ex_intro _ j eq_refl)) as (j' & [(Hj & <- & Hon)|E]).
        * destruct (Q j _ Hon Hj) as (q1 & q2 & q3 & q4). cbn [grun]. auto.
        * rewrite E. auto. }
  destruct Step as (S1 & S2 & S3 & S4).
  rewrite IH; auto; [|rewrite S3; auto].
  rewrite S4. destruct o as [c|no|j s f mb|j rn d]; cbn [ops_on]; try reflexivity; destruct (Nat.eqb j i); reflexivity.
Qed.

(** Whatever a program does with its other models in between, a model none of whose components is shared behaves exactly as a
    model used alone. *)
Theorem C132_unshared_models_are_independent : forall lgam w0 h1 h2 i, w_models w0 = [] -> Forall no_weights (h1 ++ h2) ->
  let w := wrun lgam h1 w0 in
  In i (w_models w) -> (forall j, In j (w_models w) -> j <> i -> share_nothing w i j) ->
  Forall (not_given (w_mod w i)) h2 ->
  view (wrun lgam h2 w) i = grun lgam (ops_on i h2) (view w i).
Proof.
  intros lgam w0 h1 h2 i H0 Hn w Hi Ha Hg. apply Forall_app in Hn. destruct Hn as [Hn1 Hn2].
  apply run_alone; auto. apply wrun_wf; auto. now apply start_wf.
Qed.

(* ---------------- programs that never share ---------------- *)
Lemma new_view lgam c w w' : w_new lgam c w = Ok w' -> nothing_passed (WNew c) -> h_gsl (c_h c) = w_gsl w ->
  view w' (w_next w) = construct lgam (c_mix c) (c_K c) (c_B c) (c_dt c) (c_L c) (c_bas c) (c_h c) (c_newnet c) (c_draws c).
Proof.
  intros H (EB & EI & EW & EN) Hg. unfold w_new, n_bias, n_ir, n_net, n_wt in H. rewrite EB, EI, EW, EN in H. cbn [bindr] in H.
  unfold guard in H. destruct (negb _); cbn [bindr] in H; [|discriminate]. injection H as <-.
  set (i := w_next w). cbn [given].
  match goal with |- view (add_model (set_next (if _ then mix_step _ _ _ _ ?u else _) _) _) _ = _ => set (w1 := u) end.
  assert (Hmod : w_mod w1 i = built c i) by (unfold w1; cbn; apply upd_eq).
  assert (Hwt : w_wt w1 (mo_wt (w_mod w1 i)) = fresh_wt c i (4 + i)).
  { rewrite Hmod. unfold built. cbn [mo_wt]. rewrite EW. cbn [given]. unfold w1. cbn. rewrite upd_eq. reflexivity. }
  assert (Hown : own_weights w1 i).
  { unfold own_weights. cbv zeta. rewrite Hwt, Hmod. unfold built, fresh_wt. cbn. rewrite EN. cbn. auto. }
  transitivity (view (st_wt lgam (c_draws c) i w1) i).
  { unfold st_wt. rewrite Hwt, Hmod. unfold built, fresh_wt. cbn [wt_mix mo_wt mo_data]. rewrite EW. cbn [given]. reflexivity. }
  rewrite (own_st_wt lgam (c_draws c) Hown), Hmod.
  assert (Hdm : dm_of w1 i = {| dm_K := c_K c; dm_B := c_B c; dm_dt := c_dt c; dm_L := c_L c; dm_L_int := true; dm_bas := c_bas c;
              dm_mix := c_mix c; dm_A := fun _ _ => true; dm_W := fun _ _ => 0;
              dm_g := ir_resample (sd_ir (c_draws c)) (h_gamma (c_h c)) [];
              dm_lam := bias_resample (sd_bias (c_draws c)) (h_alpha (c_h c)) (h_beta (c_h c)) []; dm_data := [] |}).
  { unfold dm_of. cbv zeta. rewrite Hwt, Hmod. unfold built, fresh_wt. cbn. rewrite EB, EI. cbn [given]. rewrite !upd_eq. reflexivity. }
  assert (Hnet : gi_net (view w1 i) = c_newnet c).
  { unfold view. cbn [gi_net]. rewrite Hmod. unfold built. cbn [mo_net]. rewrite EN. cbn [given]. unfold w1. cbn. now rewrite upd_eq. }
  assert (Hh : gi_h (view w1 i) = c_h c).
  { unfold view. cbn [gi_h]. rewrite Hwt, Hmod. unfold built, fresh_wt. cbn. rewrite EB, EI. cbn [given]. rewrite !upd_eq. cbn.
    change (w_gsl w1) with (w_gsl w). rewrite <- Hg. destruct (c_h c). reflexivity. }
  rewrite Hdm, Hnet, Hh. unfold with_model, construct. rewrite Hnet, Hh. cbn [mo_mix built]. reflexivity.
Qed.

Lemma nothing_no_weights o : nothing_passed o -> no_weights o.
Proof. destruct o; cbn; tauto. Qed.
Lemma wrun_app lgam h1 : forall h2 w, wrun lgam (h1 ++ h2) w = wrun lgam h2 (wrun lgam h1 w).
Proof. induction h1; intros; cbn; auto. Qed.
Lemma wstep_gsl lgam o w : w_gsl (wstep lgam o w) = w_gsl w.
Proof.
  destruct o; cbn [wstep]; auto.
  - destruct (args_exist c w); auto. destruct (w_new lgam c w) eqn:E; auto. apply w_new_ok in E. tauto.
  - destruct (is_model i w); auto.
  - destruct (is_model i w); auto. destruct (w_sweep lgam rn d i w) eqn:E; auto. apply on_w_sweep in E. apply E.
Qed.
Lemma wrun_gsl lgam h : forall w, w_gsl (wrun lgam h w) = w_gsl w.
Proof. induction h; intros; cbn; auto. rewrite IHh. apply wstep_gsl. Qed.

(** However many models a program builds and in whatever order it uses them: as long as it passes no component object to a
    constructor, every model behaves exactly as if it were the only one. *)
Theorem C132_each_model_as_if_alone : forall lgam w0 h1 c h2, w_models w0 = [] -> h_gsl (c_h c) = w_gsl w0 ->
  Forall nothing_passed (h1 ++ WNew c :: h2) -> c_inst c && net_allow (c_newnet c) = false ->
  let i := w_next (wrun lgam h1 w0) in
  view (wrun lgam (h1 ++ WNew c :: h2) w0) i =
  grun lgam (ops_on i h2) (construct lgam (c_mix c) (c_K c) (c_B c) (c_dt c) (c_L c) (c_bas c) (c_h c) (c_newnet c) (c_draws c)).
Proof.
  intros lgam w0 h1 c h2 H0 Hgsl Hf Hinst i. rewrite wrun_app. cbn [wrun]. set (w1 := wrun lgam h1 w0) in *.
  apply Forall_app in Hf. destruct Hf as [Hf1 Hf2]. inversion Hf2 as [|? ? Hc Hf3]; subst.
  assert (W1 : well_formed w1) by (apply wrun_wf; [eapply Forall_impl; [apply nothing_no_weights|auto]|now apply start_wf]).
  assert (Hnew : exists w', w_new lgam c w1 = Ok w').
  { destruct Hc as (EB & EI & EW & EN). unfold w_new, n_bias, n_ir, n_net, n_wt. rewrite EB, EI, EW, EN. cbn [bindr given].
    cbn [set_net w_net]. rewrite upd_eq, Hinst. cbn. eauto. }
  destruct Hnew as [w' Hnew].
  assert (Hargs : args_exist c w1 = true) by (destruct Hc as (EB & EI & EW & EN); unfold args_exist; now rewrite EB, EI, EW, EN).
  assert (Estep : wstep lgam (WNew c) w1 = w') by (cbn [wstep]; now rewrite Hargs, Hnew).
  rewrite Estep. rewrite run_alone.
  - f_equal. apply new_view; auto. unfold w1. rewrite wrun_gsl. auto.
  - rewrite <- Estep. apply wstep_wf; auto. now apply nothing_no_weights.
  - apply w_new_ok in Hnew. destruct Hnew as (_ & -> & _). apply in_or_app. right. now left.
  - pose proof Hnew as Hnew2. apply w_new_ok in Hnew2. destruct Hnew2 as (Hk & Hm & _ & _ & Hb & _).
    intros j Hj Hji. rewrite Hm, in_app_iff in Hj. destruct Hj as [Hj|[Hj|[]]]; [|now subst j].
    destruct (W1 j Hj) as (Hjl & (R1 & R2 & R3 & R4) & _). destruct (Hk j Hjl) as (_ & _ & _ & _ & Ej).
    fold i in Hb. unfold share_nothing. fold i. rewrite Hb, Ej. destruct Hc as (EB & EI & EW & EN). unfold built. cbn. rewrite EB, EI, EW, EN. cbn.
    unfold i. lia.
  - eapply Forall_impl; [apply nothing_no_weights|auto].
  - eapply Forall_impl; [|exact Hf3]. intros [c'| | |]; cbn; auto. intros (-> & -> & -> & ->). repeat split; discriminate.
Qed.

(* ---------------- sharing a network ---------------- *)
(** Two models built with the same network object: sweeping one changes the other's network, and nothing else of it. *)
Theorem C132_shared_network_only_partial : forall lgam rn d w w' i j, i <> j ->
  mo_net (w_mod w i) = mo_net (w_mod w j) -> mo_bias (w_mod w i) <> mo_bias (w_mod w j) ->
  mo_ir (w_mod w i) <> mo_ir (w_mod w j) -> mo_wt (w_mod w i) <> mo_wt (w_mod w j) ->
  w_sweep lgam rn d j w = Ok w' ->
  gi_m (view w' i) = gi_m (view w i) /\ gi_h (view w' i) = gi_h (view w i) /\ gi_net (view w' i) = gi_net (view w' j).
Proof.
  intros lgam rn d w w' i j Hij En Hb Hi Hw E. apply on_w_sweep in E. destruct E as [Hs (A & B & C & D & _)].
  pose proof (static_refs j Hs) as (_ & _ & _ & Rj & _). pose proof (static_refs i Hs) as (_ & _ & _ & Ri & _).
  destruct Hs as (_ & _ & _ & _ & _ & Hg).
  unfold view, dm_of. cbn [gi_m gi_h gi_net]. rewrite Rj, Ri. rewrite A, B, C, D, Hg by auto. rewrite En. auto.
Qed.

(** [model.impulses] shows the responses the rate is computed from, if the impulse-response object was built with the model. *)
Theorem C132_impulses_own_partial : forall w i l k1 k2, ir_owner (w_ir w (mo_ir (w_mod w i))) = i ->
  impulses_at w i l k1 k2 = Rsum (dm_B (dm_of w i)) (fun b => dm_bas (dm_of w i) l b * dm_g (dm_of w i) k1 k2 b).
Proof. intros w i l k1 k2 E. unfold impulses_at. rewrite E. reflexivity. Qed.

(* ---------------- what the constructor checks ---------------- *)
Definition check (o : option nat) (p : nat -> Prop) : Prop := match o with Some a => p a | None => True end.
Theorem C132_constructor_checks : forall lgam c w, args_exist c w = true ->
  let accepted := check (c_ir c) (fun a => ir_B (w_ir w a) = c_B c /\ ir_K (w_ir w a) = c_K c) /\
                  check (c_net c) (fun a => net_K (w_net w a) = c_K c) /\
                  check (c_wt c) (fun a => wt_K (w_wt w a) = c_K c) /\
                  ~ (c_inst c = true /\ net_allow (match c_net c with Some a => w_net w a | None => c_newnet c end) = true) in
  (accepted -> exists w', w_new lgam c w = Ok w') /\ (~ accepted -> w_new lgam c w = Raise AssertionError).
Proof.
  intros lgam c w He acc. unfold args_exist in He. rewrite !andb_true_iff in He. destruct He as [[[_ _] He3] He4].
  assert (B0 : forall i, w_ir (n_bias c i w) = w_ir w /\ w_wt (n_bias c i w) = w_wt w /\ w_net (n_bias c i w) = w_net w)
    by (intros i; destruct (n_bias_same c i w) as (? & ? & ? & _); auto).
  set (i := w_next w).
  assert (S1 : n_ir c i (n_bias c i w) = if match c_ir c with Some a => Nat.eqb (ir_B (w_ir w a)) (c_B c) && Nat.eqb (ir_K (w_ir w a)) (c_K c) | None => true end
               then n_ir c i (n_bias c i w) else Raise AssertionError).
  { unfold n_ir. destruct (c_ir c); auto. destruct (B0 i) as (-> & _). unfold guard. destruct (Nat.eqb _ _); auto; cbn [bindr].
    destruct (Nat.eqb _ _); auto. }
  unfold w_new. fold i. rewrite S1.
  assert (P1 : (match c_ir c with Some a => Nat.eqb (ir_B (w_ir w a)) (c_B c) && Nat.eqb (ir_K (w_ir w a)) (c_K c) | None => true end) = true <->
               check (c_ir c) (fun a => ir_B (w_ir w a) = c_B c /\ ir_K (w_ir w a) = c_K c)).
  { destruct (c_ir c); cbn; [|tauto]. rewrite andb_true_iff, !Nat.eqb_eq. tauto. }
  destruct (match c_ir c with Some a => _ | None => true end) eqn:Q1.
  2:{ cbn [bindr]. split; [|auto]. intros (H & _). apply P1 in H. discriminate. }
  destruct (n_ir c i (n_bias c i w)) as [w1|e] eqn:E1.
  2:{ exfalso. unfold n_ir in E1. destruct (c_ir c); [|discriminate]. destruct (B0 i) as (Eb & _). rewrite Eb in E1.
      apply andb_true_iff in Q1. destruct Q1 as [Q Q']. rewrite Q, Q' in E1. discriminate. }
  cbn [bindr]. apply n_ir_ok in E1. destruct E1 as (_ & _ & T1 & N1 & _). destruct (B0 i) as (_ & T0 & N0).
  rewrite T0 in T1. rewrite N0 in N1.
  assert (P2 : (match c_net c with Some a => Nat.eqb (net_K (w_net w a)) (c_K c) | None => true end) = true <->
               check (c_net c) (fun a => net_K (w_net w a) = c_K c)).
  { destruct (c_net c); cbn; [|tauto]. apply Nat.eqb_eq. }
  destruct (match c_net c with Some a => _ | None => true end) eqn:Q2.
  2:{ unfold n_net. destruct (c_net c); [|discriminate]. rewrite N1, Q2. cbn. split; [|auto]. intros (_ & H & _). apply P2 in H. discriminate. }
  destruct (n_net c i w1) as [w2|e] eqn:E2.
  2:{ exfalso. unfold n_net in E2. destruct (c_net c); [|discriminate]. rewrite N1, Q2 in E2. discriminate. }
  cbn [bindr].
  assert (N2 : w_net w2 (given (c_net c) (4 + i)) = match c_net c with Some a => w_net w a | None => c_newnet c end).
  { unfold n_net in E2. destruct (c_net c); cbn [given].
    - rewrite N1, Q2 in E2. cbn in E2. injection E2 as <-. now rewrite N1.
    - injection E2 as <-. cbn. apply upd_eq. }
  rewrite N2. apply n_net_ok in E2. destruct E2 as (_ & _ & T2 & _ & _). rewrite T1 in T2.
  unfold guard. destruct (negb (c_inst c && _)) eqn:Q3; cbn [bindr].
  2:{ split; [|auto]. intros (_ & _ & _ & H). apply negb_false_iff, andb_true_iff in Q3. tauto. }
  apply negb_true_iff in Q3.
  assert (H3 : ~ (c_inst c = true /\ net_allow (match c_net c with Some a => w_net w a | None => c_newnet c end) = true)).
  { intros [H H']. rewrite H, H' in Q3. discriminate. }
  unfold n_wt. unfold acc, check in *. destruct (c_wt c) as [aW|].
  - cbn [set_mod w_wt]. rewrite T2. destruct (Nat.eqb_spec (wt_K (w_wt w aW)) (c_K c)); cbn [guard bindr].
    + split; [eauto|]. intros H. exfalso. apply H. split; [now apply P1|split; [now apply P2|split; auto]].
    + split; [|auto]. tauto.
  - cbn [bindr]. split; [eauto|]. intros H. exfalso. apply H. split; [now apply P1|split; [now apply P2|split; auto]].
Qed.

(* ---------------- what fails ---------------- *)
(** A model built with another model's weights object: as long as that object's network and its model's network are not the new
    model's network, the new model's network has no influence on the weights and edges drawn for it. *)
Theorem C132_given_weights_ignore_the_network_refuted : forall lgam d w i no,
  let x := w_wt w (mo_wt (w_mod w i)) in
  wt_net x <> mo_net (w_mod w i) -> mo_net (w_mod w (wt_owner x)) <> mo_net (w_mod w i) ->
  w_wt (st_wt lgam d i (set_net w (mo_net (w_mod w i)) no)) = w_wt (st_wt lgam d i w).
Proof.
  intros lgam d w i no x Hn Ho. unfold st_wt. cbn [set_net w_mod w_wt]. fold x. destruct (wt_mix x).
  - unfold mix_step. cbn. fold x. rewrite Nat_upd_ne by auto. reflexivity.
  - unfold ss_step. cbn. fold x. rewrite (Nat_upd_ne (w_net w)) by auto. rewrite !upd_eq. cbn [wt_with_W wt_parallel wt_owner].
    destruct (wt_parallel x); cbn; rewrite ?upd_eq; cbn; [|reflexivity].
    rewrite (Nat_upd_ne (w_net w)) by auto. reflexivity.
Qed.

Definition ex132_er (v : R) : netobj :=
  NetEr {| e_K := 1; e_p := 1/2; e_kappa := 1; e_alpha := Some 1; e_beta := Some 1; e_v := v; e_allow := true; e_mf := None |}.
Definition ex132_draws : sweep_draws :=
  {| sd_mult := fun _ => ex_last; sd_bias := fun _ _ _ => 1; sd_ir := fun _ _ _ _ => 1;
     sd_net := {| gd_beta := fun _ _ _ _ => 1/2; gd_gamma := fun _ _ _ _ => 1; gd_pick := fun _ _ => 0%nat; gd_dir := fun _ _ => 1 |};
     sd_er := fun _ _ => 2; sd_W := fun _ _ _ s => s; sd_u := fun _ _ => 1/2; sd_order := [0%nat] |}.
Lemma ex132_draws_ok : draws_contract 1 1 1 ex132_draws.
Proof.
  split; [intros i; exact ex_last_ok|]. split; [intros k a s _ _; cbn; lra|].
  split; [|split; [|split; [intros a s _ _; cbn; lra|split; [intros k1 k2 a s _ Hs; exact Hs|split; [intros k1 k2; unfold unit_interval; cbn; lra|apply Permutation_refl]]]]].
  - intros k1 k2 al _. split; cbn; intros; lra.
  - split; [intros a b x y _ _; cbn; lra|]. split; [intros a b x y _ _; cbn; lra|]. split; [intros; cbn; lia|].
    intros al _. split; cbn; intros; lra.
Qed.
Definition ex132_w0 : world :=
  {| w_bias := fun _ => {| bi_K := 0; bi_alpha := 1; bi_beta := 1; bi_lam := fun _ => 0 |};
     w_ir := fun _ => {| ir_owner := 0; ir_K := 0; ir_B := 0; ir_gamma := fun _ => 1; ir_g := fun _ _ _ => 0 |};
     w_wt := fun _ => {| wt_owner := 0; wt_net := 0; wt_K := 0; wt_mix := false; wt_kappa0 := 1; wt_nu0 := 1; wt_parallel := false;
                         wt_A := fun _ _ => false; wt_W := fun _ _ => 0 |};
     w_net := fun _ => ex132_er 1;
     w_mod := fun _ => {| mo_mix := false; mo_K := 0; mo_B := 0; mo_dt := 1; mo_L := 0; mo_L_int := true; mo_bas := fun _ _ => 0;
                          mo_bias := 0; mo_ir := 0; mo_wt := 0; mo_net := 0; mo_data := [] |};
     w_par := (0%nat, []); w_gsl := false; w_next := 0; w_models := [] |}.
(** K = B = 1, unit bins; the basis height, the number of processes and the components passed vary. *)
Definition ex132_c (K : nat) (height : R) (bk ir wt net : option nat) (no : netobj) : ctor :=
  {| c_mix := false; c_K := K; c_B := 1; c_dt := 1; c_L := 1; c_bas := fun _ _ => height; c_h := ex_hyp; c_inst := false;
     c_bkgd := bk; c_ir := ir; c_wt := wt; c_net := net; c_newnet := no; c_draws := ex132_draws |}.

Lemma sweep_no_data lgam rn d i w : mo_data (w_mod w i) = [] -> mo_mix (w_mod w i) = false ->
  w_sweep lgam rn d i w = Ok (st_wt lgam d i (st_net lgam d i (st_ir d i (st_bias d i (set_mod w i (mo_with_data (w_mod w i) [])))))).
Proof.
  intros H1 H2. unfold w_sweep, st_parents. rewrite H1. cbn [resample_parents bindr].
  cbn [st_ir set_ir w_mod st_bias set_bias set_mod]. rewrite upd_eq. cbn [mo_with_data mo_mix]. rewrite H2. reflexivity.
Qed.
Lemma st_wt_net lgam d i w : w_net (st_wt lgam d i w) = w_net w.
Proof.
  unfold st_wt. destruct (wt_mix _); [reflexivity|].
  destruct (ss_step_wt d (mo_wt (w_mod w i)) i (mo_data (w_mod w i)) w) as (A & W & p & ->). reflexivity.
Qed.
Lemma st_wt_mod lgam d i w : w_mod (st_wt lgam d i w) = w_mod w.
Proof.
  unfold st_wt. destruct (wt_mix _); [reflexivity|].
  destruct (ss_step_wt d (mo_wt (w_mod w i)) i (mo_data (w_mod w i)) w) as (A & W & p & ->). reflexivity.
Qed.

Lemma sweep_net lgam rn d i w w' : w_sweep lgam rn d i w = Ok w' -> mo_mix (w_mod w i) = false ->
  exists A W, w_net w' (mo_net (w_mod w i)) = net_resample lgam (sd_net d) (sd_er d) A W (w_net w (mo_net (w_mod w i))).
Proof.
  intros H Hm. unfold w_sweep in H. destruct (st_parents d i w) as [w1|] eqn:E; cbn [bindr] in H; [|discriminate].
  apply view_parents in E. destruct E as (data & _ & ->).
  set (w2 := st_ir d i (st_bias d i (set_mod w i (mo_with_data (w_mod w i) data)))) in *.
  assert (E2 : w_mod w2 i = mo_with_data (w_mod w i) data) by (unfold w2; cbn; apply upd_eq).
  assert (E3 : w_net w2 = w_net w) by reflexivity. clearbody w2. rewrite E2 in H. cbn [mo_with_data mo_mix] in H. rewrite Hm in H.
  injection H as <-. rewrite st_wt_net. unfold st_net. cbn [set_net w_net]. rewrite E2, E3. cbn [mo_with_data mo_net mo_wt]. rewrite upd_eq. eauto.
Qed.
Lemma ex132_redraw lgam A W : net_resample lgam (sd_net ex132_draws) (sd_er ex132_draws) A W (ex132_er 1) = ex132_er 2.
Proof.
  unfold ex132_er, net_resample, er_resample. cbn [e_alpha e_beta truthy].
  replace (Reqb 1 0) with false by (symmetry; apply Reqb_false; lra). reflexivity.
Qed.
Lemma ex132_V v : n_V (net_view (ex132_er v)) 0%nat 0%nat = v.
Proof. cbn. unfold er_V. cbn. ring. Qed.

(** Two models built with one network object: a sweep of one changes what the other's network says. *)
Theorem C132_shared_network_refuted : forall lgam, exists h,
  let w := wrun lgam h ex132_w0 in Forall no_weights h /\ In 1%nat (w_models w) /\ In 6%nat (w_models w) /\
  exists w', w_sweep lgam true ex132_draws 6 w = Ok w' /\
    n_V (net_view (gi_net (view w 1))) 0%nat 0%nat = 1 /\ n_V (net_view (gi_net (view w' 1))) 0%nat 0%nat = 2.
Proof.
  intros lgam. set (h := [WNet (ex132_er 1); WNew (ex132_c 1 1 None None None (Some 0%nat) (ex132_er 1));
                          WNew (ex132_c 1 1 None None None (Some 0%nat) (ex132_er 1))]).
  exists h. cbv zeta. set (w := wrun lgam h ex132_w0).
  assert (M : w_models w = [1; 6]%nat) by reflexivity.
  assert (D6 : mo_data (w_mod w 6) = []) by reflexivity. assert (X6 : mo_mix (w_mod w 6) = false) by reflexivity.
  assert (N6 : mo_net (w_mod w 6) = 0%nat) by reflexivity. assert (N1 : mo_net (w_mod w 1) = 0%nat) by reflexivity.
  assert (E0 : w_net w 0 = ex132_er 1) by reflexivity.
  clearbody w. split; [unfold h; repeat constructor|]. rewrite M. split; [cbn; auto|]. split; [cbn; auto|].
  set (w' := st_wt lgam ex132_draws 6 (st_net lgam ex132_draws 6 (st_ir ex132_draws 6 (st_bias ex132_draws 6
               (set_mod w 6 (mo_with_data (w_mod w 6) [])))))).
  assert (Hs : w_sweep lgam true ex132_draws 6 w = Ok w') by (apply sweep_no_data; auto).
  exists w'. split; [exact Hs|].
  assert (V0 : gi_net (view w 1) = ex132_er 1) by (unfold view; cbn [gi_net]; rewrite N1; exact E0).
  assert (V1 : gi_net (view w' 1) = ex132_er 2).
  { destruct (@sweep_net lgam true ex132_draws 6 w w' Hs X6) as (A & W & En). apply on_w_sweep in Hs.
    destruct (static_refs 1 (proj1 Hs)) as (_ & _ & _ & R & _). unfold view. cbn [gi_net]. rewrite R, N1. rewrite N6, E0 in En.
    rewrite En. apply ex132_redraw. }
  rewrite V0, V1. split; apply ex132_V.
Qed.

Definition ex132_fix (v : R) : netobj :=
  NetEr {| e_K := 1; e_p := 1/2; e_kappa := 1; e_alpha := None; e_beta := None; e_v := v; e_allow := true; e_mf := None |}.
Lemma ex132_W v A : ss_W_resample (sd_W ex132_draws) (net_view (ex132_fix v)) A [] 0%nat 0%nat = 1 / v.
Proof.
  unfold ss_W_resample, ss_W_request, pool. cbn [fold_left]. cbn [ex132_draws sd_W]. unfold ex132_fix, net_view, net_of_er, n_V, er_V. cbn.
  f_equal. ring.
Qed.
Lemma ordinary_no_data_W lgam rn d st : dm_mix (gi_m st) = false -> dm_data (gi_m st) = [] ->
  exists st' A0 W0 A, sweep lgam rn d st = Ok st' /\
    dm_W (gi_m st') = ss_W_resample (sd_W d) (net_view (net_resample lgam (sd_net d) (sd_er d) A0 W0 (gi_net st))) A [].
Proof.
  intros Hm Hd. unfold sweep, ss_sweep. rewrite Hm, Hd. cbn [resample_parents bindr]. eexists _, _, _, _. split; reflexivity.
Qed.
Lemma ex132_fixed lgam d g A W v : net_resample lgam d g A W (ex132_fix v) = ex132_fix v.
Proof. reflexivity. Qed.
Lemma st_wt_no_data lgam d i w : mo_data (w_mod w i) = [] -> wt_mix (w_wt w (mo_wt (w_mod w i))) = false ->
  exists A, wt_W (w_wt (st_wt lgam d i w) (mo_wt (w_mod w i))) =
    ss_W_resample (sd_W d) (net_view (w_net w (wt_net (w_wt w (mo_wt (w_mod w i)))))) A [].
Proof.
  intros Hd Hm. unfold st_wt. rewrite Hm, Hd. set (a := mo_wt (w_mod w i)). unfold ss_step.
  eexists. destruct (wt_parallel _); cbn [set_wt set_par w_wt]; rewrite !upd_eq; cbn [wt_with_A wt_W]; rewrite ?upd_eq;
  cbn [wt_with_W wt_W]; reflexivity.
Qed.

Lemma ex132_given lgam w : mo_data (w_mod w 5) = [] -> mo_mix (w_mod w 5) = false -> mo_net (w_mod w 5) = 9%nat -> mo_wt (w_mod w 5) = 3%nat ->
  wt_net (w_wt w 3) = 4%nat -> wt_mix (w_wt w 3) = false -> w_net w 4 = ex132_fix 1 -> w_net w 9 = ex132_fix 2 ->
  exists w' st, w_sweep lgam true ex132_draws 5 w = Ok w' /\ sweep lgam true ex132_draws (view w 5) = Ok st /\
    dm_W (gi_m (view w' 5)) 0%nat 0%nat = 1 /\ dm_W (gi_m st) 0%nat 0%nat = 1 / 2.
Proof.
  intros D5 X5 N5 T5 N3 X3 E4 E9.
  assert (Hs := @sweep_no_data lgam true ex132_draws 5 w D5 X5).
  set (w1 := st_net lgam ex132_draws 5 (st_ir ex132_draws 5 (st_bias ex132_draws 5 (set_mod w 5 (mo_with_data (w_mod w 5) []))))) in Hs.
  assert (M1 : w_mod w1 5 = mo_with_data (w_mod w 5) []) by (unfold w1; cbn [st_net set_net st_ir set_ir st_bias set_bias set_mod w_mod]; apply upd_eq).
  assert (T1 : w_wt w1 = w_wt w) by reflexivity.
  assert (G1 : w_net w1 4 = ex132_fix 1).
  { unfold w1, st_net. cbn [set_net w_net st_ir set_ir st_bias set_bias set_mod w_mod]. rewrite !(upd_eq (w_mod w)).
    cbn [mo_with_data mo_net]. rewrite N5, Nat_upd_ne by lia. exact E4. }
  clearbody w1.
  assert (Hst : exists st, sweep lgam true ex132_draws (view w 5) = Ok st /\ exists A, dm_W (gi_m st) = ss_W_resample (sd_W ex132_draws) (net_view (ex132_fix 2)) A []).
  { destruct (@ordinary_no_data_W lgam true ex132_draws (view w 5)) as (st & A0 & W0 & A & E1 & E2).
    - change (wt_mix (w_wt w (mo_wt (w_mod w 5))) = false). now rewrite T5.
    - exact D5.
    - exists st. split; [exact E1|]. exists A. rewrite E2. change (gi_net (view w 5)) with (w_net w (mo_net (w_mod w 5))).
      now rewrite N5, E9, ex132_fixed. }
  destruct Hst as (st & Est & A & EW). eexists _, st. split; [exact Hs|]. split; [exact Est|]. split.
  - unfold view. cbn [gi_m]. unfold dm_of. cbn [dm_W]. rewrite st_wt_mod, M1. cbn [mo_with_data mo_wt]. rewrite T5.
    destruct (@st_wt_no_data lgam ex132_draws 5 w1) as [A' E]; [rewrite M1; reflexivity|rewrite M1, T1; cbn [mo_with_data mo_wt]; rewrite T5; exact X3|].
    rewrite M1, T1 in E. cbn [mo_with_data mo_wt] in E. rewrite T5, N3, G1 in E. rewrite E. rewrite ex132_W. lra.
  - rewrite EW. apply ex132_W.
Qed.

(** A model built with another model's weights object: its sweep is not the ordinary sweep of what it shows. *)
Theorem C132_given_weights_refuted : forall lgam, exists h,
  let w := wrun lgam h ex132_w0 in In 5%nat (w_models w) /\
  exists w' st, w_sweep lgam true ex132_draws 5 w = Ok w' /\ sweep lgam true ex132_draws (view w 5) = Ok st /\
    dm_W (gi_m (view w' 5)) 0%nat 0%nat = 1 /\ dm_W (gi_m st) 0%nat 0%nat = 1 / 2.
Proof.
  intros lgam. set (h := [WNew (ex132_c 1 1 None None None None (ex132_fix 1)); WNew (ex132_c 1 1 None None (Some 3%nat) None (ex132_fix 2))]).
  exists h. cbv zeta. set (w := wrun lgam h ex132_w0).
  assert (M : w_models w = [0; 5]%nat) by reflexivity.
  assert (D5 : mo_data (w_mod w 5) = []) by reflexivity. assert (X5 : mo_mix (w_mod w 5) = false) by reflexivity.
  assert (N5 : mo_net (w_mod w 5) = 9%nat) by reflexivity. assert (T5 : mo_wt (w_mod w 5) = 3%nat) by reflexivity.
  assert (N3 : wt_net (w_wt w 3) = 4%nat) by reflexivity. assert (X3 : wt_mix (w_wt w 3) = false) by reflexivity.
  assert (E4 : w_net w 4 = ex132_fix 1) by reflexivity. assert (E9 : w_net w 9 = ex132_fix 2) by reflexivity.
  split; [rewrite M; cbn; auto|]. now apply ex132_given.
Qed.

(** A model built with another model's impulse-response object: [model.impulses] shows the other model's responses. *)
Theorem C132_given_impulses_refuted : forall lgam, exists h,
  let w := wrun lgam h ex132_w0 in Forall no_weights h /\ In 5%nat (w_models w) /\
  impulses_at w 5 0 0 0 = 1 /\
  Rsum (dm_B (dm_of w 5)) (fun b => dm_bas (dm_of w 5) 0%nat b * dm_g (dm_of w 5) 0%nat 0%nat b) = 2.
Proof.
  intros lgam. exists [WNew (ex132_c 1 1 None None None None (ex132_er 1)); WNew (ex132_c 1 2 None (Some 2%nat) None None (ex132_er 1))].
  cbv zeta. split; [repeat constructor|]. split; [cbn; auto|]. split; cbn; lra.
Qed.

(** Nothing is checked about a background object: one for two processes is accepted by a model of one process. *)
Theorem C132_background_unchecked_refuted : forall lgam, exists h,
  let w := wrun lgam h ex132_w0 in In 5%nat (w_models w) /\ bi_K (w_bias w (mo_bias (w_mod w 5))) <> mo_K (w_mod w 5).
Proof.
  intros lgam. exists [WNew (ex132_c 2 1 None None None None (ex132_er 1)); WNew (ex132_c 1 1 (Some 1%nat) None None None (ex132_er 1))].
  cbv zeta. split; [cbn; auto|]. cbn. discriminate.
Qed.

(** The hypotheses of the positive theorems are met by programs with several models, data and sweeps. *)
Example C132_nonvacuous : forall lgam,
  let c := ex132_c 1 1 None None None None (ex132_er 1) in
  let add i := WAdd i (sval_of 2 1 (fun _ _ => 1%Z)) None None in
  let h1 := [WNew c; add 0%nat] in
  let h2 := [add 5%nat; WSweep 0 true ex132_draws; WSweep 5 true ex132_draws; WNew c] in
  Forall nothing_passed (h1 ++ WNew c :: h2) /\ c_inst c && net_allow (c_newnet c) = false /\
  w_next (wrun lgam h1 ex132_w0) = 5%nat /\ length (ops_on 5 h2) = 2%nat /\ draws_contract 1 1 1 ex132_draws.
Proof.
  intros lgam c add h1 h2. split; [repeat constructor|]. split; [reflexivity|]. split; [reflexivity|]. split; [reflexivity|].
  apply ex132_draws_ok.
Qed.
Print Assumptions C132_each_model_as_if_alone.
Print Assumptions C132_given_weights_refuted.
