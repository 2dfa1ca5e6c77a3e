(** * Props_BasisArg: C131, any basis object a model accepts can be used for everything, with weights keeping their meaning. *)
From Verif Require Import Prelude ExtReal Arrays Spec_Basis Spec_Discrete M_Basis L_Basis M_Parents M_Discrete L_Discrete M_Network M_Sweep M_BasisArg
  Props_Basis Props_Discrete Props_Prior Props_Influence.
Set Implicit Arguments.
Open Scope R_scope.

(** The same model with another bin width. *)
Definition with_dt (m : dmodel) (dt : R) : dmodel :=
  {| dm_K := dm_K m; dm_B := dm_B m; dm_dt := dt; dm_L := dm_L m; dm_L_int := dm_L_int m; dm_bas := dm_bas m; dm_mix := dm_mix m;
     dm_A := dm_A m; dm_W := dm_W m; dm_g := dm_g m; dm_lam := dm_lam m; dm_data := dm_data m |}.

(** What the constructed model keeps of the basis object. *)
Lemma construct_facts lgam mix K B dt dt_max basis allow h no d st : construct_with_basis lgam mix K B dt dt_max basis allow h no d = Ok st ->
  exists bo, model_basis basis B dt dt_max = Ok bo /\ ~ (bo_inst bo = true /\ allow = true) /\
    dm_K (gi_m st) = K /\ dm_B (gi_m st) = bt_cols (bo_tab bo) /\ dm_L (gi_m st) = bt_rows (bo_tab bo) /\ dm_dt (gi_m st) = dt /\
    dm_L_int (gi_m st) = bo_L_int bo /\ dm_bas (gi_m st) = basis_table bo /\ dm_data (gi_m st) = [].
Proof.
  unfold construct_with_basis. intros E. destruct (model_basis _ _ _ _) as [bo|] eqn:Eb; [|discriminate]. cbn [bindr] in E.
  destruct (bo_inst bo && allow)%bool eqn:Ei; [discriminate|]. cbn [negb guard bindr] in E. injection E as <-.
  exists bo. split; [reflexivity|]. split; [intros (H1 & H2); now rewrite H1, H2 in Ei|]. cbn [gi_m dm_K dm_B dm_L dm_dt dm_L_int dm_bas dm_data].
  unfold construct. cbn [gi_m]. destruct mix; repeat split.
Qed.

(** ** The assertion: a basis with an instantaneous effect needs a network without self-connections; nothing else is checked, so
    any other basis object is accepted, whatever its bin width and its window. *)
Theorem C131_accepted : forall lgam mix K B dt dt_max bo allow h no d,
  (bo_inst bo = true -> allow = true -> construct_with_basis lgam mix K B dt dt_max (Some bo) allow h no d = Raise AssertionError) /\
  (bo_inst bo = false \/ allow = false -> exists st, construct_with_basis lgam mix K B dt dt_max (Some bo) allow h no d = Ok st /\
     dm_B (gi_m st) = bt_cols (bo_tab bo)).
Proof.
  intros lgam mix K B dt dt_max bo allow h no d. unfold construct_with_basis, model_basis. cbn [bindr]. split.
  - intros -> ->. reflexivity.
  - intros H. replace (bo_inst bo && allow)%bool with false by (destruct H as [->| ->]; [|rewrite andb_comm]; reflexivity).
    cbn [negb guard bindr]. eexists. split; [reflexivity|]. cbn [gi_m dm_B]. unfold construct. cbn [gi_m]. destruct mix; reflexivity.
Qed.
Print Assumptions C131_accepted.

(** ** A CosineBasis passed as an object gives the model that the same hyperparameters give. *)
Theorem C131_object_or_hyperparameters : forall lgam mix K B dt dt_max bo allow h no d,
  CosineBasis B dt dt_max true false 0 (1 / 120) (1 / 2) 100 = Ok bo ->
  construct_with_basis lgam mix K B dt dt_max (Some bo) allow h no d = construct_with_basis lgam mix K B dt dt_max None allow h no d.
Proof. intros. unfold construct_with_basis, model_basis. now rewrite H. Qed.
Print Assumptions C131_object_or_hyperparameters.

(** ** Simulation: with a CosineBasis, generate succeeds whenever no count reaches 1000. *)
Theorem C131_cosine_simulates_partial : forall lgam mix K B dt dt_max n B' dt' dt_max' a b L norm inst bo allow h no d st,
  CosineBasis B' dt' dt_max' norm inst n a b L = Ok bo -> (0 < K)%nat -> (0 < bt_cols (bo_tab bo))%nat -> (0 < bt_rows (bo_tab bo))%nat ->
  construct_with_basis lgam mix K B dt dt_max (Some bo) allow h no d = Ok st ->
  forall pois keep T, (0 < T)%nat -> (forall t k x, (0 <= pois t k x < 1000)%Z) ->
  exists m' S_ R_, generate (gi_m st) pois keep T = Ok (m', S_, R_).
Proof.
  intros lgam mix K B dt dt_max n B' dt' dt_max' a b L norm inst bo allow h no d st Eb HK HB HL E pois keep T HT Hp.
  apply construct_facts in E as (bo' & E' & _ & F1 & F2 & F3 & _ & F4 & _). cbn [model_basis] in E'. injection E' as <-.
  apply C08_generate_succeeds; auto.
  - unfold proper_dims. rewrite F1, F2, F3. auto.
  - rewrite F4. unfold CosineBasis in Eb. destruct (create_cosine_basis _ _ _ _ _ _); [|discriminate]. cbn [bindr] in Eb. now injection Eb as <-.
Qed.
Print Assumptions C131_cosine_simulates_partial.

(** ** With an IdentityBasis built from floating-point dt and dt_max, generate never succeeds: TypeError whatever the model, the
    draws and the length. *)
Theorem C131_identity_simulates_refuted : forall lgam mix K B dt dt_max dt' dt_max' norm inst bo allow h no d st,
  IdentityBasis dt' dt_max' norm inst = Ok bo ->
  construct_with_basis lgam mix K B dt dt_max (Some bo) allow h no d = Ok st ->
  forall pois keep T, generate (gi_m st) pois keep T = Raise TypeError.
Proof.
  intros lgam mix K B dt dt_max dt' dt_max' norm inst bo allow h no d st Eb E pois keep T.
  apply construct_facts in E as (bo' & E' & _ & _ & _ & _ & _ & F4 & _). cbn [model_basis] in E'. injection E' as <-.
  unfold generate. rewrite F4. unfold IdentityBasis in Eb. destruct (Z.ltb _ 0); [discriminate|]. destruct (negb _); [discriminate|]. injection Eb as <-. reflexivity.
Qed.
Print Assumptions C131_identity_simulates_refuted.
(** It can be constructed. *)
Example C131_identity_constructs : forall lgam h no d, exists bo st,
  IdentityBasis 1 3 true false = Ok bo /\ construct_with_basis lgam true 2 5 1 3 (Some bo) true h no d = Ok st /\ dm_B (gi_m st) = 3%nat.
Proof.
  intros lgam h no d. destruct (@C01_identity_is_identity 1 3 true false ltac:(lra)) as (_ & H).
  rewrite (@floorZ_unique (3 / 1) 3%Z) in H by lra. destruct (H ltac:(lia)) as (bo & E & Ei & Hc & _). exists bo.
  destruct (@C131_accepted lgam true 2 5 1 3 bo true h no d) as (_ & HA). destruct (HA (or_introl Ei)) as (st & Es & HB).
  exists st. split; [exact E|]. split; [exact Es|]. rewrite HB. cbn in Hc. lia.
Qed.

(** ** The weight of a connection as an expected number of further events: with a basis normalised for a bin width dt' (as every
    normalised basis built with dt = dt' is), one more event adds, in all, weight * dt / dt' expected events, where dt is the bin
    width of the model. *)
Theorem C131_weight_meaning_partial : forall m index T S_ t0 j dt', proper_dims m -> (t0 < T)%nat -> (j < dm_K m)%nat ->
  nonneg_mat (dm_K m) (dm_W m) -> stochastic_g (dm_K m) (dm_B m) (dm_g m) -> normalised_basis dt' (dm_L m) (dm_B m) (dm_bas m) -> 0 < dt' ->
  (t0 + dm_L m <= T)%nat ->
  exists R_ R', compute_rate m index (Some (sval_of T (dm_K m) S_)) None = Ok (T, R_) /\
    compute_rate m index (Some (sval_of T (dm_K m) (one_more t0 j S_))) None = Ok (T, R') /\
    forall k, (k < dm_K m)%nat ->
      dm_dt m * Rsum T (fun t => R' t k - R_ t k) = net_weight m j k * (dm_dt m / dt').
Proof.
  intros m index T S_ t0 j dt' Hd HT Hj HW Hg Hb Hdt HL.
  destruct (@C126_one_more_event (with_dt m dt') index T S_ t0 j Hd HT Hj HW Hg Hb Hdt) as (R_ & R' & E & E' & _ & H).
  exists R_, R'. split; [exact E|]. split; [exact E'|]. intros k Hk. destruct (H k Hk) as (_ & H2). specialize (H2 HL). cbn [dm_dt with_dt] in H2.
  change (net_weight (with_dt m dt') j k) with (net_weight m j k) in H2. rewrite <- H2. field. lra.
Qed.
Print Assumptions C131_weight_meaning_partial.

(** ** So a normalised basis object built for another bin width changes the meaning of every weight, without any complaint: an
    IdentityBasis for bins half as wide in a model of unit bins doubles them. *)
Theorem C131_weight_meaning_refuted : exists bo, IdentityBasis (1 / 2) 1 true false = Ok bo /\
  (forall lgam mix K B dt_max allow h no d, exists st, construct_with_basis lgam mix K B 1 dt_max (Some bo) allow h no d = Ok st /\ dm_dt (gi_m st) = 1) /\
  forall lgam mix K B dt_max allow h no d st, construct_with_basis lgam mix K B 1 dt_max (Some bo) allow h no d = Ok st -> (0 < K)%nat ->
    let m := gi_m st in nonneg_mat K (dm_W m) -> stochastic_g K (dm_B m) (dm_g m) ->
    forall j, (j < K)%nat -> exists R_ R',
      compute_rate m 0 (Some (sval_of 3 K (fun _ _ => 0%Z))) None = Ok (3%nat, R_) /\
      compute_rate m 0 (Some (sval_of 3 K (one_more 0 j (fun _ _ => 0%Z)))) None = Ok (3%nat, R') /\
      forall k, (k < K)%nat -> dm_dt m * Rsum 3 (fun t => R' t k - R_ t k) = net_weight m j k * 2.
Proof.
  destruct (@C01_identity_is_identity (1 / 2) 1 true false ltac:(lra)) as (_ & H).
  rewrite (@floorZ_unique (1 / (1 / 2)) 2%Z) in H by lra. destruct (H ltac:(lia)) as (bo & E & Ei & Hc & Hr & Hat). exists bo. split; [exact E|].
  assert (Ec : bt_cols (bo_tab bo) = 2%nat) by lia. assert (Er : bt_rows (bo_tab bo) = 3%nat) by lia. split.
  - intros lgam mix K B dt_max allow h no d. destruct (@C131_accepted lgam mix K B 1 dt_max bo allow h no d) as (_ & HA).
    destruct (HA (or_introl Ei)) as (st & Es & _). exists st. split; [exact Es|]. apply construct_facts in Es as (bo' & _ & _ & F). intuition.
  - intros lgam mix K B dt_max allow h no d st Es HK m HW Hg j Hj. apply construct_facts in Es as (bo' & E' & _ & F1 & F2 & F3 & F5 & _ & F6 & _).
    cbn [model_basis] in E'. injection E' as <-. subst m. rewrite <- F1 in HW, Hg, HK, Hj.
    assert (P1 : proper_dims (gi_m st)) by (unfold proper_dims; rewrite F2, F3, Ec, Er; lia).
    assert (P2 : normalised_basis (1 / 2) (dm_L (gi_m st)) (dm_B (gi_m st)) (dm_bas (gi_m st))).
    { intros b Hb. rewrite F2, Ec in Hb. rewrite F3, Er, F6. unfold basis_table. split.
      - intros l Hl. rewrite Hat by lia. cbn [fval]. destruct (Nat.eqb _ _); lra.
      - cbn [Rsum]. rewrite !Hat by lia. cbn [fval]. destruct b as [|[|b]]; [| |lia]; cbn [Nat.eqb]; lra. }
    assert (P3 : (0 + dm_L (gi_m st) <= 3)%nat) by (rewrite F3, Er; lia).
    destruct (@C131_weight_meaning_partial (gi_m st) 0 3 (fun _ _ => 0%Z) 0 j (1 / 2) P1 ltac:(lia) Hj HW Hg P2 ltac:(lra) P3) as (R_ & R' & E1 & E2 & H1).
    rewrite F1 in E1, E2, H1. exists R_, R'. split; [exact E1|]. split; [exact E2|]. intros k Hk. rewrite (H1 k Hk), F5. field.
Qed.
Print Assumptions C131_weight_meaning_refuted.
