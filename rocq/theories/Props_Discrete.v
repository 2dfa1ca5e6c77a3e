(** * Props_Discrete: C04-C13 and C46, rates, simulation, likelihoods and data of
    the discrete-time network models. *)
From Coq Require Import Permutation.
From Verif Require Import Prelude ExtReal Arrays Spec_Basis Spec_Discrete M_Basis L_Basis Props_Basis
  M_Parents M_Discrete L_Discrete L_Minibatch.
Set Implicit Arguments.
Open Scope R_scope.

(** Specification: the rate of process k in bin t for counts [S_] under the
    parameters of model [m].  [net_weight m] is W masked by the adjacency matrix
    (spike and slab) or W itself (gamma mixture). *)
Definition net_rate (m : dmodel) (S_ : imat) (t k : nat) : R :=
  hawkes_rate (dm_K m) (dm_B m) (dm_lam m) (net_weight m) (dm_g m)
    (causal_conv (dm_L m) (dm_bas m) S_) t k.
(** A model with at least one process, basis function and lag. *)
Definition proper_dims (m : dmodel) : Prop := (0 < dm_K m /\ 0 < dm_B m /\ 0 < dm_L m)%nat.
(** Positive background, non-negative weights, impulse weights and basis. *)
Definition nonneg_params (m : dmodel) : Prop :=
  pos_vec (dm_K m) (dm_lam m) /\ nonneg_mat (dm_K m) (dm_W m) /\
  (forall k1 k2 b, (k1 < dm_K m)%nat -> (k2 < dm_K m)%nat -> (b < dm_B m)%nat -> 0 <= dm_g m k1 k2 b) /\
  (forall l b, (l < dm_L m)%nat -> (b < dm_B m)%nat -> 0 <= dm_bas m l b).

(** A two-process model used to show that hypotheses can be met: K = 2, B = 1,
    two lags (0, 1), dt = 1, one edge 0 -> 1 of weight 1/2. *)
Definition ex_m : dmodel :=
  {| dm_K := 2; dm_B := 1; dm_dt := 1; dm_L := 2; dm_L_int := true;
     dm_bas := fun l _ => if Nat.eqb l 1 then 1 else 0; dm_mix := false;
     dm_A := fun k1 k2 => (Nat.eqb k1 0 && Nat.eqb k2 1)%bool;
     dm_W := fun _ _ => 1/2; dm_g := fun _ _ _ => 1; dm_lam := fun _ => 1; dm_data := [] |}.
Definition ex_S : imat := fun t k => if (Nat.eqb t 0 && Nat.eqb k 0)%bool then 2%Z else 0%Z.
Lemma ex_proper : proper_dims ex_m. Proof. repeat split; cbn; lia. Qed.
Lemma ex_nonneg : nonneg_params ex_m.
Proof.
  repeat split; cbn.
  - intros k Hk. cbn. lra.
  - intros k1 k2 _ _. cbn. lra.
  - intros; lra.
  - intros l b _ _. destruct (Nat.eqb l 1); lra.
Qed.

(* ------------------------------------------------------------------ *)
(** ** C04 *)

(** Rate of counts passed in: every bin, every process. *)
Theorem C04_compute_rate :
  forall m index T S_, proper_dims m -> (0 < T)%nat ->
  exists R_, compute_rate m index (Some (sval_of T (dm_K m) S_)) None = Ok (T, R_) /\
  forall t k, (t < T)%nat -> (k < dm_K m)%nat -> R_ t k = net_rate m S_ t k.
Proof.
  intros m index T S_ (HK & HB & HL) HT.
  destruct (@convolve_ok T (dm_K m) S_ (dm_L m) (dm_B m) (dm_bas m)) as (F & E); auto.
  unfold compute_rate, rate_input, sval_of. cbn [sv_isarray negb sv_dims sv_at]. rewrite E. cbn [bindr].
  rewrite Nat.eqb_refl. cbn [bindr fst snd]. eexists; split; [reflexivity|].
  intros t k Ht Hk. rewrite rate_all_spec. unfold net_rate.
  rewrite (@hawkes_rate_W _ _ _ _ (net_weight m)) by (intros; apply W_effective_net).
  apply hawkes_rate_ext. intros. now apply (@convolve_causal _ _ _ _ _ _ _ E).
Qed.
Print Assumptions C04_compute_rate.

(** Rate for supplied filtered data. *)
Theorem C04_compute_rate_filtered :
  forall m index T S_ F,
  exists R_, compute_rate m index (Some (sval_of T (dm_K m) S_)) (Some (fval_of T (dm_K m) (dm_B m) F)) = Ok (T, R_) /\
  forall t k, (t < T)%nat -> (k < dm_K m)%nat ->
    R_ t k = hawkes_rate (dm_K m) (dm_B m) (dm_lam m) (net_weight m) (dm_g m) F t k.
Proof.
  intros m index T S_ F. unfold compute_rate, rate_input, sval_of, fval_of.
  cbn [sv_isarray negb sv_dims sv_at fv_dims fv_at]. rewrite dims_eqb_refl, Nat.eqb_refl. cbn [bindr fst snd].
  eexists; split; [reflexivity|]. intros t k Ht Hk. rewrite rate_all_spec.
  apply hawkes_rate_W. intros; apply W_effective_net.
Qed.
Print Assumptions C04_compute_rate_filtered.

(** A single process: exactly that column (Python indexing: -K <= proc < K), and
    any other index raises. *)
Theorem C04_compute_rate_proc :
  forall m index proc s f T R_,
  compute_rate m index s f = Ok (T, R_) ->
  ((- Z.of_nat (dm_K m) <= proc < Z.of_nat (dm_K m))%Z ->
   exists r, compute_rate_proc m index proc s f = Ok (T, r) /\
     forall t, r t = R_ t (Z.to_nat (if Z.ltb proc 0 then proc + Z.of_nat (dm_K m) else proc))) /\
  (~ (- Z.of_nat (dm_K m) <= proc < Z.of_nat (dm_K m))%Z ->
   exists e, compute_rate_proc m index proc s f = Raise e).
Proof.
  intros m index proc s f T R_ E. unfold compute_rate in E. unfold compute_rate_proc.
  destruct (rate_input m index s f) as [[T' F]|e]; [|discriminate]. cbn [bindr fst snd] in *.
  injection E as <- <-. split.
  - intros Hp. destruct (Z.ltb_spec proc (Z.of_nat (dm_K m))); [|lia]. cbn [negb].
    destruct (Z.ltb_spec proc 0) as [Hn|Hn].
    + unfold py_index. destruct (Z.leb_spec 0 proc); [lia|]. cbn [andb].
      destruct (Z.ltb_spec proc 0); [|lia]. destruct (Z.leb_spec 0 (Z.of_nat (dm_K m) + proc)); [|lia].
      cbn [andb]. eexists; split; [reflexivity|]. intros t. rewrite rate_all_spec, rate_proc_spec.
      now rewrite Z.add_comm.
    + unfold py_index. destruct (Z.leb_spec 0 proc); [|lia].
      destruct (Z.ltb_spec proc (Z.of_nat (dm_K m))); [|lia].
      cbn [andb]. eexists; split; [reflexivity|]. intros t. now rewrite rate_all_spec, rate_proc_spec.
  - intros Hp. destruct (Z.ltb_spec proc (Z.of_nat (dm_K m))); cbn [negb]; [|eauto].
    unfold py_index. destruct (Z.leb_spec 0 proc); [lia|]. cbn [andb].
    destruct (Z.leb_spec 0 (Z.of_nat (dm_K m) + proc)); [lia|]. rewrite andb_false_r. eauto.
Qed.
Print Assumptions C04_compute_rate_proc.

(** A concrete rate: two events of process 0 in bin 0 raise the rate of process 1
    in bin 1 from 1 to 2, and nothing else. *)
Example C04_nonvacuous :
  exists R_, compute_rate ex_m 0 (Some (sval_of 3 2 ex_S)) None = Ok (3%nat, R_) /\
  R_ 1%nat 1%nat = 2 /\ R_ 1%nat 0%nat = 1 /\ R_ 2%nat 1%nat = 1.
Proof.
  destruct (@C04_compute_rate ex_m 0 3 ex_S ex_proper) as (R_ & E & H); [lia|].
  exists R_. split; [exact E|].
  rewrite !H by (cbn; lia). unfold net_rate, hawkes_rate, causal_conv, net_weight, edge_weight, ex_S. cbn.
  repeat split; lra.
Qed.

(* ------------------------------------------------------------------ *)
(** ** C05 *)

Theorem C05_stored_rate :
  forall m T S_ m' F, proper_dims m ->
  add_data m (sval_of T (dm_K m) S_) None None = Ok m' ->
  convolve_with_basis T (dm_K m) S_ (dm_L m) (dm_B m) (dm_bas m) = Ok F ->
  let i := length (dm_data m) in
  exists R1 R2 R3,
    compute_rate m' (Z.of_nat i) None None = Ok (T, R1) /\
    compute_rate m' 0 (Some (sval_of T (dm_K m) S_)) None = Ok (T, R2) /\
    compute_rate m' 0 (Some (sval_of T (dm_K m) S_)) (Some (fval_of T (dm_K m) (dm_B m) F)) = Ok (T, R3) /\
    forall t k, (t < T)%nat -> (k < dm_K m)%nat -> R1 t k = R2 t k /\ R2 t k = R3 t k.
Proof.
  intros m T S_ m' F Hd E EF i. subst i.
  apply add_data_inv in E as (T' & F' & ps & Es & HT & HK & Hc & EF' & Eb & ->).
  cbn [sv_at sval_of] in Es. injection Es as <-. cbn [get_F sv_at sval_of] in EF'.
  rewrite EF in EF'. injection EF' as <-. cbn [batches] in Eb. injection Eb as <-.
  unfold compute_rate, rate_input. cbn [dm_data with_data sv_isarray negb sv_dims sval_of dm_K dm_B dm_L dm_bas sv_at fv_dims fval_of fv_at].
  rewrite EF. rewrite app_length. cbn [length].
  destruct (Z.ltb_spec (Z.of_nat (length (dm_data m))) (Z.of_nat (length (dm_data m) + 1))); [|lia].
  cbn [negb]. rewrite py_index_nat by lia. rewrite nth_error_app2, Nat.sub_diag by lia. cbn [nth_error bindr].
  rewrite dims_eqb_refl, Nat.eqb_refl. cbn [bindr fst snd mk_parents pa_T pa_F].
  do 3 eexists. repeat split.
Qed.
Print Assumptions C05_stored_rate.

(** Any stored data set, at any Python index: the rate of its filtered data. *)
Theorem C05_stored_rate_index :
  forall m i d, nth_error (dm_data m) i = Some d -> forall j,
  j = Z.of_nat i \/ j = (Z.of_nat i - Z.of_nat (length (dm_data m)))%Z ->
  exists R_, compute_rate m j None None = Ok (pa_T d, R_) /\
  forall t k, R_ t k = hawkes_rate (dm_K m) (dm_B m) (dm_lam m) (net_weight m) (dm_g m) (pa_F d) t k.
Proof.
  intros m i d Hi j Hj. assert (Hlt : (i < length (dm_data m))%nat) by (apply nth_error_Some; congruence).
  unfold compute_rate, rate_input. destruct (Z.ltb_spec j (Z.of_nat (length (dm_data m)))); [|lia]. cbn [negb].
  assert (Ej : py_index (length (dm_data m)) j = Some i).
  { destruct Hj as [->| ->]; [now apply py_index_nat|].
    replace (Z.of_nat i - Z.of_nat (length (dm_data m)))%Z with (- Z.of_nat (length (dm_data m) - i))%Z by lia.
    rewrite py_index_neg by lia. f_equal. lia. }
  rewrite Ej, Hi. cbn [bindr fst snd]. eexists; split; [reflexivity|].
  intros t k. rewrite rate_all_spec. apply hawkes_rate_W. intros; apply W_effective_net.
Qed.
Print Assumptions C05_stored_rate_index.

Theorem C05_bad_index_raises :
  forall m j, ~ (- Z.of_nat (length (dm_data m)) <= j < Z.of_nat (length (dm_data m)))%Z ->
  exists e, compute_rate m j None None = Raise e.
Proof.
  intros m j Hj. unfold compute_rate, rate_input.
  destruct (Z.ltb_spec j (Z.of_nat (length (dm_data m)))); cbn [negb bindr]; [|eauto].
  unfold py_index. destruct (Z.leb_spec 0 j); [lia|]. cbn [andb].
  destruct (Z.leb_spec 0 (Z.of_nat (length (dm_data m)) + j)); [lia|]. rewrite andb_false_r. cbn. eauto.
Qed.
Print Assumptions C05_bad_index_raises.

Lemma ex_counts : counts 3 2 ex_S.
Proof. intros t k _ _. unfold ex_S. destruct (Nat.eqb t 0 && Nat.eqb k 0)%bool; lia. Qed.
Lemma add_data_ok m T S_ mb ps F :
  (0 < T)%nat -> (0 < dm_K m)%nat -> counts T (dm_K m) S_ ->
  convolve_with_basis T (dm_K m) S_ (dm_L m) (dm_B m) (dm_bas m) = Ok F ->
  batches (dm_K m) (dm_B m) (dm_dt m) T S_ F mb = Ok ps ->
  add_data m (sval_of T (dm_K m) S_) None mb = Ok (with_data m (dm_data m ++ ps)).
Proof.
  intros HT HK Hc EF Eb. unfold add_data.
  rewrite (proj2 (check_S_ok (dm_K m) (sval_of T (dm_K m) S_) T)).
  2:{ repeat split; auto. }
  cbn [bindr get_F sv_at sval_of]. rewrite EF. cbn [bindr]. rewrite Eb. reflexivity.
Qed.
Example C05_nonvacuous :
  exists m' F, proper_dims ex_m /\ add_data ex_m (sval_of 3 2 ex_S) None None = Ok m' /\
    convolve_with_basis 3 2 ex_S 2 1 (dm_bas ex_m) = Ok F /\ length (dm_data m') = 1%nat.
Proof.
  destruct (@convolve_ok 3 2 ex_S 2 1 (dm_bas ex_m)) as (F & E); try lia.
  do 2 eexists. split; [apply ex_proper|]. split.
  - eapply (@add_data_ok ex_m 3 ex_S None); cbn; try lia; [apply ex_counts|exact E|reflexivity].
  - split; [exact E|reflexivity].
Qed.

(* ------------------------------------------------------------------ *)
(** ** C06 *)

Lemma generate_inv m pois keep T m' S_ R_ :
  generate m pois keep T = Ok (m', S_, R_) ->
  S_ = gs_S (gen_loop m pois T) /\ R_ = gs_R (gen_loop m pois T) /\
  (if keep then add_data m (sval_of T (dm_K m) S_) None None = Ok m' else m' = m).
Proof.
  unfold generate. destruct (dm_L_int m); cbn [negb]; [|discriminate].
  destruct (forall_lt _ _); cbn [negb]; [|discriminate].
  destruct keep.
  - destruct (add_data _ _ _ _) as [m1|] eqn:E; cbn [bindr]; [|discriminate].
    intros H. injection H as <- <- <-. auto.
  - intros H. injection H as <- <- <-. auto.
Qed.

(** For every outcome of the draws, the returned rates are those of compute_rate on
    the returned counts. *)
Theorem C06_generate_rate :
  forall m pois keep T m' S_ R_, proper_dims m -> (0 < T)%nat ->
  generate m pois keep T = Ok (m', S_, R_) ->
  exists R', compute_rate m 0 (Some (sval_of T (dm_K m) S_)) None = Ok (T, R') /\
  forall t k, (t < T)%nat -> (k < dm_K m)%nat -> R_ t k = R' t k.
Proof.
  intros m pois keep T m' S_ R_ Hd HT E. apply generate_inv in E as (-> & -> & _).
  destruct (@C04_compute_rate m 0 T (gs_S (gen_loop m pois T)) Hd HT) as (R' & E' & H).
  exists R'. split; [exact E'|]. intros t k Ht Hk. rewrite H by auto.
  rewrite gen_rate_is_filter by auto. unfold net_rate. apply hawkes_rate_W.
  intros; apply W_effective_net.
Qed.
Print Assumptions C06_generate_rate.

(** Each count is a draw with mean dt times the returned rate, provided the basis
    has no lag-0 effect (the default, allow_instantaneous=False, see C01). *)
Theorem C06_generate_draws_partial :
  forall m pois keep T m' S_ R_,
  (forall b, (b < dm_B m)%nat -> dm_bas m 0%nat b = 0) ->
  generate m pois keep T = Ok (m', S_, R_) ->
  forall t k, (t < T)%nat -> (k < dm_K m)%nat -> S_ t k = pois t k (dm_dt m * R_ t k).
Proof.
  intros m pois keep T m' S_ R_ H0 E t k Ht Hk. apply generate_inv in E as (-> & -> & _).
  destruct (@gen_loop_draw m pois T t k Ht) as [-> _]. f_equal.
  rewrite gen_draw_strict, gen_rate_is_filter by auto. f_equal. apply hawkes_rate_ext.
  intros k1 b Hk1 Hb. symmetry. now apply causal_strict, H0.
Qed.
Print Assumptions C06_generate_draws_partial.

(** With an instantaneous basis the draw does not use the returned rate: bin t is
    drawn before its own lag-0 effect is added. *)
Definition ex_inst : dmodel :=
  {| dm_K := 1; dm_B := 1; dm_dt := 1; dm_L := 1; dm_L_int := true;
     dm_bas := fun _ _ => 1; dm_mix := true; dm_A := fun _ _ => true;
     dm_W := fun _ _ => 1; dm_g := fun _ _ _ => 1; dm_lam := fun _ => 1; dm_data := [] |}.
Theorem C06_generate_draws_refuted :
  exists m pois T m' S_ R_, proper_dims m /\ nonneg_params m /\
  generate m pois false T = Ok (m', S_, R_) /\
  exists t k, (t < T)%nat /\ (k < dm_K m)%nat /\ S_ t k <> pois t k (dm_dt m * R_ t k).
Proof.
  exists ex_inst, (fun _ _ x => if Rltb x (3/2) then 1%Z else 5%Z), 1%nat.
  assert (E1 : Rltb ((0 + 1) * 1) (3/2) = true) by (apply Rltb_true; lra).
  unfold generate, ex_inst. cbn [dm_L_int negb].
  match goal with |- context [forall_lt ?n ?p] =>
    assert (Eb : forall_lt n p = true) end.
  { apply forall_lt_true; intros t Ht. apply forall_lt_true; intros k Hk. assert (t = 0%nat) by lia. subst t.
    cbn. rewrite E1. reflexivity. }
  rewrite Eb. cbn [negb]. do 3 eexists. split; [repeat split; cbn; lia|].
  split. { repeat split; cbn; try (intros; intros ?; intros; cbn); intros; lra. }
  split; [reflexivity|]. exists 0%nat, 0%nat. split; [lia|]. split; [cbn; lia|]. cbn. rewrite E1.
  match goal with |- context [Rltb ?x (3/2)] => assert (E2 : Rltb x (3/2) = false) end.
  { apply Rltb_false. unfold gen_H. cbn. lra. }
  rewrite E2. discriminate.
Qed.
Print Assumptions C06_generate_draws_refuted.

Example C06_nonvacuous :
  exists m' S_ R_, generate ex_m (fun _ _ _ => 1%Z) true 3 = Ok (m', S_, R_) /\
   (forall b, (b < dm_B ex_m)%nat -> dm_bas ex_m 0%nat b = 0) /\ R_ 1%nat 1%nat = 3/2.
Proof.
  destruct (@convolve_ok 3 2 (gs_S (gen_loop ex_m (fun _ _ _ => 1%Z) 3)) 2 1 (dm_bas ex_m)) as (F & EF); try lia.
  unfold generate. cbn [dm_L_int ex_m negb].
  match goal with |- context [forall_lt ?n ?p] => assert (Eb : forall_lt n p = true) end.
  { apply forall_lt_true; intros t Ht. apply forall_lt_true; intros k Hk.
    destruct t as [|[|[|]]]; try lia; reflexivity. }
  rewrite Eb. cbn [negb].
  erewrite (@add_data_ok ex_m 3 _ None _ F); cbn [dm_K ex_m]; try lia; [| |exact EF|reflexivity].
  - cbn [bindr]. do 3 eexists. split; [reflexivity|]. split; [intros; reflexivity|].
    cbn. unfold W_effective, gen_H. cbn. unfold W_effective. cbn. lra.
  - intros t k Ht Hk. destruct t as [|[|[|]]]; try lia; cbn; lia.
Qed.

(* ------------------------------------------------------------------ *)
(** ** C07 *)

(** Each count is a draw whose mean is dt times background plus the responses to
    strictly earlier bins (whatever the basis, the draws and the horizon); so the
    mean is a fixed function of the counts before t. *)
Theorem C07_generate_causal :
  forall m, exists mean : nat -> nat -> imat -> R,
  (forall t k S1 S2, (forall s k', (s < t)%nat -> (k' < dm_K m)%nat -> S1 s k' = S2 s k') ->
     mean t k S1 = mean t k S2) /\
  (forall t k S_, mean t k S_ = dm_dt m *
     hawkes_rate (dm_K m) (dm_B m) (dm_lam m) (net_weight m) (dm_g m)
       (strict_conv (dm_L m) (dm_bas m) S_) t k) /\
  forall pois keep T m' S_ R_, generate m pois keep T = Ok (m', S_, R_) ->
    forall t k, (t < T)%nat -> (k < dm_K m)%nat -> S_ t k = pois t k (mean t k S_).
Proof.
  intros m. exists (fun t k S_ => dm_dt m *
     hawkes_rate (dm_K m) (dm_B m) (dm_lam m) (net_weight m) (dm_g m)
       (strict_conv (dm_L m) (dm_bas m) S_) t k).
  split; [|split; [reflexivity|]].
  - intros t k S1 S2 H. f_equal. apply hawkes_rate_ext. intros k1 b Hk1 Hb.
    apply strict_conv_ext. intros; now apply H.
  - intros pois keep T m' S_ R_ E t k Ht Hk. apply generate_inv in E as (-> & -> & _).
    destruct (@gen_loop_draw m pois T t k Ht) as [-> _]. f_equal.
    rewrite gen_draw_strict by auto. f_equal. apply hawkes_rate_W. intros; apply W_effective_net.
Qed.
Print Assumptions C07_generate_causal.

(** Consequence: two runs (with any draws) that agree before t agree on the whole
    draw distribution of bin t; with the same generator they agree at t as well. *)
Theorem C07_prefix_determined :
  forall m pois1 pois2 T1 T2 keep1 keep2 m1 m2 S1 S2 R1 R2 n,
  generate m pois1 keep1 T1 = Ok (m1, S1, R1) ->
  generate m pois2 keep2 T2 = Ok (m2, S2, R2) ->
  (n <= T1)%nat -> (n <= T2)%nat ->
  (forall t k x, (t < n)%nat -> pois1 t k x = pois2 t k x) ->
  forall t k, (t < n)%nat -> (k < dm_K m)%nat -> S1 t k = S2 t k.
Proof.
  intros m pois1 pois2 T1 T2 keep1 keep2 m1 m2 S1 S2 R1 R2 n E1 E2 Hn1 Hn2 Hp.
  destruct (C07_generate_causal m) as (mean & Hm & _ & Hd).
  intros t. induction t as [t IH] using lt_wf_ind. intros k Ht Hk.
  rewrite (Hd _ _ _ _ _ _ E1 t k) by (auto; lia). rewrite (Hd _ _ _ _ _ _ E2 t k) by (auto; lia).
  rewrite Hp by auto. f_equal. apply Hm. intros s k' Hs Hk'. apply IH; auto; lia.
Qed.
Print Assumptions C07_prefix_determined.

(* ------------------------------------------------------------------ *)
(** ** C08 *)

Theorem C08_generate_keep :
  forall m pois keep T m' S_ R_,
  generate m pois keep T = Ok (m', S_, R_) ->
  (keep = false -> m' = m) /\
  (keep = true -> exists d, m' = with_data m (dm_data m ++ [d]) /\
     pa_T d = T /\ pa_K d = dm_K m /\ pa_B d = dm_B m /\ pa_dt d = dm_dt m /\
     (forall t k, pa_S d t k = S_ t k) /\
     (forall t k b, (t < T)%nat -> (k < dm_K m)%nat -> (b < dm_B m)%nat ->
        pa_F d t k b = causal_conv (dm_L m) (dm_bas m) S_ t k b)).
Proof.
  intros m pois keep T m' S_ R_ E. apply generate_inv in E as (_ & _ & E).
  split; intros ->; [exact E|].
  apply add_data_inv in E as (T' & F' & ps & Es & HT & HK & Hc & EF' & Eb & ->).
  cbn [sv_at sval_of] in Es. injection Es as <-. cbn [get_F sv_at sval_of] in EF'.
  cbn [batches] in Eb. injection Eb as <-. eexists; split; [reflexivity|]. cbn.
  repeat split. intros t k b Ht Hk Hb. now apply (@convolve_causal _ _ _ _ _ _ _ EF').
Qed.
Print Assumptions C08_generate_keep.
(** generate succeeds whenever every drawn count is in 0..999 (and basis.L is an int). *)
Theorem C08_generate_succeeds :
  forall m pois keep T, proper_dims m -> (0 < T)%nat -> dm_L_int m = true ->
  (forall t k x, (0 <= pois t k x < 1000)%Z) ->
  exists m' S_ R_, generate m pois keep T = Ok (m', S_, R_).
Proof.
  intros m pois keep T (HK & HB & HL) HT Hi Hp. unfold generate. rewrite Hi. cbn [negb].
  assert (Hc : forall t k, (t < T)%nat -> (0 <= gs_S (gen_loop m pois T) t k < 1000)%Z).
  { intros t k Ht. destruct (@gen_loop_draw m pois T t k Ht) as [-> _]. apply Hp. }
  match goal with |- context [forall_lt ?n ?p] => assert (Eb : forall_lt n p = true) end.
  { apply forall_lt_true; intros t Ht. apply forall_lt_true; intros k Hk. apply Z.ltb_lt, Hc; auto. }
  rewrite Eb. cbn [negb]. destruct keep; [|eauto].
  destruct (@convolve_ok T (dm_K m) (gs_S (gen_loop m pois T)) (dm_L m) (dm_B m) (dm_bas m)) as (F & EF); auto.
  erewrite add_data_ok; [|auto|auto| |exact EF|reflexivity].
  - cbn [bindr]. eauto.
  - intros t k Ht _. now apply Hc.
Qed.
Print Assumptions C08_generate_succeeds.

(* ------------------------------------------------------------------ *)
(** ** C09 *)

Theorem C09_heldout_log_likelihood :
  forall m T S_, proper_dims m -> (0 < T)%nat ->
  (forall t k, (t < T)%nat -> (k < dm_K m)%nat -> 0 < net_rate m S_ t k) ->
  heldout_log_likelihood m (sval_of T (dm_K m) S_) None
  = (Ok (Fin (poisson_loglik T (dm_K m) (dm_dt m) S_ (net_rate m S_))), m).
Proof.
  intros m T S_ Hd HT Hp. unfold heldout_log_likelihood. f_equal.
  destruct (@C04_compute_rate m 0 T S_ Hd HT) as (R_ & -> & H). cbn [bindr fst snd]. f_equal.
  unfold poisson_ll, poisson_loglik. apply esum_fin. intros t Ht. apply esum_fin. intros k Hk.
  cbn [sv_at sval_of]. rewrite H, elog_fin by auto. rewrite emul_fin, esub_fin. f_equal. ring.
Qed.
Print Assumptions C09_heldout_log_likelihood.

(** Whatever the argument (valid or not), nothing is stored and no parameter changes. *)
Theorem C09_no_side_effects :
  forall m s f, snd (heldout_log_likelihood m s f) = m.
Proof. reflexivity. Qed.
Print Assumptions C09_no_side_effects.

(** Supplying the filtered data gives the same value. *)
Theorem C09_filtered_same :
  forall m T S_ F, proper_dims m -> (0 < T)%nat ->
  convolve_with_basis T (dm_K m) S_ (dm_L m) (dm_B m) (dm_bas m) = Ok F ->
  heldout_log_likelihood m (sval_of T (dm_K m) S_) (Some (fval_of T (dm_K m) (dm_B m) F))
  = heldout_log_likelihood m (sval_of T (dm_K m) S_) None.
Proof.
  intros m T S_ F _ _ EF. unfold heldout_log_likelihood, compute_rate, rate_input.
  cbn [sv_isarray negb sv_dims sval_of sv_at fv_dims fval_of fv_at]. rewrite EF. cbn [bindr].
  rewrite dims_eqb_refl, Nat.eqb_refl. reflexivity.
Qed.
Print Assumptions C09_filtered_same.

(** Where the formula breaks: a process with rate 0 and no event contributes
    0 * log 0, and the answer is NaN instead of the likelihood. *)
Theorem C09_zero_rate_is_NaN_refuted :
  exists m T S_, proper_dims m /\ (0 < T)%nat /\ counts T (dm_K m) S_ /\
  (forall t k, (t < T)%nat -> (k < dm_K m)%nat -> 0 <= net_rate m S_ t k) /\
  heldout_log_likelihood m (sval_of T (dm_K m) S_) None = (Ok NaN, m).
Proof.
  set (m := {| dm_K := 1; dm_B := 1; dm_dt := 1; dm_L := 1; dm_L_int := true;
     dm_bas := fun _ _ => 0; dm_mix := true; dm_A := fun _ _ => true;
     dm_W := fun _ _ => 1; dm_g := fun _ _ _ => 1; dm_lam := fun _ => 0; dm_data := [] |}).
  exists m, 1%nat, (fun _ _ => 0%Z).
  assert (Hr : forall t k, net_rate m (fun _ _ => 0%Z) t k = 0).
  { intros t k. unfold net_rate, hawkes_rate. cbn [m dm_lam]. rewrite Rplus_0_l.
    apply Rsum_0; intros k1 _. apply Rsum_0; intros b _.
    replace (causal_conv (dm_L m) (dm_bas m) (fun _ _ => 0%Z) t k1 b) with 0; [ring|].
    symmetry. unfold causal_conv. apply Rsum_0. intros l _. destruct (Nat.ltb l (dm_L m)); ring. }
  assert (Hd : proper_dims m) by (repeat split; cbn; lia).
  split; [exact Hd|]. split; [lia|]. split; [intros ? ? _ _; lia|].
  split; [intros; rewrite Hr; lra|].
  unfold heldout_log_likelihood. f_equal.
  destruct (@C04_compute_rate m 0 1 (fun _ _ => 0%Z) Hd) as (R_ & E & H); [lia|]. rewrite E.
  cbn [bindr fst snd]. f_equal. unfold poisson_ll. apply (@esum_NaN 1 _ 0); [lia|].
  apply (@esum_NaN (dm_K m) _ 0); [cbn; lia|]. rewrite H, Hr by (cbn; lia). rewrite elog_0.
  cbn [sv_at sval_of]. unfold emul, einf_sign.
  replace (Rltb 0 0) with false by (symmetry; apply Rltb_false; lra). reflexivity.
Qed.
Print Assumptions C09_zero_rate_is_NaN_refuted.

(** Non-negative parameters with positive background give positive rates, so C09's
    hypothesis is met by every such model. *)
Lemma net_weight_nonneg m : nonneg_mat (dm_K m) (dm_W m) -> nonneg_mat (dm_K m) (net_weight m).
Proof.
  intros H k1 k2 H1 H2. unfold net_weight, edge_weight.
  destruct (dm_mix m); [auto|]. destruct (dm_A m k1 k2); [auto|lra].
Qed.
Lemma net_rate_pos m T S_ t k :
  nonneg_params m -> counts T (dm_K m) S_ -> (t < T)%nat -> (k < dm_K m)%nat -> 0 < net_rate m S_ t k.
Proof.
  intros (Hl & HW & Hg & Hb) Hc Ht Hk. unfold net_rate.
  eapply Rlt_le_trans; [apply (Hl k Hk)|]. apply hawkes_rate_ge. intros k1 b Hk1 Hb1.
  apply Rmult_le_pos; [apply Rmult_le_pos|].
  - now apply net_weight_nonneg.
  - now apply Hg.
  - apply causal_conv_nonneg; [intros; now apply Hb|]. intros s Hs. apply Hc; [lia|auto].
Qed.
Example C09_nonvacuous :
  proper_dims ex_m /\ forall t k, (t < 3)%nat -> (k < 2)%nat -> 0 < net_rate ex_m ex_S t k.
Proof.
  split; [apply ex_proper|]. intros. apply (@net_rate_pos ex_m 3); auto using ex_nonneg, ex_counts.
Qed.

(* ------------------------------------------------------------------ *)
(** ** C10 *)

(** The training likelihood of a stored data set. *)
Lemma training_ll m T S_ m' :
  nonneg_params m -> add_data m (sval_of T (dm_K m) S_) None None = Ok m' ->
  (forall t k, (t < T)%nat -> (k < dm_K m)%nat -> (S_ t k < 2 ^ 32)%Z) ->
  log_likelihood m' (One (Z.of_nat (length (dm_data m))))
  = Ok (Fin (Rsum (dm_K m) (fun k =>
      - dm_lam m k * INR T * dm_dt m
      - Rsum (dm_K m) (fun k1 => net_weight m k1 k * IZR (n_events T S_ k1))
      + Rsum T (fun t => IZR (S_ t k) * ln (net_rate m S_ t k))))).
Proof.
  intros Hn E Hfit.
  apply add_data_inv in E as (T' & F' & ps & Es & HT & HK & Hc & EF' & Eb & ->).
  cbn [sv_at sval_of] in Es. injection Es as <-. cbn [get_F sv_at sval_of] in EF'.
  cbn [batches] in Eb. injection Eb as <-. cbn [sv_at sval_of] in Hc |- *.
  set (p := mk_parents (dm_K m) (dm_B m) (dm_dt m) T S_ F').
  unfold log_likelihood. cbn [ll_sum]. rewrite (@ll_at_nat _ _ p).
  2:{ cbn [with_data dm_data]. rewrite nth_error_app2, Nat.sub_diag by lia. reflexivity. }
  cbn [bindr]. rewrite eadd_0_l. f_equal. unfold pa_ll. apply esum_fin. intros k Hk.
  change (params_of (with_data m (dm_data m ++ [p]))) with (params_of m).
  assert (Hrate : forall t, (t < T)%nat ->
     hawkes_rate (dm_K m) (dm_B m) (dm_lam m) (W_effective m) (dm_g m) F' t k = net_rate m S_ t k).
  { intros t Ht. unfold net_rate. rewrite (@hawkes_rate_W _ _ _ _ (net_weight m)) by (intros; apply W_effective_net).
    apply hawkes_rate_ext. intros. now apply (@convolve_causal _ _ _ _ _ _ _ EF'). }
  rewrite ll_single_fin; cbn [p mk_parents pa_K pa_B pa_T pa_S pa_F pa_dt params_of q_lam q_W q_g].
  - f_equal. f_equal; [f_equal|].
    + apply Rsum_ext; intros k1 Hk1. rewrite W_effective_net. unfold n_events. now rewrite IZR_Zsum.
    + apply Rsum_ext; intros t Ht. now rewrite Hrate.
  - intros t k' Ht Hk'. cbn in *. split; [now apply Hc|now apply Hfit].
  - exact Hk.
  - intros t Ht _. rewrite Hrate by auto. now apply (@net_rate_pos m T).
Qed.

(** The exact likelihood written in the same form: the filtered mass replaces the
    event counts. *)
Lemma exact_ll m T S_ :
  poisson_loglik T (dm_K m) (dm_dt m) S_ (net_rate m S_)
  = Rsum (dm_K m) (fun k =>
      - dm_lam m k * INR T * dm_dt m
      - Rsum (dm_K m) (fun k1 => net_weight m k1 k * Rsum (dm_B m) (fun b => dm_g m k1 k b *
           (dm_dt m * Rsum T (fun t => causal_conv (dm_L m) (dm_bas m) S_ t k1 b))))
      + Rsum T (fun t => IZR (S_ t k) * ln (net_rate m S_ t k))).
Proof.
  unfold poisson_loglik. rewrite Rsum_swap. apply Rsum_ext; intros k Hk.
  rewrite Rsum_minus. rewrite Rsum_scal.
  assert (E : Rsum T (fun t => net_rate m S_ t k)
     = INR T * dm_lam m k + Rsum (dm_K m) (fun k1 => net_weight m k1 k * Rsum (dm_B m) (fun b => dm_g m k1 k b *
           Rsum T (fun t => causal_conv (dm_L m) (dm_bas m) S_ t k1 b)))).
  { unfold net_rate, hawkes_rate. rewrite Rsum_plus, Rsum_const. f_equal.
    rewrite Rsum_swap. apply Rsum_ext; intros k1 _. rewrite Rsum_swap, <- Rsum_scal.
    apply Rsum_ext; intros b _. rewrite Rsum_scal. ring. }
  rewrite E.
  assert (E2 : Rsum (dm_K m) (fun k1 => net_weight m k1 k * Rsum (dm_B m) (fun b => dm_g m k1 k b *
           (dm_dt m * Rsum T (fun t => causal_conv (dm_L m) (dm_bas m) S_ t k1 b))))
     = dm_dt m * Rsum (dm_K m) (fun k1 => net_weight m k1 k * Rsum (dm_B m) (fun b => dm_g m k1 k b *
           Rsum T (fun t => causal_conv (dm_L m) (dm_bas m) S_ t k1 b)))).
  { rewrite <- Rsum_scal. apply Rsum_ext; intros k1 _. rewrite <- !Rsum_scal.
    apply Rsum_ext; intros b _. ring. }
  rewrite E2. ring.
Qed.

Theorem C10_training_bounds_exact :
  forall m T S_ m',
  nonneg_params m -> 0 < dm_dt m ->
  stochastic_g (dm_K m) (dm_B m) (dm_g m) ->
  normalised_basis (dm_dt m) (dm_L m) (dm_B m) (dm_bas m) ->
  (forall t k, (t < T)%nat -> (k < dm_K m)%nat -> (S_ t k < 2 ^ 32)%Z) ->
  add_data m (sval_of T (dm_K m) S_) None None = Ok m' ->
  let exact := poisson_loglik T (dm_K m) (dm_dt m) S_ (net_rate m S_) in
  exists ll, log_likelihood m' (One (Z.of_nat (length (dm_data m)))) = Ok (Fin ll) /\
    fst (heldout_log_likelihood m' (sval_of T (dm_K m) S_) None) = Ok (Fin exact) /\
    ll <= exact /\
    ((forall s k l b, (s < T)%nat -> (k < dm_K m)%nat -> (l < dm_L m)%nat -> (b < dm_B m)%nat ->
        (T <= s + l)%nat -> S_ s k <> 0%Z -> dm_bas m l b = 0) -> ll = exact).
Proof.
  intros m T S_ m' Hn Hdt Hg Hbas Hfit E exact.
  assert (Ell := @training_ll m T S_ m' Hn E Hfit).
  pose proof E as E0.
  apply add_data_inv in E0 as (T' & F' & ps & Es & HT & HK & Hc & EF' & Eb & ->).
  cbn [sv_at sval_of] in Es. injection Es as <-. cbn [get_F sv_at sval_of] in EF'. cbn [sv_at sval_of] in Hc.
  assert (Hd : proper_dims m).
  { destruct (dm_L m) eqn:EL. { rewrite convolve_empty in EF' by auto. discriminate. }
    destruct (dm_B m) eqn:EB. { rewrite convolve_empty in EF' by auto. discriminate. }
    unfold proper_dims. lia. }
  eexists. split; [exact Ell|]. split.
  { change (heldout_log_likelihood (with_data m (dm_data m ++ ps)) (sval_of T (dm_K m) S_) None)
      with (heldout_log_likelihood (with_data m (dm_data m ++ ps)) (sval_of T (dm_K (with_data m (dm_data m ++ ps))) S_) None).
    rewrite C09_heldout_log_likelihood; [reflexivity|exact Hd|exact HT|].
    intros t k Ht Hk. apply (@net_rate_pos m T); auto. }
  unfold exact. rewrite exact_ll.
  assert (Hmass : forall k1 b, (k1 < dm_K m)%nat -> (b < dm_B m)%nat ->
     let mass := dm_dt m * Rsum T (fun t => causal_conv (dm_L m) (dm_bas m) S_ t k1 b) in
     mass <= IZR (n_events T S_ k1) /\
     ((forall s l, (s < T)%nat -> (l < dm_L m)%nat -> (T <= s + l)%nat -> S_ s k1 <> 0%Z -> dm_bas m l b = 0) ->
       mass = IZR (n_events T S_ k1))).
  { intros k1 b Hk1 Hb mass. destruct (Hbas b Hb) as [Hb0 Hb1].
    destruct (@C03_filtered_mass T (dm_K m) S_ (dm_L m) (dm_B m) (dm_bas m) (dm_dt m) F' k1 b EF' Hk1 Hb Hdt Hb0 Hb1)
      as (H1 & H2 & _). { intros; now apply Hc. }
    assert (Em : Rsum T (fun t => F' t k1 b) = Rsum T (fun t => causal_conv (dm_L m) (dm_bas m) S_ t k1 b)).
    { apply Rsum_ext; intros t Ht. now apply (@convolve_causal _ _ _ _ _ _ _ EF'). }
    rewrite Em in H1, H2. split; [exact H1|]. intros H. now apply H2. }
  split.
  - apply Rsum_le; intros k Hk. apply Rplus_le_compat_r. apply Rplus_le_compat_l, Ropp_le_contravar.
    apply Rsum_le; intros k1 Hk1. apply Rmult_le_compat_l; [apply net_weight_nonneg; auto; apply Hn|].
    destruct (Hg k1 k Hk1 Hk) as [Hg0 Hg1].
    replace (IZR (n_events T S_ k1)) with (Rsum (dm_B m) (fun b => dm_g m k1 k b * IZR (n_events T S_ k1))).
    2:{ rewrite (Rsum_scal_r (dm_B m) (IZR (n_events T S_ k1)) (fun b => dm_g m k1 k b)), Hg1. ring. }
    apply Rsum_le; intros b Hb. apply Rmult_le_compat_l; [auto|]. now apply Hmass.
  - intros Htr. apply Rsum_ext; intros k Hk. do 2 f_equal.
    apply Rsum_ext; intros k1 Hk1. f_equal. destruct (Hg k1 k Hk1 Hk) as [Hg0 Hg1].
    transitivity (Rsum (dm_B m) (fun b => dm_g m k1 k b * IZR (n_events T S_ k1))).
    { rewrite (Rsum_scal_r (dm_B m) (IZR (n_events T S_ k1)) (fun b => dm_g m k1 k b)), Hg1. ring. }
    apply Rsum_ext; intros b Hb. f_equal. symmetry. apply Hmass; auto.
    intros s l Hs Hl Hsl Hne. now apply (Htr s k1 l b).
Qed.
Print Assumptions C10_training_bounds_exact.

(** The hypotheses are met, with a strict gap possible: the last event's response is lost. *)
Example C10_nonvacuous :
  nonneg_params ex_m /\ stochastic_g 2 1 (dm_g ex_m) /\ normalised_basis 1 2 1 (dm_bas ex_m) /\
  (exists m', add_data ex_m (sval_of 3 2 ex_S) None None = Ok m') /\
  (forall s k l b, (s < 3)%nat -> (k < 2)%nat -> (l < 2)%nat -> (b < 1)%nat -> (3 <= s + l)%nat ->
     ex_S s k <> 0%Z -> dm_bas ex_m l b = 0).
Proof.
  split; [apply ex_nonneg|]. split. { intros k1 k2 _ _. split; [intros; cbn; lra|cbn; lra]. }
  split. { intros b _. split; [|cbn; lra]. intros l _. cbn. destruct (Nat.eqb l 1); lra. }
  split. { destruct C05_nonvacuous as (m' & F & _ & E & _). eauto. }
  intros s k l b Hs Hk Hl Hb Hsl Hne. exfalso. apply Hne. unfold ex_S.
  destruct s; [lia|reflexivity].
Qed.

(* ------------------------------------------------------------------ *)
(** ** C11 *)

(** Splitting: same total log likelihood (all values, including infinities and NaN),
    and the pieces tile the data: concatenating their rows gives back the rows of
    S and F in order. *)
Theorem C11_network_minibatch_invariance :
  forall m s f n m1 m2, (0 < n)%Z ->
  add_data m s f None = Ok m1 -> add_data m s f (Some n) = Ok m2 ->
  log_likelihood m2 All = log_likelihood m1 All /\
  exists ps d, dm_data m1 = dm_data m ++ [d] /\ dm_data m2 = dm_data m ++ ps /\
    concat (map (fun p => map (fun t => pa_S p t) (seq 0 (pa_T p))) ps)
      = map (fun t => pa_S d t) (seq 0 (pa_T d)) /\
    concat (map (fun p => map (fun t => pa_F p t) (seq 0 (pa_T p))) ps)
      = map (fun t => pa_F d t) (seq 0 (pa_T d)) /\
    (forall p, In p ps -> (Z.of_nat (pa_T p) <= n)%Z).
Proof.
  intros m s f n m1 m2 Hn E1 E2.
  apply add_data_inv in E1 as (T & F & ps1 & Es & HT & HK & Hc & EF & Eb & ->).
  apply add_data_inv in E2 as (T2 & F2 & ps2 & Es2 & _ & _ & _ & EF2 & Eb2 & ->).
  assert (T2 = T). { rewrite Es in Es2. now injection Es2. } subst T2.
  rewrite EF in EF2. injection EF2 as <-.
  set (S_ := sv_at s) in *. cbn [batches] in Eb. injection Eb as <-.
  rewrite batches_pieces in Eb2 by auto. injection Eb2 as <-.
  set (mk := fun on : nat * nat => mk_parents (dm_K m) (dm_B m) (dm_dt m) (snd on) (slice2 (fst on) S_) (slice3 (fst on) F)).
  assert (Htile := @pieces_tile T (Z.to_nat n) ltac:(lia)).
  split.
  - rewrite !log_likelihood_all. f_equal. cbn [dm_data with_data].
    change (params_of (with_data m (dm_data m ++ map mk (pieces_of T (Z.to_nat n))))) with (params_of m).
    change (params_of (with_data m (dm_data m ++ [mk_parents (dm_K m) (dm_B m) (dm_dt m) T S_ F]))) with (params_of m).
    rewrite !map_app, !elsum_app. f_equal. cbn [map elsum]. rewrite eadd_0_r. unfold pa_ll.
    rewrite map_map.
    change (fun x => esum (pa_K (mk x)) (fun k => ll_single (mk x) (params_of m) k))
      with (fun x => esum (dm_K m) (fun k => ll_single (mk x) (params_of m) k)).
    rewrite elsum_esum_swap. apply esum_ext. intros k Hk. unfold mk. now apply tiles_ll.
  - exists (map mk (pieces_of T (Z.to_nat n))), (mk_parents (dm_K m) (dm_B m) (dm_dt m) T S_ F).
    split; [reflexivity|]. split; [reflexivity|]. cbn [mk_parents pa_T pa_S pa_F].
    assert (Hcat : forall {X} (h : nat -> X),
       concat (map (fun on => map (fun t => h (fst on + t)%nat) (seq 0 (snd on))) (pieces_of T (Z.to_nat n)))
       = map h (seq 0 T)).
    { intros X h. rewrite <- Htile, <- concat_map_map. f_equal. apply map_ext. intros [o len]. cbn [fst snd].
      rewrite (seq_shift_add o len), map_map. reflexivity. }
    split; [|split].
    + rewrite map_map. apply (Hcat _ (fun t => S_ t)).
    + rewrite map_map. apply (Hcat _ (fun t => F t)).
    + intros p Hp. apply in_map_iff in Hp as ([o len] & <- & Hin). cbn. unfold pieces_of in Hin.
      apply in_map_iff in Hin as (o' & Eo & _). injection Eo as <- <-. lia.
Qed.
Print Assumptions C11_network_minibatch_invariance.

Example C11_nonvacuous :
  exists m1 m2, add_data ex_m (sval_of 3 2 ex_S) None None = Ok m1 /\
    add_data ex_m (sval_of 3 2 ex_S) None (Some 2%Z) = Ok m2 /\ map pa_T (dm_data m2) = [2%nat; 1%nat].
Proof.
  destruct (@convolve_ok 3 2 ex_S 2 1 (dm_bas ex_m)) as (F & E); try lia.
  do 2 eexists. split; [|split].
  - eapply (@add_data_ok ex_m 3 ex_S None); cbn; try lia; [apply ex_counts|exact E|reflexivity].
  - eapply (@add_data_ok ex_m 3 ex_S (Some 2%Z)); cbn; try lia; [apply ex_counts|exact E|reflexivity].
  - reflexivity.
Qed.

(* ------------------------------------------------------------------ *)
(** ** C12 *)

(** Total = sum over stored data sets of log_likelihood(i). *)
Theorem C12_sum_over_data :
  forall m, exists l : nat -> er,
  (forall i, (i < length (dm_data m))%nat -> log_likelihood m (One (Z.of_nat i)) = Ok (l i)) /\
  log_likelihood m All = Ok (esum (length (dm_data m)) l).
Proof.
  intros m.
  destruct (dm_data m) as [|d0 rest] eqn:Ed.
  { exists (fun _ => Fin 0). split; [cbn; lia|]. rewrite log_likelihood_all, Ed. reflexivity. }
  rewrite <- Ed. exists (fun i => pa_ll (nth i (dm_data m) d0) (params_of m)). split.
  - intros i Hi. unfold log_likelihood. cbn [ll_sum].
    rewrite (@ll_at_nat m i (nth i (dm_data m) d0)) by now apply nth_error_nth'.
    cbn [bindr]. now rewrite eadd_0_l.
  - rewrite log_likelihood_all. f_equal. apply (elsum_map_nth (fun d => pa_ll d (params_of m))).
Qed.
Print Assumptions C12_sum_over_data.

(** A list of indices sums their values (with multiplicity); order is irrelevant. *)
Theorem C12_order_irrelevant :
  forall m d2, Permutation (dm_data m) d2 ->
  log_likelihood (with_data m d2) All = log_likelihood m All.
Proof.
  intros m d2 Hp. rewrite !log_likelihood_all. f_equal. cbn [dm_data with_data].
  change (params_of (with_data m d2)) with (params_of m).
  apply elsum_perm. symmetry. now apply Permutation_map.
Qed.
Print Assumptions C12_order_irrelevant.
Theorem C12_index_list :
  forall m l, (forall i, In i l -> (i < length (dm_data m))%nat) ->
  exists v : nat -> er,
  (forall i, In i l -> log_likelihood m (One (Z.of_nat i)) = Ok (v i)) /\
  log_likelihood m (Many (map Z.of_nat l)) = Ok (elsum (map v l)).
Proof.
  intros m l Hl. destruct (C12_sum_over_data m) as (v & Hv & _). exists v.
  split; [auto|]. unfold log_likelihood. induction l as [|i l IH]; [reflexivity|]. cbn [map ll_sum].
  pose proof (Hv i ltac:(apply Hl; now left)) as Hi. unfold log_likelihood in Hi. cbn [ll_sum] in Hi.
  destruct (ll_at m (Z.of_nat i)) as [x|]; [|discriminate]. cbn [bindr] in *. 
  assert (Hi' : eadd (Fin 0) x = v i) by congruence.
  rewrite ll_sum_acc, IH by (intros; apply Hl; now right). cbn [elsum]. now rewrite Hi'.
Qed.
Print Assumptions C12_index_list.

(** Each data set's value is a sum over processes of a term that sees only that
    process's background rate, incoming effective weights and incoming impulse
    weights. *)
Theorem C12_sum_over_processes :
  exists term : parents -> nat -> R -> (nat -> R) -> (nat -> nat -> R) -> er,
  forall m i d, nth_error (dm_data m) i = Some d ->
  log_likelihood m (One (Z.of_nat i))
  = Ok (esum (pa_K d) (fun k =>
      term d k (dm_lam m k) (fun k1 => net_weight m k1 k) (fun k1 b => dm_g m k1 k b))).
Proof.
  exists (fun d k lamk wk gk => ll_single d {| q_lam := fun _ => lamk; q_W := fun k1 _ => wk k1; q_g := fun k1 _ b => gk k1 b |} k).
  intros m i d Hd. unfold log_likelihood. cbn [ll_sum]. rewrite (@ll_at_nat m i d Hd). cbn [bindr].
  rewrite eadd_0_l. f_equal. unfold pa_ll. apply esum_ext; intros k Hk. unfold ll_single, row_rate.
  cbn [q_lam q_W q_g params_of]. f_equal; [f_equal; f_equal; f_equal|].
  - apply Rsum_ext; intros k1 _. now rewrite W_effective_net.
  - apply esum_ext; intros r Hr. f_equal. f_equal. f_equal. f_equal. apply Rsum_ext; intros k1 _.
    apply Rsum_ext; intros b _. now rewrite W_effective_net.
Qed.
Print Assumptions C12_sum_over_processes.

(* ------------------------------------------------------------------ *)
(** ** C13 *)

(** A stored data set whose filtered data are non-negative (as produced by add_data
    with a non-negative basis, C02, or supplied by the caller). *)
Definition nonneg_F (d : parents) : Prop :=
  forall t k b, (t < pa_T d)%nat -> (k < pa_K d)%nat -> (b < pa_B d)%nat -> 0 <= pa_F d t k b.

Lemma esum_efinite n f : (forall i, (i < n)%nat -> efinite (f i) = true) -> efinite (esum n f) = true.
Proof.
  induction n as [|n IH]; intros H; [reflexivity|]. cbn [esum].
  assert (H1 := IH ltac:(auto)). assert (H2 := H n ltac:(lia)).
  destruct (esum n f), (f n); try discriminate. reflexivity.
Qed.
Lemma elsum_efinite l : (forall x, In x l -> efinite x = true) -> efinite (elsum l) = true.
Proof.
  induction l as [|x l IH]; intros H; [reflexivity|]. cbn [elsum].
  assert (H1 := H x (or_introl eq_refl)). assert (H2 := IH ltac:(intros; apply H; now right)).
  destruct (elsum l), x; try discriminate. reflexivity.
Qed.

Lemma pa_ll_finite d m :
  nonneg_params m -> pa_K d = dm_K m -> pa_B d = dm_B m -> nonneg_F d ->
  efinite (pa_ll d (params_of m)) = true.
Proof.
  intros (Hl & HW & Hg & _) EK EB HF. unfold pa_ll. apply esum_efinite. intros k Hk. unfold ll_single.
  assert (E : efinite (esum (pa_Tk d k) (fun r => emul (Fin (IZR (pa_Ss d k r)))
      (elog (Fin (row_rate d (params_of m) k r))))) = true).
  { apply esum_efinite. intros r Hr. destruct (@pa_row_in d k r Hr) as [H1 _].
    rewrite elog_fin; [reflexivity|]. unfold row_rate. cbn [params_of q_lam q_W q_g].
    eapply Rlt_le_trans; [apply (Hl k); lia|].
    match goal with |- ?a <= ?a + ?x => assert (0 <= x); [|lra] end.
    apply Rsum_nonneg; intros k1 Hk1. apply Rsum_nonneg; intros b Hb.
    apply Rmult_le_pos; [apply Rmult_le_pos|].
    - rewrite W_effective_net. apply net_weight_nonneg; auto; lia.
    - apply Hg; lia.
    - apply HF; auto. }
  destruct (esum _ _); try discriminate. reflexivity.
Qed.

Theorem C13_training_finite :
  forall m, nonneg_params m ->
  (forall d, In d (dm_data m) -> pa_K d = dm_K m /\ pa_B d = dm_B m /\ nonneg_F d) ->
  exists ll, log_likelihood m All = Ok (Fin ll).
Proof.
  intros m Hn Hd. rewrite log_likelihood_all.
  assert (E : efinite (elsum (map (fun d => pa_ll d (params_of m)) (dm_data m))) = true).
  { apply elsum_efinite. intros x Hx. apply in_map_iff in Hx as (d & <- & Hin).
    destruct (Hd d Hin) as (H1 & H2 & H3). now apply pa_ll_finite. }
  destruct (elsum _) as [r| | |]; try discriminate. eauto.
Qed.
Print Assumptions C13_training_finite.

Theorem C13_heldout_finite :
  forall m T S_, proper_dims m -> nonneg_params m -> (0 < T)%nat -> counts T (dm_K m) S_ ->
  exists ll, fst (heldout_log_likelihood m (sval_of T (dm_K m) S_) None) = Ok (Fin ll).
Proof.
  intros m T S_ Hd Hn HT Hc. rewrite C09_heldout_log_likelihood; auto; [cbn; eauto|].
  intros. now apply (@net_rate_pos m T).
Qed.
Print Assumptions C13_heldout_finite.

(** Data added through add_data always satisfies the hypothesis. *)
Theorem C13_added_data_ok :
  forall m s mb m', nonneg_params m -> add_data m s None mb = Ok m' ->
  (forall d, In d (dm_data m) -> pa_K d = dm_K m /\ pa_B d = dm_B m /\ nonneg_F d) ->
  forall d, In d (dm_data m') -> pa_K d = dm_K m' /\ pa_B d = dm_B m' /\ nonneg_F d.
Proof.
  intros m s mb m' (_ & _ & _ & Hb) E Hold d Hin.
  apply add_data_inv in E as (T & F & ps & Es & HT & HK & Hc & EF & Eb & ->).
  cbn [with_data dm_data dm_K dm_B] in *. apply in_app_or in Hin as [Hin|Hin]; [auto|].
  assert (HF : forall t k b, (t < T)%nat -> (k < dm_K m)%nat -> (b < dm_B m)%nat -> 0 <= F t k b).
  { intros t k b Ht Hk Hb'. cbn [get_F] in EF. rewrite (@convolve_causal _ _ _ _ _ _ _ EF) by auto.
    apply causal_conv_nonneg; [auto|]. intros s' Hs'. apply Hc; [lia|auto]. }
  destruct mb as [n|]; cbn [batches] in Eb.
  - destruct (Z.eqb_spec n 0); [discriminate|]. destruct (Z.ltb_spec n 0).
    { injection Eb as <-. destruct Hin. }
    injection Eb as <-. apply in_map_iff in Hin as (o & <- & _). cbn. split; [auto|]. split; [auto|].
    intros t k b Ht Hk Hb'. cbn in *. unfold slice3. apply HF; auto. lia.
  - injection Eb as <-. destruct Hin as [<-|[]]. cbn. split; [auto|]. split; [auto|].
    intros t k b Ht Hk Hb'. cbn in *. auto.
Qed.
Print Assumptions C13_added_data_ok.
Example C13_nonvacuous : nonneg_params ex_m /\ counts 3 2 ex_S /\ proper_dims ex_m.
Proof. auto using ex_nonneg, ex_counts, ex_proper. Qed.

(* ------------------------------------------------------------------ *)
(** ** C46 *)

(** Atomicity and validity, on the statement-by-statement version that exposes the
    state left behind by an exception. *)
Theorem C46_add_data_atomic :
  forall m s f mb,
  let '(r, m') := add_data_st m s f mb in
  match r with
  | Raise _ => m' = m
  | Ok _ =>
    exists T ps, m' = with_data m (dm_data m ++ ps) /\
      sv_isarray s = true /\ sv_dims s = [T; dm_K m] /\ sv_isint s = true /\ (0 < T)%nat /\
      counts T (dm_K m) (sv_at s) /\
      (forall fv, f = Some fv -> fv_isarray fv = true /\ fv_dims fv = [T; dm_K m; dm_B m]) /\
      (forall p, In p ps -> pa_K p = dm_K m /\ pa_B p = dm_B m /\ pa_dt p = dm_dt m /\
          (pa_T p <= T)%nat /\ counts (pa_T p) (dm_K m) (pa_S p)) /\
      (mb = None -> exists p, ps = [p] /\ pa_T p = T /\ forall t k, pa_S p t k = sv_at s t k)
  end.
Proof.
  intros m s f mb. rewrite add_data_st_ok.
  destruct (add_data m s f mb) as [m'|e] eqn:E; [|reflexivity].
  apply add_data_inv in E as (T & F & ps & Es & HT & HK & Hc & EF & Eb & ->).
  exists T, ps. split; [reflexivity|]. rewrite Es at 1 2 3. cbn [sval_of sv_isarray sv_dims sv_isint].
  repeat (split; [solve [auto]|]). split.
  - intros fv ->. cbn [get_F] in EF. destruct (fv_isarray fv); cbn [andb] in EF; [|discriminate].
    destruct (dims_eqb _ _) eqn:Ed; [|discriminate]. split; [reflexivity|]. now apply dims_eqb_eq.
  - split.
    + intros p Hp. destruct mb as [n|]; cbn [batches] in Eb.
      * destruct (Z.eqb_spec n 0); [discriminate|]. destruct (Z.ltb_spec n 0).
        { injection Eb as <-. destruct Hp. }
        injection Eb as <-. apply in_map_iff in Hp as (o & <- & _). cbn. repeat (split; [solve [auto; lia]|]).
        intros t k Ht Hk. unfold slice2. apply Hc; auto. lia.
      * injection Eb as <-. destruct Hp as [<-|[]]. cbn. auto.
    + intros ->. cbn [batches] in Eb. injection Eb as <-. eexists. split; [reflexivity|]. auto.
Qed.
Print Assumptions C46_add_data_atomic.

(** Every invalid S is rejected: not an array, wrong shape, wrong dtype, or a
    negative entry. *)
Theorem C46_invalid_rejected :
  forall m s f mb,
  (sv_isarray s = false \/ (forall T, sv_dims s <> [T; dm_K m]) \/ sv_isint s = false \/
   (exists T t k, sv_dims s = [T; dm_K m] /\ (t < T)%nat /\ (k < dm_K m)%nat /\ (sv_at s t k < 0)%Z)) ->
  exists e, add_data_st m s f mb = (Raise e, m).
Proof.
  intros m s f mb H. rewrite add_data_st_ok. destruct (add_data m s f mb) as [m'|e] eqn:E; [|eauto].
  exfalso. apply add_data_inv in E as (T & F & ps & Es & HT & HK & Hc & _).
  destruct H as [H|[H|[H|(T' & t & k & Hdim & Ht & Hk & Hneg)]]].
  - rewrite Es in H. discriminate.
  - apply (H T). rewrite Es. reflexivity.
  - rewrite Es in H. discriminate.
  - rewrite Es in Hdim. cbn in Hdim. injection Hdim as <-. specialize (Hc t k Ht Hk). lia.
Qed.
Print Assumptions C46_invalid_rejected.

(** Conversely valid data is accepted, and a positive minibatch size keeps all of it. *)
Theorem C46_valid_accepted :
  forall m T S_ mb, proper_dims m -> (0 < T)%nat -> counts T (dm_K m) S_ ->
  (forall n, mb = Some n -> (0 < n)%Z) ->
  exists ps, add_data_st m (sval_of T (dm_K m) S_) None mb = (Ok tt, with_data m (dm_data m ++ ps)) /\
  concat (map (fun p => map (fun t => pa_S p t) (seq 0 (pa_T p))) ps) = map (fun t => S_ t) (seq 0 T).
Proof.
  intros m T S_ mb (HK & HB & HL) HT Hc Hmb.
  destruct (@convolve_ok T (dm_K m) S_ (dm_L m) (dm_B m) (dm_bas m)) as (F & EF); auto.
  assert (E0 := @add_data_ok m T S_ None _ F HT HK Hc EF eq_refl).
  destruct mb as [n|].
  - specialize (Hmb n eq_refl).
    assert (E1 := @add_data_ok m T S_ (Some n) _ F HT HK Hc EF (@batches_pieces _ _ _ _ _ _ _ Hmb)).
    destruct (@C11_network_minibatch_invariance m _ None n _ _ Hmb E0 E1) as (_ & ps & d & H1 & H2 & H3 & _).
    cbn [dm_data with_data] in H1, H2. apply app_inv_head in H1. injection H1 as <-.
    apply app_inv_head in H2. rewrite add_data_st_ok, E1, H2. exists ps. split; [reflexivity|exact H3].
  - rewrite add_data_st_ok, E0. eexists. split; [reflexivity|]. cbn. now rewrite app_nil_r.
Qed.
Print Assumptions C46_valid_accepted.

(** A negative minibatch size is accepted silently and stores nothing. *)
Theorem C46_negative_minibatch_drops_data_refuted :
  exists m s, add_data_st m s None (Some (-1)%Z) = (Ok tt, m) /\
    (exists T, sv_dims s = [T; dm_K m] /\ (0 < T)%nat).
Proof.
  exists ex_m, (sval_of 3 2 ex_S). split; [|exists 3%nat; split; [reflexivity|lia]].
  rewrite add_data_st_ok.
  destruct (@convolve_ok 3 2 ex_S 2 1 (dm_bas ex_m)) as (F & E); try lia.
  change (sval_of 3 2 ex_S) with (sval_of 3 (dm_K ex_m) ex_S).
  rewrite (@add_data_ok ex_m 3 ex_S (Some (-1)%Z) [] F); cbn [dm_K ex_m]; try lia;
    [|apply ex_counts|exact E|reflexivity].
  reflexivity.
Qed.
Print Assumptions C46_negative_minibatch_drops_data_refuted.
