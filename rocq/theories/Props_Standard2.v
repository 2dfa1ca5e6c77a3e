(** * Props_Standard2: C11, C43 (standard model), C50, C52, C53, C54. *)
From Coq Require Import Permutation.
From Verif Require Import Prelude ExtReal Arrays Spec_Basis Spec_Discrete M_Basis L_Basis M_Parents M_Discrete L_Discrete L_Minibatch
  Props_Discrete M_MeanField M_Standard Props_Network L_Standard Props_Standard.
Set Implicit Arguments.
Open Scope R_scope.

(* ------------------------------------------------------------------ *)
(** ** C11, standard model *)

Theorem C11_standard_minibatch_invariance :
  forall m s f n m1 m2, (0 < n)%Z ->
  s_add_data m s f None = Ok m1 -> s_add_data m s f (Some n) = Ok m2 ->
  (forall ks, (s_log_likelihood m2 All ks = s_log_likelihood m1 All ks)) /\
  exists ps d, sm_data m1 = sm_data m ++ [d] /\ sm_data m2 = sm_data m ++ ps /\
    concat (map (fun p => map (fun t => sd_S p t) (seq 0 (sd_T p))) ps) = map (fun t => sd_S d t) (seq 0 (sd_T d)) /\
    concat (map (fun p => map (fun t => sd_F p t) (seq 0 (sd_T p))) ps) = map (fun t => sd_F d t) (seq 0 (sd_T d)) /\
    (forall p, In p ps -> (Z.of_nat (sd_T p) <= n)%Z).
Proof.
  intros m s f n m1 m2 Hn E1 E2.
  apply s_add_data_inv in E1 as (T & F & ps1 & Es & HT & HK & Hc & EF & Eb & ->).
  apply s_add_data_inv in E2 as (T2 & F2 & ps2 & Es2 & _ & _ & _ & EF2 & Eb2 & ->).
  assert (T2 = T). { rewrite Es in Es2. now injection Es2. } subst T2.
  assert (F2 = F).
  { destruct f; [congruence|]. destruct EF as (A1 & B1 & C1 & _). destruct EF2 as (A2 & B2 & C2 & _). rewrite B1 in B2. injection B2 as ->. congruence. }
  subst F2. clear EF EF2.
  set (S_ := sv_at s) in *. cbn [s_batches] in Eb. injection Eb as <-.
  set (mk := fun on : nat * nat => {| sd_T := snd on; sd_S := slice2 (fst on) S_; sd_F := slice2 (fst on) F |}).
  assert (Eps : ps2 = map mk (pieces_of T (Z.to_nat n))).
  { unfold s_batches in Eb2. destruct (Z.eqb_spec n 0); [lia|]. destruct (Z.ltb_spec n 0); [lia|]. injection Eb2 as <-.
    unfold pieces_of. now rewrite map_map. }
  subst ps2. clear Eb2.
  assert (Htile := @pieces_tile T (Z.to_nat n) ltac:(lia)).
  assert (Hcat : forall {X} (h : nat -> X),
     concat (map (fun on => map (fun t => h (fst on + t)%nat) (seq 0 (snd on))) (pieces_of T (Z.to_nat n)))
     = map h (seq 0 T)).
  { intros X h. rewrite <- Htile, <- concat_map_map. f_equal. apply map_ext. intros [o len]. cbn [fst snd].
    rewrite (seq_shift_add o len), map_map. reflexivity. }
  set (d := {| sd_T := T; sd_S := S_; sd_F := F |}).
  split.
  - intros ks. set (m2 := sm_with_data m (sm_data m ++ map mk _)). set (m1 := sm_with_data m (sm_data m ++ [d])).
    assert (Eks : s_ks m2 ks = s_ks m1 ks) by reflexivity.
    destruct (s_ks m1 ks) as [l|e] eqn:El.
    + rewrite (@s_ll_all m2 ks l), (@s_ll_all m1 ks l) by auto. f_equal. unfold m2, m1. cbn [sm_data sm_with_data]. fold m1 m2.
      rewrite !map_app, !elsum_app. f_equal. cbn [map elsum]. rewrite eadd_0_r, map_map.
      unfold s_ll_data. cbn [sd_T mk d].
      set (h := fun t => elsum (map (fun k => s_ll_cell (sm_dt m) S_ t k (s_rate (sm_P m) (sm_w m k) d t)) l)).
      transitivity (elsum (map h (seq 0 T))); [|now rewrite elsum_map_seq].
      rewrite <- Htile, elsum_concat_map, map_map. apply elsum_map_ext. intros [o len] _. cbn [fst snd mk sd_T].
      rewrite (seq_shift_add o len), map_map, elsum_map_seq. apply esum_ext. intros t Ht. reflexivity.
    + (* both raise the same error: at least one data set on each side *)
      assert (Hraise : forall mm, sm_data mm <> [] -> s_ks mm ks = Raise e -> s_log_likelihood mm All ks = Raise e).
      { intros mm Hne Ek. unfold s_log_likelihood, s_indices. destruct (sm_data mm) as [|d0 ds] eqn:Ed; [congruence|].
        cbn [length seq map]. rewrite (@s_data_at_nat mm 0 d0) by (rewrite Ed; reflexivity). cbn [bindr]. rewrite Ek. reflexivity. }
      rewrite (Hraise m1), (Hraise m2); auto.
      * unfold m2. cbn [sm_data sm_with_data]. intros H. apply app_eq_nil in H as (_ & H). apply map_eq_nil in H.
        rewrite H in Htile. cbn in Htile. destruct T; [lia|discriminate].
      * unfold m1. cbn [sm_data sm_with_data]. intros H. apply app_eq_nil in H as (_ & H). discriminate.
  - exists (map mk (pieces_of T (Z.to_nat n))), d.
    split; [reflexivity|]. split; [reflexivity|]. split; [|split].
    + rewrite map_map. apply (Hcat _ (fun t => S_ t)).
    + rewrite map_map. apply (Hcat _ (fun t => F t)).
    + intros p Hp. apply in_map_iff in Hp as ([o len] & <- & Hin). cbn. unfold pieces_of in Hin.
      apply in_map_iff in Hin as (o' & Eo & _). injection Eo as <- <-. lia.
Qed.
Print Assumptions C11_standard_minibatch_invariance.

Example C11_standard_nonvacuous :
  exists m1 m2, s_add_data ex_sm (sval_of 3 2 ex_S) None None = Ok m1 /\
    s_add_data ex_sm (sval_of 3 2 ex_S) None (Some 2%Z) = Ok m2 /\ map sd_T (sm_data m2) = [2%nat; 1%nat].
Proof.
  destruct (@s_add_data_ok ex_sm 3 ex_S ltac:(cbn; lia) ltac:(cbn; lia) ltac:(cbn; lia) ltac:(cbn; lia) ex_counts None ltac:(discriminate)) as (m1 & E1).
  destruct (@s_add_data_ok ex_sm 3 ex_S ltac:(cbn; lia) ltac:(cbn; lia) ltac:(cbn; lia) ltac:(cbn; lia) ex_counts (Some 2%Z) ltac:(discriminate)) as (m2 & E2).
  exists m1, m2. split; [exact E1|]. split; [exact E2|].
  apply s_add_data_inv in E2 as (T & F & ps & Ed & _ & _ & _ & _ & Eb & ->). cbn [sval_of sv_dims] in Ed. injection Ed as <-.
  injection Eb as <-. reflexivity.
Qed.

(* ------------------------------------------------------------------ *)
(** ** C43, standard model *)

Lemma sm_with_data_same m : sm_with_data m (sm_data m) = m. Proof. destruct m; reflexivity. Qed.

(** heldout_log_likelihood returns (or raises) exactly what a model holding only the held-out data would, and leaves
    the model as it was, also when it raises. *)
Theorem C43_standard_heldout :
  forall m s, snd (s_heldout m s) = m /\
  fst (s_heldout m s) = (do m1 <- s_add_data (sm_with_data m []) s None None ;; s_log_likelihood m1 All KNone).
Proof.
  intros m s. unfold s_heldout.
  assert (Eadd : s_add_data (sm_with_data m []) s None None
    = match s_add_data m s None None with Ok m1 => Ok (sm_with_data m (skipn (length (sm_data m)) (sm_data m1))) | Raise e => Raise e end).
  { unfold s_add_data. cbn [sm_K sm_L sm_B sm_bas sm_data sm_with_data]. destruct (check_S (sm_K m) s) as [T|e]; cbn [bindr]; [|reflexivity].
    destruct (convolve_with_basis T (sm_K m) (sv_at s) (sm_L m) (sm_B m) (sm_bas m)) as [F|e]; cbn [bindr]; [|reflexivity].
    destruct (Nat.eqb (sm_B m) 0); cbn [bindr]; [reflexivity|].
    cbn [s_batches bindr sm_data sm_with_data]. now rewrite skipn_app, skipn_all, Nat.sub_diag. }
  rewrite Eadd. destruct (s_add_data m s None None) as [m1|e] eqn:E; cbn [bindr fst snd]; [|auto].
  apply s_add_data_inv in E as (T & F & ps & _ & _ & HK & _ & _ & Eb & ->). cbn [s_batches] in Eb. injection Eb as <-.
  cbn [sm_data sm_with_data]. set (d := {| sd_T := T; sd_S := sv_at s; sd_F := F |}).
  rewrite skipn_app, skipn_all, Nat.sub_diag. cbn [skipn app].
  rewrite (@s_ll_all (sm_with_data m [d]) KNone (seq 0 (sm_K m))) by now apply (s_ks_none (sm_with_data m [d])).
  assert (El : s_log_likelihood (sm_with_data m (sm_data m ++ [d])) (One (-1)) KNone = Ok (s_ll_data m (seq 0 (sm_K m)) d)).
  { unfold s_log_likelihood. cbn [s_indices]. assert (Ed : s_data_at (sm_with_data m (sm_data m ++ [d])) (-1) = Ok d).
    { unfold s_data_at. cbn [sm_data sm_with_data]. rewrite app_length. cbn [length].
      assert (Ep : py_index (length (sm_data m) + 1) (-1) = Some (length (sm_data m))).
      { unfold py_index. destruct (Z.leb_spec 0 (-1)); [lia|]. cbn [andb].
        destruct (Z.leb_spec 0 (Z.of_nat (length (sm_data m) + 1) + -1)); [|lia].
        destruct (Z.ltb_spec (-1) 0); [|lia]. cbn [andb]. f_equal. lia. }
      rewrite Ep, nth_error_app2, Nat.sub_diag by lia. reflexivity. }
    rewrite Ed. cbn [bindr]. rewrite (s_ks_none (sm_with_data m (sm_data m ++ [d]))) by exact HK. cbn [bindr s_ll_sum].
    rewrite Ed. cbn [bindr]. now rewrite eadd_0_l. }
  rewrite El. cbn [fst snd sm_data sm_with_data]. split.
  - rewrite removelast_last. exact (sm_with_data_same m).
  - f_equal. cbn [map elsum]. now rewrite eadd_0_r.
Qed.
Print Assumptions C43_standard_heldout.

(* ------------------------------------------------------------------ *)
(** ** C50 *)

(** With two or more processes initialize_with_gibbs_model always raises (and writes nothing: the model only has a new
    state when it returns). *)
Theorem C50_always_raises_refuted :
  forall m n, dm_K n = sm_K m -> dm_B n = sm_B m -> (2 <= sm_K m)%nat -> s_init_gibbs m n = Raise ValueError.
Proof.
  intros m n H1 H2 H3. unfold s_init_gibbs. rewrite H1, H2, !Nat.eqb_refl. cbn [guard bindr].
  destruct (sm_K m) as [|[|k]]; [lia|lia|reflexivity].
Qed.
Print Assumptions C50_always_raises_refuted.

(** With one process (and self-connections allowed) the rates agree on every data set. *)
Theorem C50_one_process_partial :
  forall m n, dm_K n = 1%nat -> sm_K m = 1%nat -> dm_B n = sm_B m -> sm_allow m = true -> (0 < sm_B m)%nat ->
  sm_L m = dm_L n -> sm_bas m = dm_bas n -> (0 < sm_L m)%nat ->
  exists m', s_init_gibbs m n = Ok m' /\
  forall T S_, (0 < T)%nat -> counts T 1 S_ ->
  exists m2 cols, s_add_data m' (sval_of T 1 S_) None None = Ok m2 /\ s_compute_rate m2 (Some (-1)%Z) KNone = Ok (T, cols) /\
    length cols = 1%nat /\ forall t, (t < T)%nat -> nth 0 cols (fun _ => 0) t = net_rate n S_ t 0.
Proof.
  intros m n Hn Hm HB Ha HB0 HL Hbas HL0. unfold s_init_gibbs. rewrite Hn, Hm, HB, !Nat.eqb_refl, Ha. cbn [Nat.eqb guard bindr].
  eexists. split; [reflexivity|]. intros T S_ HT Hc.
  set (m' := sm_with_w m _).
  destruct (@s_add_data_ok m' T S_ HT ltac:(cbn; lia) ltac:(cbn; lia) ltac:(cbn; lia)) with (mb := @None Z) as (m2 & E); [cbn; now rewrite Hm|discriminate|].
  replace (sm_K m') with 1%nat in E by (symmetry; exact Hm).
  exists m2. pose proof E as E2.
  apply s_add_data_inv in E as (T' & F & ps & Ed & _ & _ & _ & (F0 & EF0 & -> & _) & Eps & ->).
  cbn [sval_of sv_dims] in Ed. injection Ed as <-. cbn [s_batches] in Eps. injection Eps as <-.
  set (d := {| sd_T := T; sd_S := S_; sd_F := flatten_F (sm_B m) F0 |}).
  change (sv_at (sval_of T 1 S_)) with S_ in *. change (flatten_F (sm_B m') F0) with (flatten_F (sm_B m) F0) in *. fold d in E2. fold d.
  assert (Edat : s_data_at (sm_with_data m' (sm_data m' ++ [d])) (-1) = Ok d).
  { unfold s_data_at. cbn [sm_data sm_with_data]. rewrite app_length. cbn [length].
    assert (Ep : py_index (length (sm_data m') + 1) (-1) = Some (length (sm_data m'))).
    { unfold py_index. destruct (Z.leb_spec 0 (-1)); [lia|]. cbn [andb].
      destruct (Z.leb_spec 0 (Z.of_nat (length (sm_data m') + 1) + -1)); [|lia].
      destruct (Z.ltb_spec (-1) 0); [|lia]. cbn [andb]. f_equal. lia. }
    rewrite Ep, nth_error_app2, Nat.sub_diag by lia. reflexivity. }
  unfold s_compute_rate. cbv iota. rewrite Edat. cbn [bindr].
  assert (Ek : s_ks (sm_with_data m' (sm_data m' ++ [d])) KNone = Ok [0%nat]).
  { unfold s_ks. cbn [sm_K sm_with_data m' sm_with_w]. rewrite Hm. reflexivity. }
  rewrite Ek. cbn [bindr map]. eexists. split; [exact E2|]. split; [reflexivity|]. split; [reflexivity|].
  intros t Ht. cbn [nth].
  change (sm_P (sm_with_data m' (sm_data m' ++ [d]))) with (sm_P m').
  rewrite s_rate_split by (auto; reflexivity). change (sm_K m') with (sm_K m). change (sm_B m') with (sm_B m). rewrite Hm.
  unfold net_rate, hawkes_rate. rewrite Hn, HB. f_equal. apply Rsum_ext; intros k1 Hk1. apply Rsum_ext; intros b Hb.
  cbn [sm_w sm_with_data m' sm_with_w Nat.eqb]. change (sm_B m') with (sm_B m) in *. cbn [sd_F d flatten_F Nat.add].
  cbv beta iota. change (sm_B m') with (sm_B m). rewrite div_idx, mod_idx by auto.
  change (sm_K m') with (sm_K m) in EF0. change (sm_L m') with (sm_L m) in EF0. change (sm_bas m') with (sm_bas m) in EF0.
  rewrite Hm in EF0.
  rewrite (@convolve_causal _ _ _ _ _ _ _ EF0) by auto. rewrite <- HL, <- Hbas.
  rewrite W_effective_net. ring.
Qed.
Print Assumptions C50_one_process_partial.

(* ------------------------------------------------------------------ *)
(** ** C54 *)

Theorem C54_not_callable_refuted :
  forall m, s_check_stability m = Raise AxisError /\ s_log_prior m KNone = Raise TypeError.
Proof. intros m. split; reflexivity. Qed.
Print Assumptions C54_not_callable_refuted.

(** With the processes given explicitly log_prior is the sum of the gamma log densities (up to their constants). *)
Theorem C54_log_prior_of_processes_partial :
  forall m l, (forall k, In k l -> (k < sm_K m)%nat) -> 1 <= sm_alpha m ->
  (forall k j, In k l -> (0 < j < sm_P m)%nat -> 0 < sm_w m k j) ->
  s_log_prior m (KArr l) = Ok (Fin (lsum (map (fun k =>
    Rsum (sm_K m * sm_B m) (fun i => (sm_alpha m - 1) * ln (sm_w m k (1 + i)%nat) - sm_beta m * sm_w m k (1 + i)%nat)) l))).
Proof.
  intros m l Hl Ha Hp. rewrite s_log_prior_arr by auto. rewrite s_prior_fin by exact Hp. do 2 f_equal. unfold prior_fin.
  apply lsum_map_ext. intros k Hk. replace (sm_P m - 1)%nat with (sm_K m * sm_B m)%nat by (unfold sm_P; lia).
  rewrite Rsum_minus, !Rsum_scal. cbn [Nat.add].
  destruct (Rltb 1 (sm_alpha m)) eqn:E; [ring|]. apply Rltb_false in E. assert (sm_alpha m = 1) by lra. rewrite H. ring.
Qed.
Print Assumptions C54_log_prior_of_processes_partial.
Example C54_partial_nonvacuous : (forall k, In k [0;1]%nat -> (k < sm_K ex_smd)%nat) /\ 1 <= sm_alpha ex_smd /\ (forall k j, In k [0;1]%nat -> (0 < j < sm_P ex_smd)%nat -> 0 < sm_w ex_smd k j).
Proof. split; [cbn; intros k [<-|[<-|[]]]; lia|]. split; [cbn; lra|]. intros; cbn; lra. Qed.

(* ------------------------------------------------------------------ *)
(** ** C53 *)

(** Events of process k and observation time over a data list. *)
Definition total_events (ds : list sdata) (k : nat) : R := lsum (map (fun d => Rsum (sd_T d) (fun t => IZR (sd_S d t k))) ds).
Definition total_time (dt : R) (ds : list sdata) : R := dt * lsum (map (fun d => INR (sd_T d)) ds).
(** Homogeneous Poisson log likelihood of n events in time T at rate r (0 ln 0 = 0). *)
Definition hom_loglik (n T r : R) : R := (if Req_EM_T n 0 then 0 else n * ln r) - r * T.

Theorem C53_background_rate :
  forall m, sm_data m <> [] ->
  let m' := s_init_background m in
  (forall k, s_bias m' k = total_events (sm_data m) k / total_time (sm_dt m) (sm_data m)) /\
  (forall k j, (0 < j)%nat -> sm_w m' k j = sm_w m k j) /\ sm_data m' = sm_data m.
Proof.
  intros m Hd. unfold s_init_background. destruct (sm_data m) as [|d ds] eqn:Ed; [contradiction|]. rewrite <- Ed.
  cbv zeta. split; [|split].
  - intros k. unfold s_bias. cbn [sm_w sm_with_w]. unfold total_events, total_time. f_equal.
    + apply lsum_map_ext. intros x _. now rewrite IZR_Zsum.
    + f_equal. rewrite lsum_map_scal_r. ring.
  - intros k j Hj. cbn [sm_w sm_with_w]. destruct j; [lia|reflexivity].
  - reflexivity.
Qed.
Print Assumptions C53_background_rate.

(** It maximises the homogeneous Poisson log likelihood over all positive rates. *)
Theorem C53_maximises_homogeneous :
  forall m k r, sm_data m <> [] -> 0 < total_time (sm_dt m) (sm_data m) -> 0 <= total_events (sm_data m) k -> 0 < r ->
  hom_loglik (total_events (sm_data m) k) (total_time (sm_dt m) (sm_data m)) r
  <= hom_loglik (total_events (sm_data m) k) (total_time (sm_dt m) (sm_data m)) (s_bias (s_init_background m) k).
Proof.
  intros m k r Hd HT HN Hr. rewrite (proj1 (@C53_background_rate m Hd)).
  set (n := total_events (sm_data m) k) in *. set (T := total_time (sm_dt m) (sm_data m)) in *. unfold hom_loglik.
  assert (E : n / T * T = n) by (field; lra). rewrite E.
  destruct (Req_EM_T n 0) as [Hn|Hn]; [rewrite Hn|].
  - assert (0 < r * T) by now apply Rmult_lt_0_compat. lra.
  - assert (Hnp : 0 < n) by lra. assert (Hq : 0 < n / T) by now apply Rdiv_lt_0_compat.
    pose proof (ln_tangent Hq Hr) as H. pose proof (Rmult_le_compat_l _ _ _ HN H) as H2.
    assert (E2 : n * ((r - n / T) / (n / T)) = r * T - n) by (field; lra). lra.
Qed.
Print Assumptions C53_maximises_homogeneous.

(** A process' homogeneous model: bias r, no couplings.  The library's own log_likelihood of process k for it is the
    homogeneous Poisson log likelihood, so with events present no homogeneous rate beats the initialised one. *)
Definition homogeneous (m : smodel) (r : R) : smodel := sm_with_w m (fun _ j => match j with O => r | _ => 0 end).
Theorem C53_log_likelihood :
  forall m k r, (k < sm_K m)%nat -> sm_data m <> [] -> (forall d t, In d (sm_data m) -> (t < sd_T d)%nat -> sd_F d t 0%nat = 1) ->
  0 < r -> s_log_likelihood (homogeneous m r) All (KInt k)
    = Ok (Fin (total_events (sm_data m) k * ln r - r * total_time (sm_dt m) (sm_data m))).
Proof.
  intros m k r Hk Hd H1 Hr.
  rewrite (@s_ll_all (homogeneous m r) (KInt k) [k]).
  2:{ unfold s_ks. cbn [sm_K homogeneous sm_with_w]. now rewrite (proj2 (Nat.ltb_lt _ _)). }
  f_equal. assert (Er : forall d t, In d (sm_data m) -> (t < sd_T d)%nat -> s_rate (sm_P m) (sm_w (homogeneous m r) k) d t = r).
  { intros d t Hin Ht. unfold s_rate, sm_P. cbn [Nat.add]. rewrite Rsum_S_l, H1 by auto. cbn [sm_w homogeneous sm_with_w].
    rewrite Rsum_0; [ring|]. intros; ring. }
  rewrite (@s_ll_fin (homogeneous m r) [k]).
  2:{ intros d t k' Hin Ht [<-|[]]. change (sm_P (homogeneous m r)) with (sm_P m). rewrite Er; auto. }
  f_equal. unfold ll_fin. cbn [sm_data homogeneous sm_with_w sm_dt]. fold (homogeneous m r).
  change (sm_P (homogeneous m r)) with (sm_P m). unfold total_events, total_time.
  rewrite <- (lsum_map_scal_r (ln r)).
  replace (r * (sm_dt m * lsum (map (fun d => INR (sd_T d)) (sm_data m)))) with (lsum (map (fun d => r * sm_dt m * INR (sd_T d)) (sm_data m))) by (rewrite lsum_map_scal; ring).
  rewrite <- lsum_map_minus. apply lsum_map_ext. intros d Hin. cbn [map lsum].
  rewrite (@Rsum_ext _ _ (fun t => IZR (sd_S d t k) * ln r - r * sm_dt m)).
  2:{ intros t Ht. fold (homogeneous m r). rewrite Er by auto. ring. }
  rewrite Rsum_minus, Rsum_scal_r, Rsum_const. ring.
Qed.
Print Assumptions C53_log_likelihood.

(** A silent process gets bias 0; under the initialised homogeneous model its log likelihood is NaN (0 * log 0), not the
    maximal value 0. *)
Theorem C53_silent_process_is_NaN_refuted :
  exists m k, (k < sm_K m)%nat /\ total_events (sm_data m) k = 0 /\ s_bias (s_init_background m) k = 0 /\
    s_log_likelihood (homogeneous m (s_bias (s_init_background m) k)) All (KInt k) = Ok NaN.
Proof.
  exists ex_smd, 1%nat. split; [cbn; lia|].
  assert (E0 : total_events (sm_data ex_smd) 1%nat = 0).
  { unfold total_events. cbn. lra. }
  assert (Eb : s_bias (s_init_background ex_smd) 1%nat = 0).
  { rewrite (proj1 (@C53_background_rate ex_smd ltac:(discriminate))), E0. unfold Rdiv. ring. }
  split; [exact E0|]. split; [exact Eb|]. rewrite Eb.
  rewrite (@s_ll_all (homogeneous ex_smd 0) (KInt 1) [1%nat]) by reflexivity. f_equal.
  change (sm_data (homogeneous ex_smd 0)) with [ex_sd]. cbn [map elsum]. rewrite eadd_0_r. unfold s_ll_data.
  apply esum_NaN with (i := 0%nat); [cbn; lia|]. cbn [map elsum]. rewrite eadd_0_r.
  assert (Er : s_rate (sm_P (homogeneous ex_smd 0)) (sm_w (homogeneous ex_smd 0) 1%nat) ex_sd 0%nat = 0).
  { unfold s_rate. apply Rsum_0. intros j Hj. cbn [sm_w homogeneous sm_with_w]. destruct j; ring. }
  rewrite Er. unfold s_ll_cell. rewrite elog_0. change (sd_S ex_sd 0%nat 1%nat) with 0%Z.
  unfold emul, einf_sign. rewrite (proj2 (Rltb_false 0 0)) by lra. reflexivity.
Qed.
Print Assumptions C53_silent_process_is_NaN_refuted.

Example C53_nonvacuous : sm_data ex_smd <> [] /\ 0 < total_time (sm_dt ex_smd) (sm_data ex_smd) /\ total_events (sm_data ex_smd) 0 = 2 /\
  (forall d t, In d (sm_data ex_smd) -> (t < sd_T d)%nat -> sd_F d t 0%nat = 1).
Proof.
  split; [discriminate|]. split; [unfold total_time; cbn; lra|]. split; [unfold total_events; cbn; lra|].
  intros d t [<-|[]] _. reflexivity.
Qed.

(* ------------------------------------------------------------------ *)
(** ** C52 *)

Lemma insertR_perm x l : Permutation (insertR x l) (x :: l).
Proof.
  induction l as [|y l IH]; cbn [insertR]; [reflexivity|]. destruct (Rleb x y); [reflexivity|].
  rewrite IH. apply perm_swap.
Qed.
Lemma sortR_perm l : Permutation (sortR l) l.
Proof. induction l as [|x l IH]; cbn [sortR]; [reflexivity|]. rewrite insertR_perm. now apply perm_skip. Qed.
Inductive sortedR : list R -> Prop :=
| so_nil : sortedR []
| so_cons x l : (forall y, In y l -> x <= y) -> sortedR l -> sortedR (x :: l).
Lemma insertR_sorted x l : sortedR l -> sortedR (insertR x l).
Proof.
  induction 1 as [|y l Hy Hs IH]; cbn [insertR]; [constructor; [intros ? []|constructor]|].
  destruct (Rleb x y) eqn:E.
  - apply Rleb_true in E. constructor; [|constructor; auto]. intros z [<-|Hz]; [auto|]. specialize (Hy z Hz). lra.
  - apply Rleb_false in E. constructor; [|exact IH]. intros z Hz. apply (Permutation_in _ (insertR_perm x l)) in Hz.
    destruct Hz as [<-|Hz]; [lra|auto].
Qed.
Lemma sortR_sorted l : sortedR (sortR l).
Proof. induction l as [|x l IH]; cbn [sortR]; [constructor|]. now apply insertR_sorted. Qed.
Lemma sorted_nth l : sortedR l -> forall i j, (i <= j < length l)%nat -> nth i l 0 <= nth j l 0.
Proof.
  induction 1 as [|x l Hx Hs IH]; intros i j Hij; [cbn in Hij; lia|].
  destruct i as [|i], j as [|j]; cbn [nth] in *; try lra.
  - apply Hx. apply nth_In. cbn in Hij. lia.
  - lia.
  - apply IH. cbn in Hij. lia.
Qed.

(** The percentile is at least some entry of the list. *)
Lemma percentile_ge l q thr : percentile l q = Ok thr -> exists x, In x l /\ x <= thr.
Proof.
  unfold percentile. destruct (Rltb q 0) eqn:E0; [discriminate|]. destruct (Rltb 100 q) eqn:E1; [discriminate|]. cbn [orb].
  apply Rltb_false in E0, E1. destruct l as [|a l']; [discriminate|]. set (l := a :: l') in *.
  assert (Hlen : (0 < length l)%nat) by (cbn; lia). clearbody l. cbv zeta. intros [= <-].
  set (v := INR (length l - 1) * (q / 100)). set (i := Z.to_nat (floorZ v)).
  assert (Hv : 0 <= v <= INR (length l - 1)).
  { pose proof (pos_INR (length l - 1)). unfold v. assert (0 <= q / 100 <= 1) by lra. nra. }
  pose proof (floorZ_spec v) as Hf.
  assert (Hfz : (0 <= floorZ v)%Z). { assert (-1 < floorZ v)%Z; [|lia]. apply lt_IZR. lra. }
  assert (Ei : INR i = IZR (floorZ v)). { unfold i. rewrite INR_IZR_INZ, Z2Nat.id by auto. reflexivity. }
  assert (Hi : (i <= length l - 1)%nat). { apply INR_le. rewrite Ei. lra. }
  exists (nth i (sortR l) 0). split.
  - apply (Permutation_in _ (sortR_perm l)). apply nth_In. rewrite (Permutation_length (sortR_perm l)). lia.
  - assert (Hmono : nth i (sortR l) 0 <= nth (Nat.min (i + 1) (length l - 1)) (sortR l) 0).
    { apply sorted_nth; [apply sortR_sorted|]. rewrite (Permutation_length (sortR_perm l)). lia. }
    assert (0 <= v - INR i) by (rewrite Ei; lra).
    assert (0 <= (v - INR i) * (nth (Nat.min (i + 1) (length l - 1)) (sortR l) 0 - nth i (sortR l) 0)) by (apply Rmult_le_pos; lra). lra.
Qed.
Lemma percentile_ok l q : l <> [] -> 0 <= q <= 100 -> exists thr, percentile l q = Ok thr.
Proof.
  intros Hl Hq. unfold percentile. rewrite (proj2 (Rltb_false q 0)), (proj2 (Rltb_false 100 q)) by lra. cbn [orb].
  destruct l; [contradiction|]. eexists; reflexivity.
Qed.
Lemma flat_mat_in K W x : In x (flat_mat K W) -> exists i j, (i < K)%nat /\ (j < K)%nat /\ x = W i j.
Proof.
  unfold flat_mat. intros H. apply in_flat_map in H as (i & Hi & H). apply in_map_iff in H as (j & <- & Hj).
  apply in_seq in Hi, Hj. exists i, j. repeat split; lia.
Qed.

Definition std_pos (m : smodel) : Prop := forall k j, (k < sm_K m)%nat -> (j < sm_P m)%nat -> 0 < sm_w m k j.
Lemma s_W_pos m k1 k2 : std_pos m -> (0 < sm_B m)%nat -> (k1 < sm_K m)%nat -> (k2 < sm_K m)%nat -> 0 < s_W m k1 k2.
Proof.
  intros Hp HB H1 H2. unfold s_W. apply Rsum_pos; [lia|]. intros b Hb. apply Hp; [auto|]. unfold sm_P. nia.
Qed.

(** Initialising from a standard model with positive weights: W strictly positive, impulse responses are probability
    vectors with entries at least 0.01/(1+0.01 B), biases copied, adjacency a threshold of W; the gamma-mixture model's
    variational parameters are all in their domain. *)
Theorem C52_valid_parameters :
  forall m K B mean_p, sm_K m = K -> sm_B m = B -> (0 < K)%nat -> (0 < B)%nat -> 0 <= mean_p <= 1 -> std_pos m ->
  exists ip m', init_from_std m K B mean_p = Ok (ip, m') /\
  (forall k, ip_lam ip k = s_bias m k) /\
  (forall i j, (i < K)%nat -> (j < K)%nat -> 0 < ip_W ip i j /\ ip_W ip i j = s_W m i j + / 10 ^ 6) /\
  (forall i j, (i < K)%nat -> (j < K)%nat -> Rsum B (fun b => ip_g ip i j b) = 1 /\
     forall b, (b < B)%nat -> / 10 ^ 2 / (1 + / 10 ^ 2 * INR B) <= ip_g ip i j b) /\
  (forall i j i' j', ip_A ip i j = true -> ip_W ip i j <= ip_W ip i' j' -> ip_A ip i' j' = true) /\
  (forall nu0, 0 < nu0 ->
     (forall k, 0 < mb_alpha (init_mf_bias ip) k /\ 0 < mb_beta (init_mf_bias ip) k) /\
     (forall i j, (i < K)%nat -> (j < K)%nat ->
        (exists p, w_p (init_mf_weights nu0 ip) i j = Fin p /\ 0 < p < 1) /\
        0 < w_kappa0 (init_mf_weights nu0 ip) i j /\ 0 < w_v0 (init_mf_weights nu0 ip) i j /\
        0 < w_kappa1 (init_mf_weights nu0 ip) i j /\ 0 < w_v1 (init_mf_weights nu0 ip) i j) /\
     (forall i j b, (i < K)%nat -> (j < K)%nat -> (b < B)%nat -> 0 < init_mf_gamma ip i j b)).
Proof.
  intros m K B mean_p HK HB HK0 HB0 Hp Hpos. unfold init_from_std. rewrite HK, HB, !Nat.eqb_refl. cbn [guard bindr].
  set (W := fun k1 k2 : nat => s_W m k1 k2 + / 10 ^ 6).
  destruct (@percentile_ok (flat_mat K W) ((1 - mean_p) * 100)) as (thr & Ethr).
  { unfold flat_mat. destruct K; [lia|]. cbn. discriminate. }
  { lra. }
  rewrite Ethr. cbn [bindr]. do 2 eexists. split; [reflexivity|]. cbn [ip_lam ip_W ip_g ip_A].
  assert (HW : forall i j, (i < K)%nat -> (j < K)%nat -> 0 < s_W m i j) by (intros; apply s_W_pos; lia || auto).
  set (g0 := fun k1 k2 b : nat => clip_lo (/ 10 ^ 2) (s_G m k1 k2 b)).
  assert (Hg0lo : forall i j b, / 10 ^ 2 <= g0 i j b) by (intros; apply Rmax_l).
  assert (HB1 : 1 <= INR B) by (apply (le_INR 1); lia).
  assert (Hg0sum : forall i j, (i < K)%nat -> (j < K)%nat -> 0 < Rsum B (fun b => g0 i j b) <= 1 + / 10 ^ 2 * INR B).
  { intros i j Hi Hj. split.
    - apply Rsum_pos; [lia|]. intros b Hb. specialize (Hg0lo i j b). lra.
    - assert (E1 : Rsum B (fun b => s_G m i j b) = 1).
      { unfold s_G. rewrite Rsum_div. unfold s_W at 1. rewrite HB. fold (s_W m i j).
        assert (Es : Rsum B (fun b => sm_w m j (1 + (i * B + b))%nat) = s_W m i j) by (unfold s_W; rewrite HB; reflexivity).
        rewrite Es. field. specialize (HW i j Hi Hj). lra. }
      rewrite <- E1, <- (Rmult_comm (INR B)), <- Rsum_const, <- Rsum_plus. apply Rsum_le. intros b Hb. unfold g0, clip_lo.
      assert (0 <= s_G m i j b).
      { unfold s_G. apply Rlt_le, Rdiv_lt_0_compat; [|now apply HW]. apply Hpos; [lia|]. unfold sm_P. nia. }
      apply Rmax_lub; lra. }
  assert (Hgb : forall i j b, (i < K)%nat -> (j < K)%nat -> (b < B)%nat -> / 10 ^ 2 / (1 + / 10 ^ 2 * INR B) <= g0 i j b / Rsum B (fun b => g0 i j b)).
  { intros i j b Hi Hj Hb. destruct (Hg0sum i j Hi Hj) as (Ha & Hb'). unfold Rdiv. apply Rmult_le_compat; [lra| |apply Hg0lo|].
    - apply Rlt_le, Rinv_0_lt_compat. lra.
    - now apply Rinv_le_contravar. }
  assert (Hlow : 0 < / 10 ^ 2 / (1 + / 10 ^ 2 * INR B)) by (apply Rdiv_lt_0_compat; lra).
  repeat split.
  - intros. unfold W. specialize (HW i j ltac:(auto) ltac:(auto)). lra.
  - destruct (Hg0sum i j ltac:(auto) ltac:(auto)) as (Ha & _). rewrite Rsum_div. field. exact (Rgt_not_eq _ _ Ha).
  - intros b Hb. now apply Hgb.
  - intros i j i' j' HA Hle. apply Rltb_true in HA. apply Rltb_true. exact (Rlt_le_trans _ _ _ HA Hle).
  - intros. cbn [init_mf_bias mb_alpha]. unfold clip_lo. eapply Rlt_le_trans; [|apply Rmax_l]. lra.
  - intros. cbn. lra.
  - exists (8 / 10 * b2R (Rltb thr (W i j)) + 2 / 10 * (1 - b2R (Rltb thr (W i j)))). split; [reflexivity|]. destruct (b2R_01 (Rltb thr (W i j))) as [E|E]; rewrite E; lra.
  - cbn [init_mf_weights w_kappa0 ip_W]. specialize (HW i j ltac:(auto) ltac:(auto)). unfold W. apply Rmult_lt_0_compat; lra.
  - cbn. lra.
  - cbn [init_mf_weights w_kappa1 ip_W]. specialize (HW i j ltac:(auto) ltac:(auto)). unfold W. lra.
  - cbn. lra.
  - intros i j b Hi Hj Hb. specialize (Hgb i j b Hi Hj Hb). change (0 < 100 * (g0 i j b / Rsum B (fun b => g0 i j b))). apply Rmult_lt_0_compat; [lra|]. eapply Rlt_le_trans; [exact Hlow|exact Hgb].
Qed.
Print Assumptions C52_valid_parameters.

(** ... but the weakest connection is always dropped, even when the network's edge probability is 1. *)
Theorem C52_some_edge_dropped :
  forall m K B mean_p ip m', (0 < K)%nat -> init_from_std m K B mean_p = Ok (ip, m') ->
  exists i j, (i < K)%nat /\ (j < K)%nat /\ ip_A ip i j = false.
Proof.
  intros m K B mean_p ip m' HK E. unfold init_from_std in E. apply bindr_ok in E as (u1 & _ & E). apply bindr_ok in E as (u2 & _ & E).
  cbv zeta in E. apply bindr_ok in E as (thr & Ethr & E). injection E as <- <-.
  apply percentile_ge in Ethr as (x & Hx & Hle). apply flat_mat_in in Hx as (i & j & Hi & Hj & ->).
  exists i, j. repeat split; auto. cbn [ip_A]. now apply Rltb_false.
Qed.
Print Assumptions C52_some_edge_dropped.

(** The standard model is not left unchanged: afterwards every block of its weights sums to one, so its W is all ones
    and a second initialisation from it gives the constant weight matrix 1 + 1e-6. *)
Theorem C52_standard_model_destroyed_refuted :
  forall m K B mean_p ip m' mean_p2 ip2 m2, (0 < B)%nat -> std_pos m ->
  init_from_std m K B mean_p = Ok (ip, m') ->
  init_from_std m' K B mean_p2 = Ok (ip2, m2) ->
  (forall i j, (i < K)%nat -> (j < K)%nat -> s_W m' i j = 1) /\
  (forall i j, (i < K)%nat -> (j < K)%nat -> ip_W ip2 i j = 1 + / 10 ^ 6).
Proof.
  intros m K B mean_p ip m' mean_p2 ip2 m2 HB0 Hpos E E2.
  unfold init_from_std in E. apply bindr_ok in E as (u1 & G1 & E). apply bindr_ok in E as (u2 & G2 & E).
  destruct (Nat.eqb_spec (sm_K m) K) as [HK|]; [|discriminate]. destruct (Nat.eqb_spec (sm_B m) B) as [HB|]; [|discriminate].
  cbv zeta in E. apply bindr_ok in E as (thr & Ethr & E). injection E as <- <-.
  assert (HW1 : forall i j, (i < K)%nat -> (j < K)%nat -> s_W (s_after_G m) i j = 1).
  { intros i j Hi Hj. unfold s_W at 1. cbn [s_after_G sm_B sm_w sm_with_w Nat.add].
    rewrite (@Rsum_ext _ _ (fun b => sm_w m j (S (i * sm_B m + b)) / s_W m i j)).
    2:{ intros b Hb. now rewrite div_idx. }
    rewrite Rsum_div. change (Rsum (sm_B m) (fun b => sm_w m j (S (i * sm_B m + b)))) with (s_W m i j). field.
    apply Rgt_not_eq. apply s_W_pos; auto; lia. }
  split; [exact HW1|].
  unfold init_from_std in E2. apply bindr_ok in E2 as (v1 & _ & E2). apply bindr_ok in E2 as (v2 & _ & E2).
  cbv zeta in E2. apply bindr_ok in E2 as (thr2 & _ & E2). injection E2 as <- <-.
  intros i j Hi Hj. cbn [ip_W]. now rewrite HW1.
Qed.
Print Assumptions C52_standard_model_destroyed_refuted.

(** A two-process standard model whose strongest connection is a self-connection. *)
Definition ex_std_w : mat := fun k j => match k, j with 0%nat, 1%nat => 4 | 0%nat, 2%nat => 2 | 1%nat, 1%nat => 3 | _, _ => 1 end.
Definition ex_std : smodel := sm_with_w ex_sm ex_std_w.
Lemma ex_std_pos : std_pos ex_std.
Proof. intros k j _ _. cbn. unfold ex_std_w. destruct k as [|[|k]], j as [|[|[|j]]]; lra. Qed.
Example C52_nonvacuous : exists ip m' ip2 m2, init_from_std ex_std 2 1 (1/2) = Ok (ip, m') /\ init_from_std m' 2 1 (1/2) = Ok (ip2, m2) /\
  std_pos ex_std /\ s_W ex_std 0%nat 0%nat <> s_W m' 0%nat 0%nat.
Proof.
  destruct (@C52_valid_parameters ex_std 2 1 (1/2) eq_refl eq_refl ltac:(lia) ltac:(lia) ltac:(lra) ex_std_pos) as (ip & m' & E & _).
  assert (Em : m' = s_after_G ex_std).
  { unfold init_from_std in E. apply bindr_ok in E as (u1 & _ & E). apply bindr_ok in E as (u2 & _ & E).
    cbv zeta in E. apply bindr_ok in E as (thr & Ethr & E). now injection E as <- <-. }
  assert (Hp' : std_pos m').
  { rewrite Em. intros k j Hk Hj. cbn [s_after_G sm_w sm_with_w]. destruct j as [|i]; [now apply ex_std_pos|].
    apply Rdiv_lt_0_compat; [now apply ex_std_pos|]. apply s_W_pos; [exact ex_std_pos|cbn; lia| |exact Hk].
    unfold sm_P in Hj. cbn in Hj. cbn [sm_B sm_K ex_std ex_sm sm_with_w]. rewrite Nat.div_1_r. lia. }
  destruct (@C52_valid_parameters m' 2 1 (1/2)) as (ip2 & m2 & E2 & _); [now rewrite Em|now rewrite Em|lia|lia|lra|exact Hp'|].
  exists ip, m', ip2, m2. split; [exact E|]. split; [exact E2|]. split; [exact ex_std_pos|].
  destruct (@C52_standard_model_destroyed_refuted ex_std 2 1 (1/2) ip m' (1/2) ip2 m2 ltac:(lia) ex_std_pos E E2) as (H1 & _).
  rewrite H1 by lia. unfold s_W. cbn. unfold ex_std_w. lra.
Qed.
