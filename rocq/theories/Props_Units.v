(** * Props_Units: C122, the unit of time does not matter (discrete-time models). *)
From Coq Require Import FunctionalExtensionality.
From Verif Require Import Prelude ExtReal Arrays Spec_Basis Spec_Discrete Spec_Units M_Basis M_Parents M_Discrete M_Gibbs M_Network M_MeanField
  L_Basis L_Discrete L_Gibbs L_Parents L_Relabel Props_Discrete.
Set Implicit Arguments.
Open Scope R_scope.

(* ---------------- arithmetic ---------------- *)
Lemma Rsum_per n f c : Rsum n (fun i => f i / c) = Rsum n f / c.
Proof. unfold Rdiv. apply Rsum_scal_r. Qed.
Lemma div_per a b c : c <> 0 -> a / c / (b / c) = a / b.
Proof. intros H. unfold Rdiv. rewrite Rinv_mult, Rinv_inv. rewrite Rmult_assoc, (Rmult_comm (/ b)), <- (Rmult_assoc (/ c)), Rinv_l by exact H. ring. Qed.
Lemma einf_sign_pos a b p : (0 < a <-> 0 < b) -> (a < 0 <-> b < 0) -> einf_sign a p = einf_sign b p.
Proof.
  intros H1 H2. unfold einf_sign. replace (Rltb 0 a) with (Rltb 0 b); [replace (Rltb a 0) with (Rltb b 0); [reflexivity|]|].
  - destruct (Rltb b 0) eqn:E; symmetry; [apply Rltb_true in E|apply Rltb_false in E]; [apply Rltb_true; now apply H2|]. apply Rltb_false, Rnot_lt_le. intros X. apply H2 in X. lra.
  - destruct (Rltb 0 b) eqn:E; symmetry; [apply Rltb_true in E|apply Rltb_false in E]; [apply Rltb_true; now apply H1|]. apply Rltb_false, Rnot_lt_le. intros X. apply H1 in X. lra.
Qed.
Lemma mul_pos_iff c a : 0 < c -> (0 < c * a <-> 0 < a) /\ (c * a < 0 <-> a < 0).
Proof. intros H. repeat split; intros X; nra. Qed.
Lemma div_pos_iff c a : 0 < c -> (0 < a / c <-> 0 < a) /\ (a / c < 0 <-> a < 0).
Proof. intros H. unfold Rdiv. rewrite Rmult_comm. apply mul_pos_iff. now apply Rinv_0_lt_compat. Qed.
Lemma einf_sign_scale c a p : 0 < c -> einf_sign (c * a) p = einf_sign a p.
Proof. intros H. apply einf_sign_pos; apply mul_pos_iff; exact H. Qed.
Lemma Reqb_scale c a : 0 < c -> Reqb (c * a) 0 = Reqb a 0.
Proof.
  intros H. destruct (Reqb a 0) eqn:E; [apply Reqb_true in E; apply Reqb_true; subst; ring|]. apply Reqb_false in E. apply Reqb_false. intros X. apply E. nra.
Qed.
Lemma elog_per c a : 0 < c -> elog (Fin (a / c)) = esub (elog (Fin a)) (Fin (ln c)).
Proof.
  intros H. destruct (div_pos_iff a H) as [H1 H2]. unfold elog. destruct (Rltb 0 a) eqn:E.
  - apply Rltb_true in E. replace (Rltb 0 (a / c)) with true by (symmetry; apply Rltb_true; now apply H1). rewrite esub_fin. f_equal.
    unfold Rdiv. rewrite ln_mult by (auto; now apply Rinv_0_lt_compat). rewrite ln_Rinv by exact H. reflexivity.
  - apply Rltb_false in E. replace (Rltb 0 (a / c)) with false by (symmetry; apply Rltb_false, Rnot_lt_le; intros X; apply H1 in X; lra).
    replace (Reqb (a / c) 0) with (Reqb a 0); [now destruct (Reqb a 0)|].
    unfold Rdiv. rewrite Rmult_comm. symmetry. apply Reqb_scale. now apply Rinv_0_lt_compat.
Qed.
Lemma emul_shift s x l : emul (Fin s) (esub x (Fin l)) = esub (emul (Fin s) x) (Fin (s * l)).
Proof. destruct x as [a| | |]; cbn; [f_equal; ring| | |reflexivity]; unfold einf_sign; destruct (Rltb 0 s), (Rltb s 0); reflexivity. Qed.
Lemma emul_div_scale x c d y : 0 < c -> emul (ediv x (Fin (c * d))) (Fin (c * y)) = emul (ediv x (Fin d)) (Fin y).
Proof.
  intros H. destruct x as [a| | |]; cbn [ediv]; rewrite ?Reqb_scale by exact H.
  - destruct (Reqb d 0) eqn:E.
    + unfold einf_sign at 1 2. destruct (Rltb 0 a), (Rltb a 0); cbn [emul]; rewrite ?einf_sign_scale by exact H; reflexivity.
    + apply Reqb_false in E. cbn [emul]. f_equal. field. split; lra.
  - rewrite einf_sign_scale by exact H. destruct (Reqb d 0); [cbn [emul]; now apply einf_sign_scale|].
    unfold einf_sign at 1 2. destruct (Rltb 0 d), (Rltb d 0); cbn [emul]; rewrite ?einf_sign_scale by exact H; reflexivity.
  - rewrite einf_sign_scale by exact H. destruct (Reqb d 0); [cbn [emul]; now apply einf_sign_scale|].
    unfold einf_sign at 1 2. destruct (Rltb 0 d), (Rltb d 0); cbn [emul]; rewrite ?einf_sign_scale by exact H; reflexivity.
  - reflexivity.
Qed.
Lemma ediv_per x c d s : 0 < c -> 0 < d -> ediv x (emul (Fin (c * d)) s) = per_unit c (ediv x (emul (Fin d) s)).
Proof.
  intros Hc Hd. assert (Hcd : 0 < c * d) by nra.
  assert (E1 : einf_sign (c * d) true = PInf) by (unfold einf_sign; now replace (Rltb 0 (c * d)) with true by (symmetry; now apply Rltb_true)).
  assert (E2 : einf_sign d true = PInf) by (unfold einf_sign; now replace (Rltb 0 d) with true by (symmetry; now apply Rltb_true)).
  assert (E3 : einf_sign (c * d) false = NInf) by (unfold einf_sign; now replace (Rltb 0 (c * d)) with true by (symmetry; now apply Rltb_true)).
  assert (E4 : einf_sign d false = NInf) by (unfold einf_sign; now replace (Rltb 0 d) with true by (symmetry; now apply Rltb_true)).
  assert (Es : forall a p, per_unit c (einf_sign a p) = einf_sign a p) by (intros a p; unfold einf_sign; destruct (Rltb 0 a), (Rltb a 0), p; reflexivity).
  destruct s as [b| | |]; cbn [emul]; rewrite ?E1, ?E2, ?E3, ?E4; [|destruct x; cbn; try reflexivity; f_equal; unfold Rdiv; ring..].
  replace (c * d * b) with (c * (d * b)) by ring. destruct x as [a| | |]; cbn [ediv]; rewrite ?Reqb_scale by exact Hc.
  - destruct (Reqb (d * b) 0) eqn:E; [now rewrite Es|]. apply Reqb_false in E. cbn [per_unit]. f_equal. field. repeat split; try lra. intros X. apply E. rewrite X. ring.
  - destruct (Reqb (d * b) 0); [reflexivity|]. now rewrite einf_sign_scale, Es.
  - destruct (Reqb (d * b) 0); [reflexivity|]. now rewrite einf_sign_scale, Es.
  - reflexivity.
Qed.

(* ---------------- the basis ---------------- *)
Lemma arange_len_scale c stop step : 0 < c -> step <> 0 -> arange_len (c * stop) (c * step) = arange_len stop step.
Proof. intros H Hs. unfold arange_len. f_equal. f_equal. field. split; lra. Qed.
Lemma linspace_scale c stop L i : linspace 0 (c * stop) L i = c * linspace 0 stop L i.
Proof. unfold linspace, Rdiv. destruct (Nat.eqb L 1); ring. Qed.
Lemma interp_idx_scale c xp x n : 0 < c -> interp_idx (fun i => c * xp i) (c * x) n = interp_idx xp x n.
Proof.
  intros H. induction n as [|n IH]; [reflexivity|]. cbn [interp_idx]. rewrite IH.
  replace (Rleb (c * xp (S n)) (c * x)) with (Rleb (xp (S n)) x); [reflexivity|].
  destruct (Rleb (xp (S n)) x) eqn:E; symmetry; [apply Rleb_true in E; apply Rleb_true|apply Rleb_false in E; apply Rleb_false]; nra.
Qed.
Lemma interp_scale c L xp fp x : 0 < c -> interp L (fun i => c * xp i) fp (c * x) = interp L xp fp x.
Proof.
  intros H. unfold interp. rewrite interp_idx_scale by exact H.
  replace (Rltb (c * x) (c * xp 0%nat)) with (Rltb x (xp 0%nat)).
  2:{ destruct (Rltb x (xp 0%nat)) eqn:E; symmetry; [apply Rltb_true in E; apply Rltb_true|apply Rltb_false in E; apply Rltb_false]; nra. }
  set (j := interp_idx xp x (L - 1)). rewrite <- !Rmult_minus_distr_l, emul_div_scale by exact H. reflexivity.
Qed.

(** C122 (basis): built with both time constants in the new unit, a normalised basis has the same lags and columns and is
    the same density per new unit. *)
Theorem C122_cosine_basis : forall c B dt dt_max inst n_eye a b L, 0 < c -> 0 < dt ->
  match CosineBasis B dt dt_max true inst n_eye a b L, CosineBasis B (c * dt) (c * dt_max) true inst n_eye a b L with
  | Ok o, Ok o' => bt_rows (bo_tab o') = bt_rows (bo_tab o) /\ bt_cols (bo_tab o') = bt_cols (bo_tab o) /\ bo_L_int o' = bo_L_int o /\
      forall l j, bt_at (bo_tab o') l j = per_unit c (bt_at (bo_tab o) l j)
  | Raise e, Raise e' => e = e'
  | _, _ => False
  end.
Proof.
  intros c B dt dt_max inst n_eye a b L Hc Hdt. unfold CosineBasis.
  destruct (create_cosine_basis L B n_eye a b true) as [cb|e]; cbn [bindr]; [|reflexivity].
  cbn [bo_tab bo_L_int]. unfold interpolate_basis. rewrite arange_len_scale by lra.
  assert (Ei : forall (f : nat -> er) i, interp (bt_rows cb) (fun i0 => linspace 0 (c * dt_max) (bt_rows cb) i0) f (INR i * (c * dt))
             = interp (bt_rows cb) (fun i0 => linspace 0 dt_max (bt_rows cb) i0) f (INR i * dt)).
  { intros f i. rewrite <- (@interp_scale c (bt_rows cb) (fun i0 => linspace 0 dt_max (bt_rows cb) i0)) by exact Hc.
    replace (INR i * (c * dt)) with (c * (INR i * dt)) by ring. f_equal. apply functional_extensionality. intros i0. apply linspace_scale. }
  assert (En : forall i j, ediv (interp (bt_rows cb) (fun i0 => linspace 0 (c * dt_max) (bt_rows cb) i0) (fun l => bt_at cb l j) (INR i * (c * dt)))
        (emul (Fin (c * dt)) (esum (arange_len dt_max dt) (fun i' => interp (bt_rows cb) (fun i0 => linspace 0 (c * dt_max) (bt_rows cb) i0) (fun l => bt_at cb l j) (INR i' * (c * dt)))))
      = per_unit c (ediv (interp (bt_rows cb) (fun i0 => linspace 0 dt_max (bt_rows cb) i0) (fun l => bt_at cb l j) (INR i * dt))
        (emul (Fin dt) (esum (arange_len dt_max dt) (fun i' => interp (bt_rows cb) (fun i0 => linspace 0 dt_max (bt_rows cb) i0) (fun l => bt_at cb l j) (INR i' * dt)))))).
  { intros i j. rewrite Ei. rewrite (@esum_ext _ _ (fun i' => interp (bt_rows cb) (fun i0 => linspace 0 dt_max (bt_rows cb) i0) (fun l => bt_at cb l j) (INR i' * dt))) by (intros i' _; apply Ei).
    now apply ediv_per. }
  destruct inst; cbn [bt_rows bt_cols bt_at]; (split; [reflexivity|]); (split; [reflexivity|]); (split; [reflexivity|]); intros l j.
  - apply En.
  - destruct l as [|l]; [cbn; f_equal; unfold Rdiv; ring|apply En].
Qed.
Print Assumptions C122_cosine_basis.

Theorem C122_identity_basis : forall c dt dt_max inst, 0 < c -> 0 < dt ->
  match IdentityBasis dt dt_max true inst, IdentityBasis (c * dt) (c * dt_max) true inst with
  | Ok o, Ok o' => bt_rows (bo_tab o') = bt_rows (bo_tab o) /\ bt_cols (bo_tab o') = bt_cols (bo_tab o) /\ bo_L_int o' = bo_L_int o /\
      forall l j, bt_at (bo_tab o') l j = per_unit c (bt_at (bo_tab o) l j)
  | Raise e, Raise e' => e = e'
  | _, _ => False
  end.
Proof.
  intros c dt dt_max inst Hc Hdt. unfold IdentityBasis. replace (c * dt_max / (c * dt)) with (dt_max / dt) by (field; split; lra).
  destruct (Z.ltb _ 0); [reflexivity|]. destruct (negb _); [reflexivity|]. cbn [bo_tab bo_L_int bt_rows bt_cols bt_at].
  split; [reflexivity|]. split; [reflexivity|]. split; [reflexivity|]. intros l j. now apply ediv_per.
Qed.
Print Assumptions C122_identity_basis.

(* ---------------- rates and data ---------------- *)
Section MODEL.
Variables (c : R) (m : dmodel).
Hypothesis Hc : 0 < c.

Lemma un_convolve T K S_ L B bas :
  convolve_with_basis T K S_ L B (fun l b => bas l b / c) = result_map (fun F t k b => F t k b / c) (convolve_with_basis T K S_ L B bas).
Proof.
  assert (Hi : 0 < / c) by now apply Rinv_0_lt_compat.
  assert (EF : forall t k b, conv_full T L (fun s => IZR (S_ s k)) (fun l => bas l b / c) t = conv_full T L (fun s => IZR (S_ s k)) (fun l => bas l b) t / c).
  { intros t k b. unfold conv_full. rewrite <- Rsum_per. apply Rsum_ext. intros l _. destruct (_ && _)%bool; unfold Rdiv; ring. }
  assert (Er : forall x, Rleb 0 (x / c) = Rleb 0 x).
  { intros x. destruct (Rleb 0 x) eqn:E; [apply Rleb_true in E; apply Rleb_true|apply Rleb_false in E; apply Rleb_false]; unfold Rdiv; nra. }
  assert (Ec : forall x, clip_lo 0 (x / c) = clip_lo 0 x / c).
  { intros x. unfold clip_lo, Rmax. destruct (Rle_dec 0 (x / c)) as [H1|H1], (Rle_dec 0 x) as [H2|H2]; try reflexivity; unfold Rdiv in *; try ring; exfalso; nra. }
  unfold convolve_with_basis. destruct (_ || _)%bool; [reflexivity|].
  replace (forall_lt L (fun l => forall_lt B (fun b => Rleb 0 (bas l b / c)))) with (forall_lt L (fun l => forall_lt B (fun b => Rleb 0 (bas l b)))).
  2:{ apply forall_lt_ext. intros l _. apply forall_lt_ext. intros b _. now rewrite Er. }
  destruct (_ && _)%bool; cbn [result_map].
  - replace (forall_lt T (fun t => forall_lt K (fun k => forall_lt B (fun b => Rleb 0 (clip_lo 0 (conv_full T L (fun s => IZR (S_ s k)) (fun l => bas l b / c) t))))))
      with (forall_lt T (fun t => forall_lt K (fun k => forall_lt B (fun b => Rleb 0 (clip_lo 0 (conv_full T L (fun s => IZR (S_ s k)) (fun l => bas l b) t)))))).
    2:{ apply forall_lt_ext. intros t _. apply forall_lt_ext. intros k _. apply forall_lt_ext. intros b _. now rewrite EF, Ec, Er. }
    destruct (forall_lt T _); cbn [result_map]; [|reflexivity]. f_equal. repeat (apply functional_extensionality; intros ?). now rewrite EF, Ec.
  - f_equal. repeat (apply functional_extensionality; intros ?). apply EF.
Qed.

Lemma un_rate_all F t k : rate_all (model_in c m) (fun t k b => F t k b / c) t k = rate_all m F t k / c.
Proof.
  unfold rate_all. cbn [model_in dm_lam dm_B dm_K dm_g]. change (W_effective (model_in c m)) with (W_effective m).
  rewrite Rdiv_plus_distr, <- Rsum_per. f_equal; [unfold Rdiv; ring|]. apply Rsum_ext. intros b _. rewrite <- Rsum_per. apply Rsum_ext. intros k1 _. unfold Rdiv. ring.
Qed.
Lemma un_rate_proc F t k : rate_proc (model_in c m) (fun t k b => F t k b / c) t k = rate_proc m F t k / c.
Proof.
  unfold rate_proc. cbn [model_in dm_lam dm_B dm_K dm_g]. change (W_effective (model_in c m)) with (W_effective m).
  rewrite Rdiv_plus_distr, <- Rsum_per. f_equal; [unfold Rdiv; ring|]. apply Rsum_ext. intros b _. rewrite <- Rsum_per. apply Rsum_ext. intros k1 _. unfold Rdiv. ring.
Qed.
Lemma un_data_len : length (dm_data (model_in c m)) = length (dm_data m).
Proof. cbn. apply map_length. Qed.
Lemma un_nth i : nth_error (dm_data (model_in c m)) i = option_map (data_in c) (nth_error (dm_data m) i).
Proof. cbn [model_in dm_data]. apply nth_error_map. Qed.
Lemma un_rate_input index s : rate_input (model_in c m) index s None = result_map (fun TF => (fst TF, fun t k b => snd TF t k b / c)) (rate_input m index s None).
Proof.
  unfold rate_input. destruct s as [s|].
  - destruct (negb (sv_isarray s)); [reflexivity|]. destruct (sv_dims s) as [|T [|K' [|]]]; try reflexivity.
    cbn [model_in dm_L dm_B dm_bas dm_K]. rewrite un_convolve. destruct (convolve_with_basis _ _ _ _ _ _); cbn [bindr result_map]; [|reflexivity].
    destruct (Nat.eqb K' (dm_K m)); reflexivity.
  - rewrite un_data_len. destruct (negb _); [reflexivity|]. destruct (py_index _ _); [|reflexivity].
    rewrite un_nth. destruct (nth_error (dm_data m) n); reflexivity.
Qed.

(** C122 (rates): per new unit of time. *)
Theorem C122_rates : forall index s,
  compute_rate (model_in c m) index s None = result_map (fun TR => (fst TR, fun t k => snd TR t k / c)) (compute_rate m index s None) /\
  forall proc, compute_rate_proc (model_in c m) index proc s None = result_map (fun TR => (fst TR, fun t => snd TR t / c)) (compute_rate_proc m index proc s None).
Proof.
  intros index s. split.
  - unfold compute_rate. rewrite un_rate_input. destruct (rate_input m index s None) as [[T F]|e]; cbn [bindr result_map fst snd]; [|reflexivity].
    f_equal. f_equal. repeat (apply functional_extensionality; intros ?). apply un_rate_all.
  - intros proc. unfold compute_rate_proc. rewrite un_rate_input. destruct (rate_input m index s None) as [[T F]|e]; cbn [bindr result_map fst snd]; [|reflexivity].
    cbn [model_in dm_K]. destruct (negb _); [reflexivity|]. destruct (py_index _ _); [|reflexivity]. cbn [result_map fst snd].
    f_equal. f_equal. apply functional_extensionality; intros t. apply un_rate_proc.
Qed.

(** C122 (data): the same data sets are accepted, and stored as the same data in the new unit. *)
Theorem C122_add_data : forall s mb, add_data (model_in c m) s None mb = result_map (model_in c) (add_data m s None mb).
Proof.
  intros s mb. unfold add_data. cbn [model_in dm_K]. destruct (check_S (dm_K m) s) as [T|e]; cbn [bindr result_map]; [|reflexivity].
  unfold get_F. cbn [model_in dm_K dm_L dm_B dm_bas]. rewrite un_convolve. destruct (convolve_with_basis _ _ _ _ _ _) as [F|e]; cbn [bindr result_map]; [|reflexivity].
  cbn [model_in dm_dt dm_data].
  assert (E : batches (dm_K m) (dm_B m) (c * dm_dt m) T (sv_at s) (fun t k b => F t k b / c) mb
            = result_map (map (data_in c)) (batches (dm_K m) (dm_B m) (dm_dt m) T (sv_at s) F mb)).
  { unfold batches. destruct mb as [n|]; [|reflexivity]. destruct (Z.eqb n 0); [reflexivity|]. destruct (Z.ltb n 0); [reflexivity|].
    cbn [result_map]. rewrite map_map. reflexivity. }
  rewrite E. clear E. destruct (batches (dm_K m) (dm_B m) (dm_dt m) T (sv_at s) F mb) as [ps|e]; cbn [bindr result_map]; [|reflexivity].
  f_equal. unfold with_data, model_in. cbn [dm_data]. now rewrite map_app.
Qed.

(** C122 (simulation): fed with the same draws, the same counts at rates per new unit. *)
Theorem C122_simulation : forall pois keep T,
  generate (model_in c m) pois keep T
  = result_map (fun x => let '(m1, S_, R_) := x in (model_in c m1, S_, fun t k => R_ t k / c)) (generate m pois keep T).
Proof.
  intros pois keep T.
  assert (G : forall n, gen_loop (model_in c m) pois n
     = {| gs_S := gs_S (gen_loop m pois n); gs_R := fun t k => gs_R (gen_loop m pois n) t k / c; gs_D := gs_D (gen_loop m pois n) |}).
  { induction n as [|n IH]; unfold gen_loop in *.
    - cbn. unfold gen_init. f_equal. cbn [gs_R model_in dm_lam]. repeat (apply functional_extensionality; intros ?). unfold Rdiv. ring.
    - rewrite seq_S, !fold_left_app, IH. cbn [fold_left Nat.add]. set (st := fold_left (gen_step m pois) (seq 0 n) (gen_init m)).
      assert (ED : forall k, gs_R st n k / c * (c * dm_dt m) = gs_R st n k * dm_dt m) by (intros k; field; lra).
      unfold gen_step. cbn [gs_S gs_R gs_D model_in dm_dt dm_L dm_K]. f_equal; repeat (apply functional_extensionality; intros ?).
      + destruct (Nat.eqb _ n); [now rewrite ED|reflexivity].
      + destruct (_ && _)%bool; [|reflexivity]. rewrite Rdiv_plus_distr. f_equal. rewrite <- Rsum_per. apply Rsum_ext. intros k1 _. rewrite ED.
        unfold gen_H. change (W_effective (model_in c m)) with (W_effective m). cbn [model_in dm_B dm_bas dm_g].
        rewrite (@Rsum_ext (dm_B m) _ (fun b => dm_bas m (x - n)%nat b * dm_g m k1 x0 b / c)) by (intros b _; unfold Rdiv; ring). rewrite Rsum_per. unfold Rdiv. ring.
      + destruct (Nat.eqb _ n); [now rewrite ED|reflexivity]. }
  unfold generate. cbn [model_in dm_L_int]. destruct (negb (dm_L_int m)); [reflexivity|]. fold (model_in c m). rewrite G. cbn [gs_S gs_R model_in dm_K].
  destruct (negb _); [reflexivity|]. destruct keep; [|reflexivity]. fold (model_in c m). rewrite C122_add_data.
  destruct (add_data m _ None None); reflexivity.
Qed.
End MODEL.
Print Assumptions C122_rates.
Print Assumptions C122_add_data.
Print Assumptions C122_simulation.

(* ---------------- likelihoods ---------------- *)
Lemma un_esum n (f : nat -> er) (g : nat -> R) : esum n (fun i => esub (f i) (Fin (g i))) = esub (esum n f) (Fin (Rsum n g)).
Proof.
  unfold esub. rewrite (@esum_plus n f (fun i => eopp (Fin (g i)))). f_equal. cbn [eopp]. rewrite (@esum_fin n _ (fun i => - g i)) by reflexivity. f_equal. apply Rsum_opp.
Qed.
Lemma esub_assoc x a b : esub (esub x (Fin a)) (Fin b) = esub x (Fin (a + b)).
Proof. destruct x; cbn; try reflexivity. f_equal. ring. Qed.
Lemma eadd_esub x y a : eadd x (esub y (Fin a)) = esub (eadd x y) (Fin a).
Proof. unfold esub. now rewrite eadd_assoc. Qed.
Lemma eadd_esub_l x y a : eadd (esub x (Fin a)) y = esub (eadd x y) (Fin a).
Proof. rewrite eadd_comm, eadd_esub. now rewrite eadd_comm. Qed.

(** The counts as stored (unsigned 32-bit numbers). *)
Definition stored (S_ : imat) : imat := fun t k => u32 (S_ t k).
Section DATASET.
Variables (c : R) (p : parents) (q : params).
Hypothesis Hc : 0 < c.
Definition params_in (q : params) : params := {| q_lam := fun k => q_lam q k / c; q_W := q_W q; q_g := q_g q |}.

Lemma un_row_rate k r : row_rate (data_in c p) (params_in q) k r = row_rate p q k r / c.
Proof.
  unfold row_rate. cbn [data_in params_in pa_K pa_B q_lam q_W q_g]. rewrite Rdiv_plus_distr. f_equal. rewrite <- Rsum_per. apply Rsum_ext. intros k1 _.
  rewrite <- Rsum_per. apply Rsum_ext. intros b _. unfold pa_Fs. cbn [data_in pa_F]. change (pa_row (data_in c p) k r) with (pa_row p k r). unfold Rdiv. ring.
Qed.
Lemma un_ll_single k : ll_single (data_in c p) (params_in q) k
  = esub (ll_single p q k) (Fin (ln c * Rsum (pa_T p) (fun t => IZR (stored (pa_S p) t k)))).
Proof.
  unfold ll_single. change (pa_Tk (data_in c p) k) with (pa_Tk p k).
  rewrite (@esum_ext (pa_Tk p k) _ (fun r => esub (emul (Fin (IZR (pa_Ss p k r))) (elog (Fin (row_rate p q k r)))) (Fin (IZR (pa_Ss p k r) * ln c)))).
  2:{ intros r _. rewrite un_row_rate, elog_per, emul_shift by exact Hc. reflexivity. }
  rewrite un_esum, eadd_esub. cbn [data_in params_in pa_K pa_T pa_dt q_lam q_W].
  replace (- (q_lam q k / c) * INR (pa_T p) * (c * pa_dt p)) with (- q_lam q k * INR (pa_T p) * pa_dt p) by (field; lra).
  f_equal. f_equal. rewrite Rmult_comm, <- Rsum_scal_r.
  rewrite <- (@sparse_Rsum p k (fun t => IZR (stored (pa_S p) t k) * ln c)); [reflexivity|].
  intros t Ht E. unfold stored. rewrite E. change (u32 0) with 0%Z. ring.
Qed.
Lemma un_pa_ll : pa_ll (data_in c p) (params_in q) = esub (pa_ll p q) (Fin (ln c * events (pa_T p) (pa_K p) (stored (pa_S p)))).
Proof.
  unfold pa_ll. cbn [data_in pa_K]. rewrite (@esum_ext _ _ _ (fun k _ => un_ll_single k)), un_esum. f_equal. f_equal.
  unfold events. rewrite Rsum_swap, Rsum_scal. reflexivity.
Qed.
End DATASET.

(** Events in the data sets a likelihood covers. *)
Definition events_in (d : parents) : R := events (pa_T d) (pa_K d) (stored (pa_S d)).
Definition listed (m : dmodel) (ix : indices) : list Z :=
  match ix with All => map Z.of_nat (seq 0 (length (dm_data m))) | One i => [i] | Many l => l end.
Definition events_at (m : dmodel) (i : Z) : R :=
  match py_index (length (dm_data m)) i with
  | Some j => match nth_error (dm_data m) j with Some d => events_in d | None => 0 end
  | None => 0 end.

Lemma un_ll_at c m i : 0 < c -> ll_at (model_in c m) i = result_map (fun x => esub x (Fin (ln c * events_at m i))) (ll_at m i).
Proof.
  intros Hc. unfold ll_at, events_at. rewrite un_data_len. destruct (py_index _ _) as [j|]; [|reflexivity].
  rewrite un_nth. destruct (nth_error (dm_data m) j) as [d|]; [|reflexivity]. cbn [option_map result_map]. f_equal.
  exact (@un_pa_ll c d (params_of m) Hc).
Qed.
Lemma un_ll_sum c m : 0 < c -> forall l acc a, ll_sum (model_in c m) l (esub acc (Fin a))
  = result_map (fun x => esub x (Fin (a + ln c * lsum (map (events_at m) l)))) (ll_sum m l acc).
Proof.
  intros Hc. induction l as [|i l IH]; intros acc a; cbn [ll_sum map lsum result_map].
  - f_equal. f_equal. f_equal. ring.
  - rewrite un_ll_at by exact Hc. destruct (ll_at m i) as [x|e]; cbn [bindr result_map]; [|reflexivity].
    rewrite eadd_esub_l, eadd_esub, esub_assoc, IH. destruct (ll_sum m l (eadd acc x)); cbn [result_map]; [|reflexivity]. f_equal. f_equal. f_equal. ring.
Qed.

(** C122 (likelihoods): a constant, the number of events times ln c, which no parameter enters. *)
Theorem C122_likelihood : forall c m, 0 < c ->
  (forall ix, log_likelihood (model_in c m) ix
     = result_map (fun x => esub x (Fin (ln c * lsum (map (events_at m) (listed m ix))))) (log_likelihood m ix)) /\
  (forall T S_, fst (heldout_log_likelihood (model_in c m) (sval_of T (dm_K m) S_) None)
     = result_map (fun x => esub x (Fin (ln c * events T (dm_K m) S_))) (fst (heldout_log_likelihood m (sval_of T (dm_K m) S_) None))).
Proof.
  intros c m Hc. split.
  - intros ix.
    assert (G : forall l, ll_sum (model_in c m) l (Fin 0) = result_map (fun x => esub x (Fin (ln c * lsum (map (events_at m) l)))) (ll_sum m l (Fin 0))).
    { intros l. pose proof (@un_ll_sum c m Hc l (Fin 0) 0) as H. replace (esub (Fin 0) (Fin 0)) with (Fin 0) in H by (rewrite esub_fin; f_equal; ring).
      rewrite H. destruct (ll_sum m l (Fin 0)); cbn [result_map]; [|reflexivity]. f_equal. f_equal. f_equal. ring. }
    unfold log_likelihood, listed. destruct ix; rewrite ?un_data_len; apply G.
  - intros T S_. unfold heldout_log_likelihood. cbn [fst]. destruct (@C122_rates c m Hc 0 (Some (sval_of T (dm_K m) S_))) as [E _]. rewrite E.
    destruct (compute_rate m 0 (Some (sval_of T (dm_K m) S_)) None) as [[T' R_]|e] eqn:Er; cbn [bindr result_map fst snd]; [|reflexivity].
    assert (T' = T) as ->.
    { unfold compute_rate, rate_input, sval_of in Er. cbn [sv_isarray negb sv_dims] in Er. destruct (convolve_with_basis _ _ _ _ _ _); cbn [bindr] in Er; [|discriminate].
      rewrite Nat.eqb_refl in Er. cbn [bindr fst snd] in Er. congruence. }
    f_equal. unfold poisson_ll, events. cbn [model_in dm_dt dm_K sv_at sval_of].
    rewrite (@esum_ext T _ (fun t => esub (esum (dm_K m) (fun k => esub (emul (Fin (IZR (S_ t k))) (elog (Fin (R_ t k)))) (Fin (R_ t k * dm_dt m)))) (Fin (Rsum (dm_K m) (fun k => IZR (S_ t k) * ln c))))).
    + rewrite un_esum. f_equal. f_equal. rewrite <- Rsum_scal. apply Rsum_ext. intros t _. rewrite Rsum_scal_r. ring.
    + intros t _. rewrite <- un_esum. apply esum_ext. intros k _. rewrite elog_per, emul_shift by exact Hc.
      replace (R_ t k / c * (c * dm_dt m)) with (R_ t k * dm_dt m) by (field; lra).
      unfold esub. rewrite <- !eadd_assoc. f_equal. apply eadd_comm.
Qed.
Print Assumptions C122_likelihood.

(* ---------------- Gibbs sampling ---------------- *)
(** C122 (Gibbs): parents, weights, impulse responses and mixture edges are drawn from the same distributions; background
    rates, with the prior's rate parameter in the new unit, from the same one per new unit (same shape, scale divided by c). *)
Theorem C122_gibbs_requests : forall c p q, 0 < c ->
  (forall k r, fst (request_python (data_in c p) (params_in c q) k r) = fst (request_python p q k r) /\
     forall i, snd (request_python (data_in c p) (params_in c q) k r) i = snd (request_python p q k r) i) /\
  (forall k r, fst (request_gsl (data_in c p) (params_in c q) k r) = fst (request_gsl p q k r) /\
     forall i, snd (request_gsl (data_in c p) (params_in c q) k r) i = snd (request_gsl p q k r) i) /\
  (forall use_gsl mult, pa_resample use_gsl mult (data_in c p) (params_in c q) = result_map (data_in c) (pa_resample use_gsl mult p q)).
Proof.
  intros c p q Hc. assert (Hc0 : c <> 0) by lra.
  assert (E1 : forall k r i, pvec_python (data_in c p) (params_in c q) k r i = pvec_python p q k r i / c).
  { intros k r i. unfold pvec_python. destruct i as [|i]; [reflexivity|]. cbn [data_in params_in pa_B q_W q_g]. unfold pa_Fs. cbn [data_in pa_F].
    change (pa_row (data_in c p) k r) with (pa_row p k r). unfold Rdiv. ring. }
  assert (E2 : forall k r i, pvec_gsl (data_in c p) (params_in c q) k r i = pvec_gsl p q k r i / c).
  { intros k r i. unfold pvec_gsl. destruct i as [|i]; [reflexivity|]. cbn [data_in params_in pa_B q_W q_g]. unfold pa_Fs. cbn [data_in pa_F].
    change (pa_row (data_in c p) k r) with (pa_row p k r). unfold Rdiv. ring. }
  assert (N1 : forall n k r, normalise n (pvec_python (data_in c p) (params_in c q) k r) = normalise n (pvec_python p q k r)).
  { intros n k r. apply functional_extensionality. intros i. unfold normalise. rewrite (@Rsum_ext n _ (fun i => pvec_python p q k r i / c)) by (intros; apply E1).
    rewrite Rsum_per, E1. now apply div_per. }
  assert (N2 : forall n k r, normalise n (pvec_gsl (data_in c p) (params_in c q) k r) = normalise n (pvec_gsl p q k r)).
  { intros n k r. apply functional_extensionality. intros i. unfold normalise. rewrite (@Rsum_ext n _ (fun i => pvec_gsl p q k r i / c)) by (intros; apply E2).
    rewrite Rsum_per, E2. now apply div_per. }
  assert (Q1 : forall k r, request_python (data_in c p) (params_in c q) k r = request_python p q k r).
  { intros k r. unfold request_python. change (pa_Ss (data_in c p) k r) with (pa_Ss p k r). cbn [data_in pa_K pa_B]. fold (data_in c p). now rewrite N1. }
  assert (Q2 : forall k r, request_gsl (data_in c p) (params_in c q) k r = request_gsl p q k r).
  { intros k r. unfold request_gsl. change (pa_Ss (data_in c p) k r) with (pa_Ss p k r). cbn [data_in pa_K pa_B]. fold (data_in c p). now rewrite N2. }
  assert (Z0 : forall x, Reqb (x / c) 0 = Reqb x 0).
  { intros x. unfold Rdiv. rewrite Rmult_comm. apply Reqb_scale. now apply Rinv_0_lt_compat. }
  split; [intros k r; now rewrite Q1|]. split; [intros k r; now rewrite Q2|]. intros use_gsl mult. unfold pa_resample. destruct use_gsl.
  - unfold resample_Z_gsl.
    replace (all_rows (data_in c p) (fun k r => negb (Reqb (Rsum (1 + pa_K (data_in c p) * pa_B (data_in c p)) (pvec_gsl (data_in c p) (params_in c q) k r)) 0)))
      with (all_rows p (fun k r => negb (Reqb (Rsum (1 + pa_K p * pa_B p) (pvec_gsl p q k r)) 0))).
    2:{ unfold all_rows. cbn [data_in pa_K]. fold (data_in c p). apply forall_lt_ext. intros k _. change (pa_Tk (data_in c p) k) with (pa_Tk p k). apply forall_lt_ext. intros r _.
        cbn [data_in pa_B]. fold (data_in c p). rewrite (@Rsum_ext _ (pvec_gsl (data_in c p) (params_in c q) k r) (fun i => pvec_gsl p q k r i / c)) by (intros; apply E2). now rewrite Rsum_per, Z0. }
    destruct (negb _); [reflexivity|]. cbn [result_map]. unfold set_Z, data_in. cbn [pa_T pa_K pa_B pa_dt pa_S pa_F pa_Z pa_EZ]. fold (data_in c p). f_equal. f_equal.
    repeat (apply functional_extensionality; intros ?). now rewrite Q2.
  - unfold resample_Z_python. change (all_rows (data_in c p) (fun k r => Z.ltb 0 (pa_Ss (data_in c p) k r))) with (all_rows p (fun k r => Z.ltb 0 (pa_Ss p k r))).
    destruct (negb (all_rows p (fun k r => Z.ltb 0 (pa_Ss p k r)))); [reflexivity|].
    replace (all_rows (data_in c p) (fun k r => negb (Reqb (Rsum (1 + pa_K (data_in c p) * pa_B (data_in c p)) (pvec_python (data_in c p) (params_in c q) k r)) 0)))
      with (all_rows p (fun k r => negb (Reqb (Rsum (1 + pa_K p * pa_B p) (pvec_python p q k r)) 0))).
    2:{ unfold all_rows. cbn [data_in pa_K]. fold (data_in c p). apply forall_lt_ext. intros k _. change (pa_Tk (data_in c p) k) with (pa_Tk p k). apply forall_lt_ext. intros r _.
        cbn [data_in pa_B]. fold (data_in c p). rewrite (@Rsum_ext _ (pvec_python (data_in c p) (params_in c q) k r) (fun i => pvec_python p q k r i / c)) by (intros; apply E1). now rewrite Rsum_per, Z0. }
    destruct (negb _); [reflexivity|]. cbn [result_map]. unfold set_Z, data_in. cbn [pa_T pa_K pa_B pa_dt pa_S pa_F pa_Z pa_EZ]. fold (data_in c p). f_equal. f_equal.
    repeat (apply functional_extensionality; intros ?). now rewrite Q1.
Qed.
Print Assumptions C122_gibbs_requests.

Lemma pool_in {A} (f : parents -> R) (g : A -> parents) (l : list A) : pool f (map g l) = pool (fun a => f (g a)) l.
Proof. rewrite !pool_lsum, map_map. reflexivity. Qed.
Theorem C122_parameter_requests : forall c data, 0 < c ->
  (forall alpha beta k, bias_request alpha (c * beta) (map (data_in c) data) k
     = (fst (bias_request alpha beta data k), snd (bias_request alpha beta data k) / c)) /\
  (forall gamma k1 k2 b, ir_request gamma (map (data_in c) data) k1 k2 b = ir_request gamma data k1 k2 b) /\
  (forall n A k1 k2, ss_W_request n A (map (data_in c) data) k1 k2 = ss_W_request n A data k1 k2) /\
  (forall kappa0 nu0 n A k1 k2, mix_W_request kappa0 nu0 n A (map (data_in c) data) k1 k2 = mix_W_request kappa0 nu0 n A data k1 k2) /\
  (forall lgam kappa0 nu0 n u k1 k2, mix_resample_A lgam kappa0 nu0 n u (map (data_in c) data) k1 k2 = mix_resample_A lgam kappa0 nu0 n u data k1 k2).
Proof.
  intros c data Hc.
  assert (Em : forall k1 k2, mix_ss (map (data_in c) data) k1 k2 = mix_ss data k1 k2) by (intros; unfold mix_ss; rewrite !pool_in; reflexivity).
  split; [|split; [|split; [|split]]].
  - intros alpha beta k. unfold bias_request. cbn [fst snd]. rewrite !pool_in. f_equal.
    rewrite !pool_lsum. replace (map (fun a => bkgd_ss1 (data_in c a) k) data) with (map (fun a => c * bkgd_ss1 a k) data).
    2:{ apply map_ext. intros a. unfold bkgd_ss1. cbn [data_in pa_T pa_dt]. ring. }
    rewrite lsum_map_scal. unfold Rdiv. rewrite !Rplus_0_l, <- Rmult_plus_distr_l, Rinv_mult. ring.
  - intros gamma k1 k2 b. unfold ir_request. rewrite pool_in. reflexivity.
  - intros n A k1 k2. unfold ss_W_request. rewrite !pool_in. reflexivity.
  - intros. unfold mix_W_request. now rewrite Em.
  - intros. unfold mix_resample_A. now rewrite Em.
Qed.
Print Assumptions C122_parameter_requests.

Lemma emax_shift x y a : emax (esub x (Fin a)) (esub y (Fin a)) = esub (emax x y) (Fin a).
Proof.
  destruct x as [v| | |], y as [w| | |]; try reflexivity. rewrite !esub_fin, !emax_fin, esub_fin. f_equal. unfold Rmax.
  destruct (Rle_dec (v - a) (w - a)), (Rle_dec v w); lra.
Qed.
Lemma accept_shift u x y a : accept u (esub x (Fin a)) (esub y (Fin a)) = accept u x y.
Proof.
  unfold accept. f_equal. destruct x as [v| | |], y as [w| | |]; try reflexivity.
  - rewrite !esub_fin, !logsumexp2_fin, !esub_fin. f_equal.
    replace (ln (exp (v - a) + exp (w - a))) with (ln (exp v + exp w) - a); [ring|].
    replace (v - a) with (v + - a) by ring. replace (w - a) with (w + - a) by ring. rewrite !exp_plus, <- Rmult_plus_distr_r, ln_mult.
    + rewrite ln_exp. ring.
    + pose proof (exp_pos v). pose proof (exp_pos w). lra.
    + apply exp_pos.
  - change (esub NInf (Fin a)) with NInf. rewrite esub_fin. rewrite !logsumexp2_NInf_r. reflexivity.
  - change (esub NInf (Fin a)) with NInf. rewrite esub_fin. rewrite !logsumexp2_NInf_l, !esub_fin. f_equal. ring.
Qed.
(** C122 (edges of the spike-and-slab model): the same random number gives the same edge. *)
Theorem C122_edge_update : forall c m data P u A k1 k2, 0 < c ->
  edge_step (data_ll (model_in c m) (map (data_in c) data)) P u A k1 k2 = edge_step (data_ll m data) P u A k1 k2.
Proof.
  intros c m data P u A k1 k2 Hc.
  assert (G : exists a, forall A0, data_ll (model_in c m) (map (data_in c) data) A0 k2 = esub (data_ll m data A0 k2) (Fin a)).
  { exists (ln c * lsum (map (fun d => Rsum (pa_T d) (fun t => IZR (stored (pa_S d) t k2))) data)). intros A0. unfold data_ll.
    assert (H : forall acc a, fold_left (fun s d => eadd s (ll_single d (params_of (with_A (model_in c m) A0)) k2)) (map (data_in c) data) (esub acc (Fin a))
      = esub (fold_left (fun s d => eadd s (ll_single d (params_of (with_A m A0)) k2)) data acc) (Fin (a + ln c * lsum (map (fun d => Rsum (pa_T d) (fun t => IZR (stored (pa_S d) t k2))) data)))).
    { induction data as [|d data IH]; intros acc a; cbn [fold_left map lsum]; [f_equal; f_equal; ring|].
      change (ll_single (data_in c d) (params_of (with_A (model_in c m) A0)) k2) with (ll_single (data_in c d) (params_in c (params_of (with_A m A0))) k2).
      rewrite un_ll_single by exact Hc. rewrite eadd_esub_l, eadd_esub, esub_assoc, IH. f_equal. f_equal. ring. }
    specialize (H (Fin 0) 0). replace (esub (Fin 0) (Fin 0)) with (Fin 0) in H by (rewrite esub_fin; f_equal; ring). rewrite H. f_equal. f_equal. ring. }
  destruct G as (a & G). unfold edge_step. rewrite !G. f_equal. rewrite !eadd_esub_l. apply accept_shift.
Qed.
Print Assumptions C122_edge_update.

Lemma run_tasks_in {A} (F : A -> A) (task task' : nat -> A) : forall order slots slots',
  (forall n, In n order -> task' n = F (task n)) -> (forall k, slots' k = F (slots k)) ->
  forall k, run_tasks order task' slots' k = F (run_tasks order task slots k).
Proof.
  induction order as [|n order IH]; intros slots slots' H Hs k; cbn [run_tasks]; [apply Hs|]. apply IH; [intros; apply H; now right|].
  intros i. unfold upd. destruct (Nat.eqb _ _); [apply H; now left|apply Hs].
Qed.
Lemma fold_ext_in {A B} (f g : A -> B -> A) l : (forall a x, In x l -> f a x = g a x) -> forall a, fold_left f l a = fold_left g l a.
Proof. induction l as [|x l IH]; intros H a; [reflexivity|]. cbn [fold_left]. rewrite H by now left. apply IH. intros; apply H; now right. Qed.
Lemma col_step_shift ll ll' a0 p u : (forall a, ll' a = esub (ll a) (Fin a0)) -> forall a k, col_step ll' p u a k = col_step ll p u a k.
Proof.
  intros H a k. unfold col_step. destruct (Reqb (p k) 0); [reflexivity|]. destruct (Reqb (p k) 1); [reflexivity|]. rewrite !H, !eadd_esub_l, accept_shift. reflexivity.
Qed.
Lemma column_shift ll ll' a0 p u K a : (forall a, ll' a = esub (ll a) (Fin a0)) -> resample_column ll' p u K a = resample_column ll p u K a.
Proof. intros H. unfold resample_column. apply fold_ext_in. intros b x _. eapply col_step_shift. exact H. Qed.
Lemma un_par_ll c m data k : 0 < c -> exists x, forall a0,
  par_ll (model_in c m) (map (data_in c) data) k a0 = esub (par_ll m data k a0) (Fin x).
Proof.
  intros Hc. exists (ln c * lsum (map (fun d => Rsum (pa_Tk d k) (fun r => IZR (pa_Ss d k r))) data)). intros a0.
  assert (H1 : forall d, par_ll_single (data_in c d) (dm_dt (model_in c m)) (dm_lam (model_in c m)) (fun k1 => b2R (a0 k1) * dm_W (model_in c m) k1 k) (dm_g (model_in c m)) k
     = esub (par_ll_single d (dm_dt m) (dm_lam m) (fun k1 => b2R (a0 k1) * dm_W m k1 k) (dm_g m) k) (Fin (ln c * Rsum (pa_Tk d k) (fun r => IZR (pa_Ss d k r))))).
  { intros d. unfold par_ll_single. cbn [data_in model_in dm_dt dm_lam dm_W dm_g pa_T pa_K pa_B]. fold (data_in c d).
    change (pa_Ns (data_in c d)) with (pa_Ns d). change (pa_Tk (data_in c d) k) with (pa_Tk d k). change (pa_Ss (data_in c d)) with (pa_Ss d).
    replace (0 + - (dm_lam m k / c) * INR (pa_T d) * (c * dm_dt m)) with (0 + - dm_lam m k * INR (pa_T d) * dm_dt m) by (field; lra).
    rewrite <- eadd_esub. f_equal. rewrite <- Rsum_scal, <- un_esum. apply esum_ext. intros r _.
    replace (ln c * IZR (pa_Ss d k r)) with (IZR (pa_Ss d k r) * ln c) by ring. rewrite <- emul_shift. f_equal. rewrite <- elog_per by exact Hc. f_equal. f_equal.
    rewrite Rdiv_plus_distr, <- Rsum_per. f_equal. apply Rsum_ext. intros k1 _. rewrite <- Rsum_per. apply Rsum_ext. intros b _.
    unfold pa_Fs. cbn [data_in pa_F]. change (pa_row (data_in c d) k r) with (pa_row d k r). unfold Rdiv. ring. }
  unfold par_ll.
  assert (H : forall acc x, fold_left (fun s d => eadd s (par_ll_single d (dm_dt (model_in c m)) (dm_lam (model_in c m)) (fun k1 => b2R (a0 k1) * dm_W (model_in c m) k1 k) (dm_g (model_in c m)) k)) (map (data_in c) data) (esub acc (Fin x))
     = esub (fold_left (fun s d => eadd s (par_ll_single d (dm_dt m) (dm_lam m) (fun k1 => b2R (a0 k1) * dm_W m k1 k) (dm_g m) k)) data acc) (Fin (x + ln c * lsum (map (fun d => Rsum (pa_Tk d k) (fun r => IZR (pa_Ss d k r))) data)))).
  { induction data as [|d data IH]; intros acc x; cbn [fold_left map lsum]; [f_equal; f_equal; ring|].
    rewrite H1, eadd_esub_l, eadd_esub, esub_assoc, IH. f_equal. f_equal. ring. }
  specialize (H (Fin 0) 0). replace (esub (Fin 0) (Fin 0)) with (Fin 0) in H by (rewrite esub_fin; f_equal; ring). rewrite H. f_equal. f_equal. ring.
Qed.
(** C122 (edges, parallel workers): so do the workers, in any order. *)
Theorem C122_parallel_edge_update : forall c order m n u data, 0 < c ->
  resample_A_parallel order (model_in c m) n u (map (data_in c) data) = resample_A_parallel order m n u data.
Proof.
  intros c order m n u data Hc. destruct data as [|d0 data0]; [reflexivity|]. unfold resample_A_parallel. cbn [map].
  change (data_in c d0 :: map (data_in c) data0) with (map (data_in c) (d0 :: data0)). set (data := d0 :: data0).
  apply functional_extensionality. intros k1. apply functional_extensionality. intros k2. cbn [model_in dm_K dm_A]. fold (model_in c m).
  rewrite (@run_tasks_in _ (fun x => x) (fun k2 => resample_column (par_ll m data k2) (fun k1 => n_P n k1 k2) (fun k1 => u k1 k2) (dm_K m) (fun k1 => dm_A m k1 k2)) _ order (fun _ _ => false) (fun _ _ => false)); [reflexivity| |reflexivity].
  intros k _. destruct (@un_par_ll c m data k Hc) as (x & E). eapply column_shift. exact E.
Qed.
Print Assumptions C122_parallel_edge_update.

(* ---------------- mean field ---------------- *)
Definition mf_in_in (c : R) (e : mf_in) : mf_in := {| e_lam := fun k => e_lam e k / c; e_W := e_W e; e_g := e_g e |}.
Lemma un_mf_update c p e : 0 < c -> mf_update_python (data_in c p) (mf_in_in c e) = result_map (data_in c) (mf_update_python p e).
Proof.
  intros Hc. assert (Hc0 : c <> 0) by lra.
  assert (Ek : forall k r i, pkb (data_in c p) (mf_in_in c e) k r i = pkb p e k r i / c).
  { intros k r i. unfold pkb. cbn [data_in mf_in_in pa_B e_W e_g]. unfold pa_Fs. cbn [data_in pa_F]. change (pa_row (data_in c p) k r) with (pa_row p k r). unfold Rdiv. ring. }
  assert (En : forall k r, mf_norm (data_in c p) (mf_in_in c e) k r = mf_norm p e k r / c).
  { intros k r. unfold mf_norm. cbn [data_in mf_in_in pa_K pa_B e_lam]. fold (data_in c p). rewrite Rdiv_plus_distr, <- Rsum_per. f_equal. apply Rsum_ext. intros i _. apply Ek. }
  assert (Z0 : forall x, Reqb (x / c) 0 = Reqb x 0).
  { intros x. unfold Rdiv. rewrite Rmult_comm. apply Reqb_scale. now apply Rinv_0_lt_compat. }
  unfold mf_update_python.
  replace (all_rows (data_in c p) (fun k r => negb (Reqb (mf_norm (data_in c p) (mf_in_in c e) k r) 0))) with (all_rows p (fun k r => negb (Reqb (mf_norm p e k r) 0))).
  2:{ unfold all_rows. cbn [data_in pa_K]. apply forall_lt_ext. intros k _. change (pa_Tk (data_in c p) k) with (pa_Tk p k). apply forall_lt_ext. intros r _. fold (data_in c p). now rewrite En, Z0. }
  destruct (negb _); [reflexivity|]. cbn [result_map]. unfold set_EZ, data_in at 1 2 3 4 5 6 7. cbn [pa_T pa_K pa_B pa_dt pa_S pa_F pa_Z pa_EZ].
  f_equal. unfold data_in. cbn [pa_T pa_K pa_B pa_dt pa_S pa_F pa_Z pa_EZ]. fold (data_in c p). f_equal. apply functional_extensionality. intros k. apply functional_extensionality. intros r.
  apply functional_extensionality. intros [|i]; rewrite En.
  - cbn [mf_in_in e_lam]. now rewrite div_per.
  - rewrite Ek. now rewrite div_per.
Qed.
Lemma un_mf_in psi c m : 0 < c -> (forall k, 0 < mb_beta (mm_bias m) k) -> mf_in_of psi (mf_model_in c m) = mf_in_in c (mf_in_of psi m).
Proof.
  intros Hc Hb. unfold mf_in_of, mf_in_in. cbn [mf_model_in mm_bias mm_net mm_w mm_gamma mm_h mh_B e_lam e_W e_g]. f_equal.
  apply functional_extensionality. intros k. unfold expected_log_lambda0. cbn [mb_alpha mb_beta]. rewrite ln_mult by auto.
  replace (psi (mb_alpha (mm_bias m) k) - (ln c + ln (mb_beta (mm_bias m) k))) with (psi (mb_alpha (mm_bias m) k) - ln (mb_beta (mm_bias m) k) + - ln c) by ring.
  rewrite exp_plus, exp_Ropp, exp_ln by exact Hc. reflexivity.
Qed.
Lemma un_mf_parents c e l : 0 < c -> mf_parents (mf_in_in c e) (map (data_in c) l) = result_map (map (data_in c)) (mf_parents e l).
Proof.
  intros Hc. induction l as [|p l IH]; [reflexivity|]. cbn [mf_parents map]. rewrite un_mf_update by exact Hc.
  destruct (mf_update_python p e) as [p'|]; cbn [bindr result_map]; [|reflexivity]. rewrite IH. destruct (mf_parents e l); reflexivity.
Qed.
Definition bias_in (c : R) (b : mfbias) : mfbias := {| mb_alpha := mb_alpha b; mb_beta := fun k => c * mb_beta b k |}.
Lemma un_bias c alpha beta data frac step b : 0 < c ->
  mf_update_lambda0 alpha (c * beta) (map (data_in c) data) frac step (bias_in c b) = result_map (bias_in c) (mf_update_lambda0 alpha beta data frac step b).
Proof.
  intros Hc. unfold mf_update_lambda0. destruct data as [|d data]; [reflexivity|].
  change (map (data_in c) (d :: data)) with (data_in c d :: map (data_in c) data). cbv iota.
  change (data_in c d :: map (data_in c) data) with (map (data_in c) (d :: data)). set (l := d :: data). cbn [result_map]. f_equal. unfold bias_in. cbn [mb_alpha mb_beta]. f_equal.
  - apply functional_extensionality. intros k. rewrite pool_in. reflexivity.
  - apply functional_extensionality. intros k. rewrite pool_in. rewrite !pool_lsum.
    replace (map (fun a => exp_bkgd_ss1 (data_in c a) k) l) with (map (fun a => c * exp_bkgd_ss1 a k) l).
    2:{ apply map_ext. intros a. unfold exp_bkgd_ss1. cbn [data_in pa_T pa_dt]. ring. }
    rewrite lsum_map_scal. unfold mix_step, Rdiv. ring.
Qed.
Lemma un_gamma c gamma data frac step mg : mf_update_gamma gamma (map (data_in c) data) frac step mg = mf_update_gamma gamma data frac step mg.
Proof. unfold mf_update_gamma. repeat (apply functional_extensionality; intros ?). rewrite pool_in. reflexivity. Qed.
Lemma un_kappa_v c kappa0 nu0 n data frac step w :
  meanfieldupdate_kappa_v kappa0 nu0 n (map (data_in c) data) frac step w = meanfieldupdate_kappa_v kappa0 nu0 n data frac step w.
Proof.
  unfold meanfieldupdate_kappa_v. destruct data as [|d data]; [reflexivity|].
  change (map (data_in c) (d :: data)) with (data_in c d :: map (data_in c) data). cbv iota.
  change (data_in c d :: map (data_in c) data) with (map (data_in c) (d :: data)). set (l := d :: data).
  assert (E0 : forall i j, pool (fun d => exp_weight_ss0 d i j) (map (data_in c) l) = pool (fun d => exp_weight_ss0 d i j) l) by (intros; rewrite pool_in; reflexivity).
  assert (E1 : forall i, pool (fun d => IZR (pa_Ns d i)) (map (data_in c) l) = pool (fun d => IZR (pa_Ns d i)) l) by (intros; rewrite pool_in; reflexivity).
  f_equal. f_equal; repeat (apply functional_extensionality; intros ?); rewrite ?E0, ?E1; reflexivity.
Qed.

(** C122 (mean field): one variational update, by coordinate descent on all data or by a stochastic step on a minibatch, commutes
    with the change of unit. *)
Theorem C122_mean_field : forall lgam psi c op m, 0 < c -> (forall k, 0 < mb_beta (mm_bias m) k) ->
  mf_op_step lgam psi op (mf_model_in c m) = result_map (mf_model_in c) (mf_op_step lgam psi op m).
Proof.
  intros lgam psi c op m Hc Hb. destruct op as [|mb step]; cbn [mf_op_step].
  - unfold mf_batch_step. rewrite un_mf_in by auto. cbn [mf_model_in mm_h mm_data mm_bias mm_gamma mm_net mm_w mm_off mh_alpha mh_beta mh_gamma mh_kappa0 mh_nu0].
    rewrite un_mf_parents by exact Hc. destruct (mf_parents (mf_in_of psi m) (mm_data m)) as [data|]; cbn [bindr result_map]; [|reflexivity].
    unfold bias_mf. fold (bias_in c (mm_bias m)). rewrite un_bias by exact Hc. destruct (mf_update_lambda0 _ _ data 1 1 (mm_bias m)) as [b|]; cbn [bindr result_map]; [|reflexivity].
    destruct (mfnet_view psi (mm_net m)) as [n|]; cbn [bindr result_map]; [|reflexivity].
    unfold weights_mf. rewrite un_kappa_v. destruct (meanfieldupdate_kappa_v _ _ n data 1 1 (mm_w m)) as [w1|]; cbn [bindr result_map]; [|reflexivity].
    destruct (mfnet_batch lgam psi _ (mm_net m)) as [no|]; cbn [bindr result_map]; [|reflexivity].
    unfold ir_mf. rewrite un_gamma. reflexivity.
  - unfold mf_sgd_step. rewrite un_mf_in by auto. cbn [mf_model_in mm_h mm_data mm_bias mm_gamma mm_net mm_w mm_off mh_alpha mh_beta mh_gamma mh_kappa0 mh_nu0 mh_K mh_B].
    destruct (mm_data m) as [|d [|d2 ds]] eqn:Ed; try reflexivity. cbn [map]. set (off := next_offset (pa_T d) mb (mm_off m)).
    change (pa_T (data_in c d)) with (pa_T d). change (pa_dt (data_in c d)) with (c * pa_dt d). change (pa_S (data_in c d)) with (pa_S d).
    fold off. set (len := (sgd_end (pa_T d) mb off - off)%nat).
    change (mk_parents (mh_K (mm_h m)) (mh_B (mm_h m)) (c * pa_dt d) len (slice2 off (pa_S d)) (slice3 off (pa_F (data_in c d))))
      with (data_in c (mk_parents (mh_K (mm_h m)) (mh_B (mm_h m)) (pa_dt d) len (slice2 off (pa_S d)) (slice3 off (pa_F d)))).
    rewrite un_mf_update by exact Hc. destruct (mf_update_python _ (mf_in_of psi m)) as [p|]; cbn [bindr result_map]; [|reflexivity].
    unfold bias_sgd. fold (bias_in c (mm_bias m)). change [data_in c p] with (map (data_in c) [p]). rewrite un_bias by exact Hc.
    destruct (mf_update_lambda0 _ _ [p] _ step (mm_bias m)) as [b|]; cbn [bindr result_map]; [|reflexivity].
    destruct (mfnet_view psi (mm_net m)) as [n|]; cbn [bindr result_map]; [|reflexivity].
    unfold weights_sgd. rewrite un_kappa_v. destruct (meanfieldupdate_kappa_v _ _ n [p] _ step (mm_w m)) as [w1|]; cbn [bindr result_map]; [|reflexivity].
    destruct (mfnet_sgd lgam psi _ step _ (mm_net m)) as [no|]; cbn [bindr result_map]; [|reflexivity].
    unfold ir_sgd. rewrite un_gamma. unfold mf_model_in. cbn [mm_h mm_data mm_bias mm_gamma mm_net mm_w mm_off]. reflexivity.
Qed.
Print Assumptions C122_mean_field.

(** A concrete case: the example network counted in milliseconds instead of seconds (c = 1000).  Its bins last 1000, the rate of
    process 1 in bin 1 is 2 events per second and 2/1000 per millisecond, and both models meet the hypotheses of the theorems. *)
Example C122_nonvacuous :
  proper_dims (model_in 1000 ex_m) /\ nonneg_params (model_in 1000 ex_m) /\ dm_dt (model_in 1000 ex_m) = 1000 /\
  exists R_, compute_rate (model_in 1000 ex_m) 0 (Some (sval_of 3 2 ex_S)) None = Ok (3%nat, R_) /\
    R_ 1%nat 1%nat = 2 / 1000 /\ R_ 1%nat 0%nat = 1 / 1000.
Proof.
  split; [repeat split; cbn; lia|]. split.
  { destruct ex_nonneg as (H1 & H2 & H3 & H4). repeat split; cbn.
    - intros k Hk. cbn. lra.
    - intros k1 k2 _ _. cbn. lra.
    - intros. lra.
    - intros l b _ _. destruct (Nat.eqb l 1); lra. }
  split; [cbn; lra|].
  destruct C04_nonvacuous as (R_ & E & H1 & H2 & _). exists (fun t k => R_ t k / 1000).
  assert (Hc : 0 < 1000) by lra. destruct (@C122_rates 1000 ex_m Hc 0 (Some (sval_of 3 2 ex_S))) as [E' _].
  rewrite E', E. cbn [result_map fst snd]. rewrite H1, H2. repeat split; reflexivity.
Qed.
