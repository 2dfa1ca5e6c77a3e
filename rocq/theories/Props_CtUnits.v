(** * Props_CtUnits: C123, the unit of time does not matter (continuous time). *)
From Coq Require Import FunctionalExtensionality Permutation.
From Verif Require Import Prelude ExtReal Arrays Spec_Continuous Spec_Units Spec_CtUnits M_Basis M_Parents M_Discrete M_Gibbs M_Dist M_Network M_Sweep
  L_Gibbs L_Relabel Props_Units M_Continuous L_Continuous Props_Continuous Props_Continuous2 Props_Continuous3 M_CtGenerate Props_CtGenerate Props_Utils2.
Set Implicit Arguments.
Open Scope R_scope.

(* ---------------- arithmetic ---------------- *)
Lemma Rltb_scale c a b : 0 < c -> Rltb (c * a) (c * b) = Rltb a b.
Proof. intros H. destruct (Rltb a b) eqn:E; [apply Rltb_true in E; apply Rltb_true; nra|apply Rltb_false in E; apply Rltb_false; nra]. Qed.
Lemma Rleb_scale c a b : 0 < c -> Rleb (c * a) (c * b) = Rleb a b.
Proof. intros H. destruct (Rleb a b) eqn:E; [apply Rleb_true in E; apply Rleb_true; nra|apply Rleb_false in E; apply Rleb_false; nra]. Qed.
Lemma Rltb_t a b : a < b -> Rltb a b = true. Proof. apply Rltb_true. Qed.
Lemma Rltb_f a b : b <= a -> Rltb a b = false. Proof. apply Rltb_false. Qed.
Lemma Rleb_t a b : a <= b -> Rleb a b = true. Proof. apply Rleb_true. Qed.
Lemma Rleb_f a b : b < a -> Rleb a b = false. Proof. apply Rleb_false. Qed.

(** The tests the code applies to a delay have the same outcome in both units: skipped; tested and beyond the window; or used. *)
Lemma Rmin1 c x : 0 < c -> 0 <= x -> Rmin 1 c * x <= x /\ Rmin 1 c * x <= c * x.
Proof. intros Hc Hx. unfold Rmin. destruct (Rle_dec 1 c); split; nra. Qed.
Lemma clear_tests c D x : 0 < c -> clear_of_margins c D x ->
  Rltb (c * x) eps = Rltb x eps /\
  (Rltb x eps = false -> Rltb (c * D - eps) (c * x) = Rltb (D - eps) x /\ Rleb (c * D - eps) (c * x) = Rleb (D - eps) x /\
     Rltb (c * D - c * x) eps = Rltb (D - x) eps).
Proof.
  intros Hc H. pose proof eps_pos as He. unfold clear_of_margins in H. fold eps in H. destruct H as [H|[H1 H2]].
  - rewrite !Rltb_t by nra. split; [reflexivity|discriminate].
  - assert (Hm : 0 < Rmin 1 c) by (unfold Rmin; destruct (Rle_dec 1 c); lra). assert (Hx : 0 <= x) by nra.
    destruct (@Rmin1 c x Hc Hx) as [G1 G2]. rewrite !(@Rltb_f _ eps) by lra. split; [reflexivity|]. intros _.
    destruct H2 as [H2|H2].
    + assert (c * D <= c * x) by nra. repeat split; first [rewrite !Rltb_t by lra|rewrite !Rleb_t by lra]; reflexivity.
    + assert (Hd : 0 <= D - x) by nra. destruct (@Rmin1 c (D - x) Hc Hd) as [K1 K2].
      rewrite Rmult_minus_distr_l in K2. repeat split; first [rewrite !Rltb_f by lra|rewrite !Rleb_f by lra]; reflexivity.
Qed.
Lemma ln_impulse_in c D x mu tau : 0 < c -> clear_of_margins c D x -> ln_impulse (c * x) mu tau (c * D) = ln_impulse x mu tau D / c.
Proof.
  intros Hc H. assert (Hc0 : c <> 0) by lra. destruct (clear_tests Hc H) as [E1 E2]. unfold ln_impulse. rewrite E1. destruct (Rltb x eps); [unfold Rdiv; ring|].
  destruct (E2 eq_refl) as (_ & _ & ->). destruct (Rltb (D - x) eps); [unfold Rdiv; ring|].
  replace (c * x / (c * D)) with (x / D) by (unfold Rdiv; rewrite Rinv_mult; replace (c * x * (/ c * / D)) with (c * / c * (x * / D)) by ring; rewrite Rinv_r by exact Hc0; ring).
  replace (c * x * (c * D - c * x) / (c * D) * SQRT_2PI / sqrt tau) with (c * (x * (D - x) / D * SQRT_2PI / sqrt tau)).
  - set (z := x * (D - x) / D * SQRT_2PI / sqrt tau). set (e := exp _). unfold Rdiv. rewrite Rinv_mult. ring.
  - unfold Rdiv. rewrite Rinv_mult. rewrite <- Rmult_minus_distr_l. replace (c * x * (c * (D - x)) * (/ c * / D)) with (c * / c * (c * (x * (D - x) * / D))) by ring.
    rewrite Rinv_r by exact Hc0. ring.
Qed.

(* ---------------- scans ---------------- *)
Lemma back_scan_in c skip skip' stop stop' w w' : forall n acc,
  (forall p, (p < n)%nat -> skip' p = skip p /\ (skip p = false -> stop' p = stop p /\ w' p = w p / c)) ->
  back_scan skip' stop' w' n (acc / c) = (fst (back_scan skip stop w n acc) / c, snd (back_scan skip stop w n acc)).
Proof.
  induction n as [|n IH]; intros acc H; [reflexivity|]. cbn [back_scan]. destruct (H n ltac:(lia)) as [E1 E2]. rewrite E1.
  assert (H' : forall p, (p < n)%nat -> skip' p = skip p /\ (skip p = false -> stop' p = stop p /\ w' p = w p / c)) by (intros; apply H; lia).
  destruct (skip n) eqn:Es; [now apply IH|]. destruct (E2 eq_refl) as [-> ->]. destruct (stop n); [reflexivity|].
  rewrite <- Rdiv_plus_distr. now apply IH.
Qed.
Lemma back_scan_vec_in c skip skip' stop stop' w w' C : forall n acc,
  (forall p, (p < n)%nat -> skip' p = skip p /\ (skip p = false -> stop' p = stop p /\ w' p = w p / c)) ->
  forall k, back_scan_vec skip' stop' w' C n (fun k => acc k / c) k = back_scan_vec skip stop w C n acc k / c.
Proof.
  induction n as [|n IH]; intros acc H k; [reflexivity|]. cbn [back_scan_vec]. destruct (H n ltac:(lia)) as [E1 E2]. rewrite E1.
  assert (H' : forall p, (p < n)%nat -> skip' p = skip p /\ (skip p = false -> stop' p = stop p /\ w' p = w p / c)) by (intros; apply H; lia).
  destruct (skip n) eqn:Es; [now apply IH|]. destruct (E2 eq_refl) as [-> ->]. destruct (stop n); [reflexivity|].
  rewrite <- IH by exact H'. f_equal. apply functional_extensionality. intros i. unfold upd. destruct (Nat.eqb _ _); [|reflexivity]. unfold Rdiv. ring.
Qed.
Lemma fwd_scan_in (c : R) us us' p p' denom denom' u : forall k par acc,
  (forall i, (par <= i < par + k)%nat -> us' i = us i /\ (us i = true -> p' i / denom' = p i / denom)) ->
  fwd_scan us' p' denom' u par k acc = fwd_scan us p denom u par k acc.
Proof.
  induction k as [|k IH]; intros par acc H; [reflexivity|]. cbn [fwd_scan]. destruct (H par ltac:(lia)) as [-> E].
  destruct (us par) eqn:U; [rewrite (E eq_refl); destruct (Rltb u _); [reflexivity|]|]; apply IH; intros; apply H; lia.
Qed.
Lemma run_tasks_r_in {A} (task task' : nat -> result A) : forall order slots,
  (forall n, In n order -> task' n = task n) -> run_tasks_r order task' slots = run_tasks_r order task slots.
Proof.
  induction order as [|n order IH]; intros slots H; cbn [run_tasks_r]; [reflexivity|]. rewrite H by now left.
  destruct (task n); cbn [bindr]; [|reflexivity]. apply IH. intros; apply H; now right.
Qed.

(* ---------------- rates ---------------- *)
Section Unit.
Variable c : R.
Hypothesis Hc : 0 < c.
Variable d : ctdata.
Variable D : R.
Hypothesis Hclear : clear_recording c D d.
Lemma w_in W mu tau n p : (p < n)%nat -> (n < cd_N d)%nat ->
  ct_w (fun i => c * cd_S d i) (cd_C d) (c * D) W mu tau n p = ct_w (cd_S d) (cd_C d) D W mu tau n p / c.
Proof. intros Hp Hn. unfold ct_w. rewrite <- Rmult_minus_distr_l, ln_impulse_in by (auto; now apply Hclear). unfold Rdiv. ring. Qed.
Lemma rate_one_in lam W mu tau n : (n < cd_N d)%nat ->
  ct_rate_one (fun i => c * cd_S d i) (cd_C d) (c * D) (fun k => lam k / c) W mu tau n = ct_rate_one (cd_S d) (cd_C d) D lam W mu tau n / c.
Proof.
  intros Hn. unfold ct_rate_one. replace (0 + lam (cd_C d n) / c) with ((0 + lam (cd_C d n)) / c) by (unfold Rdiv; ring).
  erewrite back_scan_in; [cbn [fst]; reflexivity|]. intros p Hp. cbv beta. rewrite <- Rmult_minus_distr_l.
  destruct (clear_tests Hc (Hclear Hp Hn)) as [E1 E2]. split; [exact E1|]. intros E. destruct (E2 E) as (_ & -> & _). split; [reflexivity|].
  destruct (Rltb 0 _); [now apply w_in|unfold Rdiv; ring].
Qed.
Lemma irs_one_in W mu tau n k : (n < cd_N d)%nat ->
  ct_irs_one (fun i => c * cd_S d i) (cd_C d) (c * D) W mu tau n k = ct_irs_one (cd_S d) (cd_C d) D W mu tau n k / c.
Proof.
  intros Hn. unfold ct_irs_one. replace (fun _ : nat => 0) with (fun k : nat => (fun _ : nat => 0) k / c) at 1 by (apply functional_extensionality; intros; unfold Rdiv; apply Rmult_0_l).
  apply back_scan_vec_in. intros p Hp. cbv beta. rewrite <- Rmult_minus_distr_l. destruct (clear_tests Hc (Hclear Hp Hn)) as [E1 E2]. split; [exact E1|].
  intros E. destruct (E2 E) as (_ & -> & _). split; [reflexivity|]. now apply w_in.
Qed.
Lemma parent_in lam W mu tau u n : (n < cd_N d)%nat ->
  ct_parent (fun i => c * cd_S d i) (cd_C d) (c * D) (fun k => lam k / c) W mu tau u n = ct_parent (cd_S d) (cd_C d) D lam W mu tau u n.
Proof.
  intros Hn. unfold ct_parent. destruct n as [|n]; [reflexivity|]. set (n1 := S n) in *.
  erewrite (@back_scan_in c (fun par => Rltb (cd_S d n1 - cd_S d par) eps) _ (fun par => Rltb (D - eps) (cd_S d n1 - cd_S d par)) _ (ct_w (cd_S d) (cd_C d) D W mu tau n1) _ n1 (lam (cd_C d n1))).
  2:{ intros p Hp. cbv beta. rewrite <- Rmult_minus_distr_l. destruct (clear_tests Hc (Hclear Hp Hn)) as [E1 E2]. split; [exact E1|].
      intros E. destruct (E2 E) as (-> & _ & _). split; [reflexivity|]. now apply w_in. }
  pose proof (@back_scan_min (fun par => Rltb (cd_S d n1 - cd_S d par) eps) (fun par => Rltb (D - eps) (cd_S d n1 - cd_S d par)) (ct_w (cd_S d) (cd_C d) D W mu tau n1) n1 (lam (cd_C d n1))) as Hmin.
  destruct (back_scan _ _ _ _ _) as [denom mp]. cbn [fst snd] in *.
  replace (Reqb (denom / c) 0) with (Reqb denom 0).
  2:{ unfold Rdiv. rewrite Rmult_comm. symmetry. apply Reqb_scale. now apply Rinv_0_lt_compat. }
  destruct (Reqb denom 0); [reflexivity|]. rewrite div_per by lra. destruct (Rltb (u n1) _); [reflexivity|]. f_equal.
  apply (@fwd_scan_in c). intros p Hp. assert (Hpn : (p < n1)%nat) by lia. rewrite <- Rmult_minus_distr_l. destruct (clear_tests Hc (Hclear Hpn Hn)) as [E1 E2].
  rewrite E1. rewrite <- !negb_Rltb. split.
  - destruct (Rltb (cd_S d n1 - cd_S d p) eps) eqn:E; [reflexivity|]. destruct (E2 eq_refl) as (-> & _ & _). reflexivity.
  - intros _. rewrite w_in by auto. apply div_per. lra.
Qed.
End Unit.

(** C123 (rates): at every event, per new unit of time. *)
Theorem C123_rates_partial : forall c m d order, 0 < c -> clear_recording c (cm_dtmax m) d -> (forall n, In n order -> (n < cd_N d)%nat) ->
  forall n, ct_model_rate order (ct_model_in c m) (recording_in c d) n = ct_model_rate order m d n / c.
Proof.
  intros c m d order Hc Hd Ho n. unfold ct_model_rate, ct_rate_at_events.
  apply (run_tasks_in (fun x => x / c)).
  - intros i Hi. cbn [recording_in ct_model_in cd_S cd_C cm_dtmax cm_lam cm_mu cm_tau]. change (ct_W_effective (ct_model_in c m)) with (ct_W_effective m).
    apply rate_one_in; auto.
  - intros k. unfold Rdiv. symmetry. apply Rmult_0_l.
Qed.
Print Assumptions C123_rates_partial.

(* ---------------- likelihood ---------------- *)
Definition same_schedule (c : R) (order : ctdata -> list nat) (d : ctdata) : Prop :=
  order (recording_in c d) = order d /\ forall n, In n (order d) -> (n < cd_N d)%nat.
Lemma ll_data_in c order m d : 0 < c -> clear_recording c (cm_dtmax m) d -> same_schedule c order d ->
  ct_ll_data order (ct_model_in c m) (recording_in c d) = esub (ct_ll_data order m d) (Fin (ln c * INR (cd_N d))).
Proof.
  intros Hc Hd [Ho1 Ho2]. assert (Hc0 : c <> 0) by lra. unfold ct_ll_data.
  replace (Rsum (cm_K (ct_model_in c m)) (ct_integrated (ct_model_in c m) (recording_in c d))) with (Rsum (cm_K m) (ct_integrated m d)).
  2:{ cbn [ct_model_in cm_K]. fold (ct_model_in c m). apply Rsum_ext. intros k _. unfold ct_integrated. cbn [ct_model_in recording_in cm_lam cd_T cm_K].
      change (cd_Ns (recording_in c d)) with (cd_Ns d). change (ct_W_effective (ct_model_in c m)) with (ct_W_effective m). f_equal. field. exact Hc0. }
  rewrite <- eadd_esub. f_equal. cbn [recording_in cd_N]. fold (recording_in c d). rewrite Ho1.
  rewrite (@esum_ext (cd_N d) _ (fun n => esub (elog (Fin (ct_model_rate (order d) m d n))) (Fin (ln c)))).
  - rewrite un_esum, Rsum_const. f_equal. f_equal. ring.
  - intros n Hn. rewrite C123_rates_partial by auto. now apply elog_per.
Qed.
Theorem C123_likelihood_partial : forall c order m data, 0 < c ->
  (forall d, In d (match data with Some l => l | None => cm_data m end) -> clear_recording c (cm_dtmax m) d /\ same_schedule c order d) ->
  ct_log_likelihood order (ct_model_in c m) (option_map (map (recording_in c)) data)
  = esub (ct_log_likelihood order m data) (Fin (ln c * lsum (map (fun d => INR (cd_N d)) (match data with Some l => l | None => cm_data m end)))).
Proof.
  intros c order m data Hc H. unfold ct_log_likelihood.
  replace (match option_map (map (recording_in c)) data with Some l => l | None => cm_data (ct_model_in c m) end)
    with (map (recording_in c) (match data with Some l => l | None => cm_data m end)) by (destruct data; reflexivity).
  set (l := match data with Some l => l | None => cm_data m end) in *. clearbody l.
  assert (G : forall acc a, fold_left (fun ll d => eadd ll (ct_ll_data order (ct_model_in c m) d)) (map (recording_in c) l) (esub acc (Fin a))
     = esub (fold_left (fun ll d => eadd ll (ct_ll_data order m d)) l acc) (Fin (a + ln c * lsum (map (fun d => INR (cd_N d)) l)))).
  { induction l as [|d l IH]; intros acc a; cbn [fold_left map lsum]; [f_equal; f_equal; ring|].
    destruct (H d (or_introl eq_refl)) as [H1 H2]. rewrite ll_data_in by auto. rewrite eadd_esub_l, eadd_esub, esub_assoc, IH.
    - f_equal. f_equal. ring.
    - intros; apply H; now right. }
  specialize (G (Fin 0) 0). replace (esub (Fin 0) (Fin 0)) with (Fin 0) in G by (rewrite esub_fin; f_equal; ring). rewrite G. f_equal. f_equal. ring.
Qed.
Print Assumptions C123_likelihood_partial.

(* ---------------- data ---------------- *)
Definition times_in (c : R) (S_ : tval) : tval :=
  {| tv_isarray := tv_isarray S_; tv_dims := tv_dims S_; tv_isfloat := tv_isfloat S_; tv_at := fun i => c * tv_at S_ i |}.
(** C123 (data): the same recordings are accepted, the same refused for the same reason, and stored in the new unit. *)
Theorem C123_add_data : forall c m S_ C_ T f, 0 < c ->
  ct_add_data (ct_model_in c m) (times_in c S_) C_ (c * T) f = result_map (ct_model_in c) (ct_add_data m S_ C_ T f).
Proof.
  intros c m S_ C_ T f Hc. unfold ct_add_data. cbn [times_in tv_isarray tv_dims tv_isfloat tv_at ct_model_in cm_K]. fold (times_in c S_) (ct_model_in c m).
  destruct (guard f AssertionError); cbn [bindr result_map]; [|reflexivity].
  destruct (py_len (tv_dims S_)) as [n|]; cbn [bindr result_map]; [|reflexivity].
  replace (forall_lt n (fun i => (Rleb 0 (c * tv_at S_ i) && Rltb (c * tv_at S_ i) (c * T))%bool)) with (forall_lt n (fun i => (Rleb 0 (tv_at S_ i) && Rltb (tv_at S_ i) T)%bool)).
  2:{ apply forall_lt_ext. intros i _. rewrite Rltb_scale by exact Hc. rewrite <- (Rmult_0_r c) at 2. now rewrite Rleb_scale. }
  replace (forall_lt (n - 1) (fun i => Rleb 0 (c * tv_at S_ (S i) - c * tv_at S_ i))) with (forall_lt (n - 1) (fun i => Rleb 0 (tv_at S_ (S i) - tv_at S_ i))).
  2:{ apply forall_lt_ext. intros i _. rewrite <- Rmult_minus_distr_l. rewrite <- (Rmult_0_r c) at 2. now rewrite Rleb_scale. }
  repeat match goal with
  | |- (do _ <- ?x ;; _) = result_map _ (do _ <- ?x ;; _) => destruct x as [?|]; cbn [bindr result_map]; [|reflexivity]
  end.
  f_equal. unfold cm_with_data, cm_set, ct_model_in. cbn. rewrite map_app. reflexivity.
Qed.
Print Assumptions C123_add_data.

(* ---------------- parents ---------------- *)
Lemma sdt_in c D x : 0 < c -> 0 < x -> x < D -> sdt (c * D) (c * x) = sdt D x.
Proof. intros Hc H1 H2. unfold sdt. rewrite <- Rmult_minus_distr_l, !ln_mult by lra. ring. Qed.
Lemma suff_stats_in c N S_ C Z_ D : 0 < c -> ct_suff_stats N (fun n => c * S_ n) C Z_ (c * D) = ct_suff_stats N S_ C Z_ D.
Proof.
  intros Hc. unfold ct_suff_stats.
  set (b1 := forall_lt N _). set (b2 := forall_lt N (fun n => (Z.eqb (Z_ n) (-1) || (Rltb 0 (S_ n - S_ (Z.to_nat (Z_ n))) && Rltb (S_ n - S_ (Z.to_nat (Z_ n))) D))%bool)).
  assert (E : b1 = b2).
  { apply forall_lt_ext. intros n _. rewrite <- Rmult_minus_distr_l, Rltb_scale by exact Hc. rewrite <- (Rmult_0_r c) at 1. now rewrite Rltb_scale. }
  rewrite E. clear E b1. destruct b2 eqn:G.
  2:{ destruct (fold_left (ss_pass1 (fun n => c * S_ n) C Z_ (c * D)) _ _) as [[[? ?] ?] ?]. destruct (fold_left (ss_pass1 S_ C Z_ D) _ _) as [[[? ?] ?] ?]. reflexivity. }
  assert (G1 : forall n, (n < N)%nat -> Z.eqb (Z_ n) (-1) = false -> 0 < S_ n - S_ (Z.to_nat (Z_ n)) < D).
  { intros n Hn Hz. unfold b2 in G. rewrite forall_lt_true in G. specialize (G n Hn). cbv beta in G. rewrite Hz in G. cbn [orb] in G.
    apply andb_prop in G as [X Y]. apply Rltb_true in X. apply Rltb_true in Y. lra. }
  rewrite (@fold_ext_in _ _ (ss_pass1 (fun n => c * S_ n) C Z_ (c * D)) (ss_pass1 S_ C Z_ D)).
  2:{ intros [[[bk ws] i0] i1] n Hn. apply in_seq in Hn. unfold ss_pass1. destruct (Z.eqb (Z_ n) (-1)) eqn:Ez; [reflexivity|].
      destruct (@G1 n ltac:(lia) Ez). rewrite <- Rmult_minus_distr_l, sdt_in by lra. reflexivity. }
  destruct (fold_left (ss_pass1 S_ C Z_ D) _ _) as [[[bk ws] i0] i1].
  rewrite (@fold_ext_in _ _ (ss_pass2 (fun n => c * S_ n) C Z_ (c * D) (fun a b => i1 a b / i0 a b)) (ss_pass2 S_ C Z_ D (fun a b => i1 a b / i0 a b))); [reflexivity|].
  intros i2 n Hn. apply in_seq in Hn. unfold ss_pass2. destruct (Z.ltb_spec (-1) (Z_ n)); [|reflexivity].
  assert (Ez : Z.eqb (Z_ n) (-1) = false) by (apply Z.eqb_neq; lia). destruct (@G1 n ltac:(lia) Ez). rewrite <- Rmult_minus_distr_l, sdt_in by lra. reflexivity.
Qed.
(** C123 (parents): the same uniform numbers select the same parents and leave the same statistics. *)
Theorem C123_parents_partial : forall c m order u d, 0 < c -> clear_recording c (cm_dtmax m) d -> (forall n, In n order -> (n < cd_N d)%nat) ->
  ct_parents_resample (ct_model_in c m) order u (recording_in c d) = result_map (recording_in c) (ct_parents_resample m order u d).
Proof.
  intros c m order u d Hc Hd Ho. unfold ct_parents_resample. cbn [ct_model_in recording_in cd_N cd_S cd_C cd_Z cm_dtmax cm_lam cm_mu cm_tau cm_K].
  fold (ct_model_in c m) (recording_in c d). change (ct_W_effective (ct_model_in c m)) with (ct_W_effective m). change (cd_Ns (recording_in c d)) with (cd_Ns d).
  unfold ct_resample_Z. rewrite (@run_tasks_r_in _ (ct_parent (cd_S d) (cd_C d) (cm_dtmax m) (cm_lam m) (ct_W_effective m) (cm_mu m) (cm_tau m) u)).
  2:{ intros n Hn. apply parent_in; auto. }
  destruct (run_tasks_r _ _ _) as [Z_|]; cbn [bindr result_map]; [|reflexivity].
  destruct (guard _ _); cbn [bindr result_map]; [|reflexivity]. destruct (guard _ _); cbn [bindr result_map]; [|reflexivity].
  rewrite suff_stats_in by exact Hc. destruct (ct_suff_stats _ _ _ _ _) as [[[bk ws] im]|]; cbn [bindr result_map]; [|reflexivity].
  destruct (guard _ _); cbn [bindr result_map]; reflexivity.
Qed.
Print Assumptions C123_parents_partial.

(* ---------------- parameters ---------------- *)
Lemma bias_in_ct g c m data : 0 < c -> (forall k a s, g k a (s / c) = g k a s / c) ->
  ct_bias_resample g (ct_model_in c m) (map (recording_in c) data) = fun k => ct_bias_resample g m data k / c.
Proof.
  intros Hc Hg. apply functional_extensionality. intros k. unfold ct_bias_resample, ct_bias_request. cbn [ct_model_in cm_alpha cm_beta].
  assert (E : ct_bias_ss (map cd_stat (map (recording_in c) data)) k = (fst (ct_bias_ss (map cd_stat data) k), c * snd (ct_bias_ss (map cd_stat data) k))).
  { unfold ct_bias_ss. rewrite map_map.
    assert (G : forall x y, fold_left (fun (_ : R * R) d => (cs_bkgd d k, cs_T d)) (map (fun x => cd_stat (recording_in c x)) data) (x, c * y)
      = (fst (fold_left (fun (_ : R * R) d => (cs_bkgd d k, cs_T d)) (map cd_stat data) (x, y)), c * snd (fold_left (fun (_ : R * R) d => (cs_bkgd d k, cs_T d)) (map cd_stat data) (x, y)))).
    { induction data as [|d data IH]; intros x y; [reflexivity|]. cbn [map fold_left cd_stat recording_in cs_bkgd cs_T cd_bkgd cd_T]. apply IH. }
    rewrite <- G. now rewrite Rmult_0_r. }
  rewrite E. destruct (ct_bias_ss (map cd_stat data) k) as [s0 s1]. cbn [fst snd]. rewrite <- Hg. f_equal.
  rewrite <- Rmult_plus_distr_l. unfold Rdiv. rewrite Rinv_mult. ring.
Qed.
Lemma pool_map {A B} (f : B -> R) (h : A -> B) l : pool f (map h l) = pool (fun a => f (h a)) l.
Proof. rewrite !pool_lsum, map_map. reflexivity. Qed.
(** C123 (parameters): weights and response parameters are drawn from the same distributions; background rates, with the prior in the
    new unit, from the same one per new unit (same shape, scale divided by c). *)
Theorem C123_parameter_requests : forall c m data, 0 < c ->
  (forall alpha beta k, ct_bias_request alpha (c * beta) (map cd_stat (map (recording_in c) data)) k
     = (fst (ct_bias_request alpha beta (map cd_stat data) k), snd (ct_bias_request alpha beta (map cd_stat data) k) / c)) /\
  (forall k1 k2, ct_imp_request (ct_model_in c m) (map (recording_in c) data) k1 k2 = ct_imp_request m data k1 k2) /\
  (forall n A k1 k2, ct_W_request n A (map (recording_in c) data) k1 k2 = ct_W_request n A data k1 k2).
Proof.
  intros c m data Hc. split; [|split].
  - intros alpha beta k.
    pose (m0 := {| cm_K := cm_K m; cm_dtmax := cm_dtmax m; cm_lam := cm_lam m; cm_A := cm_A m; cm_W := cm_W m; cm_mu := cm_mu m; cm_tau := cm_tau m;
                   cm_net := cm_net m; cm_data := []; cm_alpha := alpha; cm_beta := beta; cm_mu0 := 0; cm_lmbda0 := 0; cm_alpha0 := 0; cm_beta0 := 0; cm_par := true |}).
    pose proof (f_equal (fun f => f k) (@bias_in_ct (fun _ a s => s) c m0 data Hc ltac:(reflexivity))) as E1.
    cbv beta in E1. unfold ct_bias_resample in E1. cbn [m0 ct_model_in cm_alpha cm_beta] in E1.
    pose proof (f_equal (fun f => f k) (@bias_in_ct (fun _ a s => a * s) c m0 data Hc ltac:(intros; unfold Rdiv; ring))) as E2.
    destruct (ct_bias_request alpha (c * beta) _ k) as [a s] eqn:Q1. destruct (ct_bias_request alpha beta (map cd_stat data) k) as [a' s'] eqn:Q2. cbn [fst snd].
    f_equal; [|exact E1]. clear E1 E2 m0. unfold ct_bias_request, ct_bias_ss in Q1, Q2. rewrite map_map in Q1.
    assert (G : forall p q, fst p = fst q -> fst (fold_left (fun (_ : R * R) d => (cs_bkgd d k, cs_T d)) (map (fun x => cd_stat (recording_in c x)) data) p)
       = fst (fold_left (fun (_ : R * R) d => (cs_bkgd d k, cs_T d)) (map cd_stat data) q)).
    { clear. induction data as [|d data IH]; intros p q Hpq; [exact Hpq|]. cbn [map fold_left]. apply IH. reflexivity. }
    specialize (G (0, 0) (0, 0) eq_refl). destruct (fold_left _ _ _) as [x y], (fold_left _ (map cd_stat data) _) as [x' y']. cbn [fst] in G. congruence.
  - intros k1 k2. unfold ct_imp_request, nig_stats. rewrite !pool_map. reflexivity.
  - intros n A k1 k2. unfold ct_W_request. rewrite !pool_map. reflexivity.
Qed.
Print Assumptions C123_parameter_requests.

(* ---------------- edges ---------------- *)
Definition events_of (k : nat) (d : ctdata) : R := Rsum (cd_N d) (fun n => if Nat.eqb (cd_C d n) k then 1 else 0).
Lemma ll_single_in_ct c norder m data k a : 0 < c -> (forall d, In d data -> clear_recording c (cm_dtmax m) d /\ same_schedule c norder d) ->
  ct_ll_single (ct_model_in c m) (fun d => ct_irs (norder d) (ct_model_in c m) d) (map (recording_in c) data) k a
  = esub (ct_ll_single m (fun d => ct_irs (norder d) m d) data k a) (Fin (ln c * lsum (map (events_of k) data))).
Proof.
  intros Hc H. assert (Hc0 : c <> 0) by lra. unfold ct_ll_single.
  assert (G1 : forall d, In d data -> ct_ll_single_data (ct_model_in c m) (fun d => ct_irs (norder d) (ct_model_in c m) d) k a (recording_in c d)
     = esub (ct_ll_single_data m (fun d => ct_irs (norder d) m d) k a d) (Fin (ln c * events_of k d))).
  { intros d Hin. destruct (H d Hin) as [Hd [Ho1 Ho2]]. unfold ct_ll_single_data. cbn [ct_model_in recording_in cm_K cm_lam cm_W cd_T cd_N cd_C].
    fold (ct_model_in c m) (recording_in c d). change (cd_Ns (recording_in c d)) with (cd_Ns d).
    replace (0 - cm_lam m k / c * (c * cd_T d)) with (0 - cm_lam m k * cd_T d) by (field; exact Hc0).
    rewrite <- eadd_esub. f_equal. unfold events_of. rewrite <- Rsum_scal, <- un_esum. apply esum_ext. intros n Hn.
    destruct (Nat.eqb (cd_C d n) k); [|rewrite Rmult_0_r, esub_fin; f_equal; ring]. rewrite Rmult_1_r, <- elog_per by exact Hc. f_equal. f_equal.
    rewrite Rdiv_plus_distr, <- Rsum_per. f_equal. apply Rsum_ext. intros k1 _. rewrite Ho1.
    enough (E : ct_irs (norder d) (ct_model_in c m) (recording_in c d) n k1 = ct_irs (norder d) m d n k1 / c) by (rewrite E; unfold Rdiv; ring).
    unfold ct_irs. pose proof (@run_tasks_in vec (fun v k => v k / c)) as R1. cbv beta in R1.
    assert (E : run_tasks (norder d) (ct_irs_one (cd_S (recording_in c d)) (cd_C (recording_in c d)) (cm_dtmax (ct_model_in c m)) (cm_W (ct_model_in c m)) (cm_mu (ct_model_in c m)) (cm_tau (ct_model_in c m))) (fun _ _ => 0) n
      = (fun v k => v k / c) (run_tasks (norder d) (ct_irs_one (cd_S d) (cd_C d) (cm_dtmax m) (cm_W m) (cm_mu m) (cm_tau m)) (fun _ _ => 0) n)).
    { apply (@run_tasks_in vec (fun v k => v k / c)).
      - intros i Hi. apply functional_extensionality. intros k0. cbn [recording_in ct_model_in cd_S cd_C cm_dtmax cm_W cm_mu cm_tau]. apply irs_one_in; auto.
      - intros i. apply functional_extensionality. intros k0. unfold Rdiv. symmetry. apply Rmult_0_l. }
    rewrite E. reflexivity. }
  assert (G : forall l acc x, (forall d, In d l -> In d data) ->
     fold_left (fun s d => eadd s (ct_ll_single_data (ct_model_in c m) (fun d => ct_irs (norder d) (ct_model_in c m) d) k a d)) (map (recording_in c) l) (esub acc (Fin x))
     = esub (fold_left (fun s d => eadd s (ct_ll_single_data m (fun d => ct_irs (norder d) m d) k a d)) l acc) (Fin (x + ln c * lsum (map (events_of k) l)))).
  { induction l as [|d l IH]; intros acc x Hl; cbn [fold_left map lsum]; [f_equal; f_equal; ring|].
    rewrite G1 by (apply Hl; now left). rewrite eadd_esub_l, eadd_esub, esub_assoc, IH by (intros; apply Hl; now right). f_equal. f_equal. ring. }
  specialize (G data (Fin 0) 0 ltac:(auto)). replace (esub (Fin 0) (Fin 0)) with (Fin 0) in G by (rewrite esub_fin; f_equal; ring).
  rewrite G. f_equal. f_equal. ring.
Qed.
Lemma serial_shift ll ll' (a0 : nat -> R) P u K A : (forall k a, ll' k a = esub (ll k a) (Fin (a0 k))) -> ct_A_serial ll' P u K A = ct_A_serial ll P u K A.
Proof.
  intros H. unfold ct_A_serial. apply fold_ext_in. intros B i _. apply fold_ext_in. intros B' j _. unfold ct_edge_step.
  destruct (Reqb (P i j) 0); [reflexivity|]. destruct (Reqb (P i j) 1); [reflexivity|]. rewrite !H, !eadd_esub_l, accept_shift. reflexivity.
Qed.
Lemma parallel_shift order ll ll' (a0 : nat -> R) P u K A : (forall k a, ll' k a = esub (ll k a) (Fin (a0 k))) -> ct_A_parallel order ll' P u K A = ct_A_parallel order ll P u K A.
Proof.
  intros H. unfold ct_A_parallel. apply functional_extensionality. intros k1. apply functional_extensionality. intros k2.
  rewrite (@run_tasks_in _ (fun x => x) (fun k2 => resample_column (ll k2) (fun k1 => P k1 k2) (fun k1 => u k1 k2) K (fun k1 => A k1 k2)) _ order (fun _ _ => false) (fun _ _ => false)); [reflexivity| |reflexivity].
  intros n _. eapply column_shift. intros a. apply H.
Qed.
Lemma weights_in_ct c order norder g u m data : 0 < c -> (forall d, In d data -> clear_recording c (cm_dtmax m) d /\ same_schedule c norder d) ->
  ct_weights_resample order norder g u (ct_model_in c m) (map (recording_in c) data) = ct_model_in c (ct_weights_resample order norder g u m data).
Proof.
  intros Hc H. unfold ct_weights_resample.
  replace (ct_W_resample g (net_view (cm_net (ct_model_in c m))) (cm_A (ct_model_in c m)) (map (recording_in c) data)) with (ct_W_resample g (net_view (cm_net m)) (cm_A m) data).
  2:{ apply functional_extensionality. intros k1. apply functional_extensionality. intros k2. unfold ct_W_resample.
      destruct (@C123_parameter_requests c m data Hc) as (_ & _ & E). now rewrite E. }
  set (W := ct_W_resample g (net_view (cm_net m)) (cm_A m) data).
  set (m1 := cm_set m (cm_lam m) (cm_A m) W (cm_mu m) (cm_tau m) (cm_net m) (cm_data m)).
  change (cm_set (ct_model_in c m) (cm_lam (ct_model_in c m)) (cm_A (ct_model_in c m)) W (cm_mu (ct_model_in c m)) (cm_tau (ct_model_in c m)) (cm_net (ct_model_in c m)) (cm_data (ct_model_in c m))) with (ct_model_in c m1).
  set (ll := ct_ll_single m1 (fun d => ct_irs (norder d) m1 d) data).
  set (ll' := ct_ll_single (ct_model_in c m1) (fun d => ct_irs (norder d) (ct_model_in c m1) d) (map (recording_in c) data)).
  assert (HL : forall k a, ll' k a = esub (ll k a) (Fin (ln c * lsum (map (events_of k) data)))).
  { intros k a. apply ll_single_in_ct; [exact Hc|]. exact H. }
  change (cm_par (ct_model_in c m1)) with (cm_par m1). change (cm_K (ct_model_in c m1)) with (cm_K m1). change (cm_A (ct_model_in c m1)) with (cm_A m1).
  change (net_view (cm_net (ct_model_in c m))) with (net_view (cm_net m)).
  rewrite (@serial_shift ll ll' _ _ _ _ _ HL).
  replace (match map (recording_in c) data with [] => fun k1 k2 => Rltb (u k1 k2) (n_P (net_view (cm_net m)) k1 k2) | _ => ct_A_parallel order ll' (n_P (net_view (cm_net m))) u (cm_K m1) (cm_A m1) end)
    with (match data with [] => fun k1 k2 => Rltb (u k1 k2) (n_P (net_view (cm_net m)) k1 k2) | _ => ct_A_parallel order ll (n_P (net_view (cm_net m))) u (cm_K m1) (cm_A m1) end).
  2:{ destruct data as [|d0 data0]; [reflexivity|]. cbn [map]. now rewrite (@parallel_shift order ll ll' _ _ _ _ _ HL). }
  reflexivity.
Qed.

(* ---------------- a whole sweep ---------------- *)
Lemma resample_keeps m order u d d' : ct_parents_resample m order u d = Ok d' -> cd_N d' = cd_N d /\ cd_S d' = cd_S d.
Proof.
  unfold ct_parents_resample. intros H.
  destruct (ct_resample_Z _ _ _ _ _ _ _ _ _ _); cbn [bindr] in H; [|discriminate].
  destruct (guard _ _); cbn [bindr] in H; [|discriminate]. destruct (guard _ _); cbn [bindr] in H; [|discriminate].
  destruct (ct_suff_stats _ _ _ _ _) as [[[bk ws] im]|]; cbn [bindr] in H; [|discriminate].
  destruct (guard _ _); cbn [bindr] in H; [|discriminate]. injection H as <-. split; reflexivity.
Qed.
Lemma resample_all_in c m dr : 0 < c -> forall data i,
  (forall d, In d data -> clear_recording c (cm_dtmax m) d /\ same_schedule c (td_norder dr) d) ->
  ct_resample_all (ct_model_in c m) dr i (map (recording_in c) data) = result_map (map (recording_in c)) (ct_resample_all m dr i data).
Proof.
  intros Hc. induction data as [|d data IH]; intros i H; [reflexivity|]. cbn [map ct_resample_all].
  destruct (H d (or_introl eq_refl)) as [H1 [H2 H3]]. rewrite H2, C123_parents_partial by auto.
  destruct (ct_parents_resample m _ _ d) as [d'|]; cbn [bindr result_map]; [|reflexivity]. rewrite IH by (intros; apply H; now right).
  destruct (ct_resample_all m dr (S i) data); reflexivity.
Qed.
Lemma resample_all_keeps m dr : forall data i data', ct_resample_all m dr i data = Ok data' ->
  forall d', In d' data' -> exists d, In d data /\ cd_N d' = cd_N d /\ cd_S d' = cd_S d.
Proof.
  induction data as [|d data IH]; intros i data' H d' Hin; cbn [ct_resample_all] in H; [injection H as <-; destruct Hin|].
  destruct (ct_parents_resample m _ _ d) as [d1|] eqn:E; cbn [bindr] in H; [|discriminate].
  destruct (ct_resample_all m dr (S i) data) as [r|] eqn:Er; cbn [bindr] in H; [|discriminate]. injection H as <-.
  destruct Hin as [<-|Hin]; [exists d; split; [now left|eapply resample_keeps; exact E]|].
  destruct (IH _ _ Er d' Hin) as (x & Hx & Hk). exists x. split; [now right|exact Hk].
Qed.

(** C123 (sampling): fed with the same random numbers, a whole Gibbs sweep commutes with the change of unit.  The schedule of the parallel loops
    must not depend on the unit (it may depend on anything else), and a Gamma variate of scale s/c must be 1/c times one of
    scale s (as NumPy's are). *)
Theorem C123_sweep_partial : forall lgam c dr m, 0 < c ->
  (forall d, In d (cm_data m) -> clear_recording c (cm_dtmax m) d) ->
  (forall d, td_norder dr (recording_in c d) = td_norder dr d) ->
  (forall d n, In n (td_norder dr d) -> (n < cd_N d)%nat) ->
  (forall k a s, td_bias dr k a (s / c) = td_bias dr k a s / c) ->
  ct_sweep lgam dr (ct_model_in c m) = result_map (ct_model_in c) (ct_sweep lgam dr m).
Proof.
  intros lgam c dr m Hc Hd Hs1 Hs2 Hg. unfold ct_sweep. change (cm_data (ct_model_in c m)) with (map (recording_in c) (cm_data m)).
  assert (HH : forall d, In d (cm_data m) -> clear_recording c (cm_dtmax m) d /\ same_schedule c (td_norder dr) d)
    by (intros d Hin; split; [now apply Hd|split; [apply Hs1|intros n; apply Hs2]]).
  rewrite resample_all_in by (exact Hc || exact HH).
  destruct (ct_resample_all m dr 0 (cm_data m)) as [data|] eqn:E; cbn [bindr result_map]; [|reflexivity]. f_equal.
  change (cm_with_data (ct_model_in c m) (map (recording_in c) data)) with (ct_model_in c (cm_with_data m data)).
  set (m1 := cm_with_data m data). rewrite bias_in_ct by auto. set (lam := ct_bias_resample (td_bias dr) m1 data).
  set (m2 := cm_set m1 lam (cm_A m1) (cm_W m1) (cm_mu m1) (cm_tau m1) (cm_net m1) data).
  change (cm_set (ct_model_in c m1) (fun k => lam k / c) (cm_A (ct_model_in c m1)) (cm_W (ct_model_in c m1)) (cm_mu (ct_model_in c m1)) (cm_tau (ct_model_in c m1)) (cm_net (ct_model_in c m1)) (map (recording_in c) data))
    with (ct_model_in c m2).
  replace (ct_imp_resample (td_g dr) (td_nrm dr) (ct_model_in c m2) (map (recording_in c) data)) with (ct_imp_resample (td_g dr) (td_nrm dr) m2 data).
  2:{ apply functional_extensionality. intros k1. apply functional_extensionality. intros k2. unfold ct_imp_resample.
      destruct (@C123_parameter_requests c m2 data Hc) as (_ & E2 & _). now rewrite E2. }
  set (mt := ct_imp_resample (td_g dr) (td_nrm dr) m2 data).
  set (m3 := cm_set m2 (cm_lam m2) (cm_A m2) (cm_W m2) (fun a b => fst (mt a b)) (fun a b => snd (mt a b)) (cm_net m2) data).
  change (cm_set (ct_model_in c m2) (cm_lam (ct_model_in c m2)) (cm_A (ct_model_in c m2)) (cm_W (ct_model_in c m2)) (fun a b => fst (mt a b)) (fun a b => snd (mt a b)) (cm_net (ct_model_in c m2)) (map (recording_in c) data))
    with (ct_model_in c m3).
  set (no := net_resample lgam (td_net dr) (td_er dr) (cm_A m3) (cm_W m3) (cm_net m3)).
  change (net_resample lgam (td_net dr) (td_er dr) (cm_A (ct_model_in c m3)) (cm_W (ct_model_in c m3)) (cm_net (ct_model_in c m3))) with no.
  set (m4 := cm_set m3 (cm_lam m3) (cm_A m3) (cm_W m3) (cm_mu m3) (cm_tau m3) no data).
  change (cm_set (ct_model_in c m3) (cm_lam (ct_model_in c m3)) (cm_A (ct_model_in c m3)) (cm_W (ct_model_in c m3)) (cm_mu (ct_model_in c m3)) (cm_tau (ct_model_in c m3)) no (map (recording_in c) data))
    with (ct_model_in c m4).
  apply weights_in_ct; [exact Hc|]. intros d' Hin. destruct (@resample_all_keeps m dr _ _ _ E d' Hin) as (d & Hin' & EN & ES).
  split; [|split; [apply Hs1|intros n; apply Hs2]]. unfold clear_recording. rewrite EN, ES. intros p n Hp Hn. exact (Hd d Hin' p n Hp Hn).
Qed.
Print Assumptions C123_sweep_partial.

(* ---------------- simulation ---------------- *)
Lemma iter_r_map {A B S S'} (f : A -> S -> result S) (f' : B -> S' -> result S') (h : A -> B) (hs : S -> S') :
  (forall a st, f' (h a) (hs st) = result_map hs (f a st)) ->
  forall l st, iter_r f' (map h l) (hs st) = result_map hs (iter_r f l st).
Proof.
  intros H. induction l as [|a l IH]; intros st; [reflexivity|]. cbn [map iter_r]. rewrite H. destruct (f a st); cbn [bindr result_map]; [apply IH|reflexivity].
Qed.
Definition ev_in (c : R) (e : ev) : ev := (c * fst e, snd e).
Definition gst_in (c : R) (st : gst) : gst := (map (ev_in c) (fst st), snd st).
Lemma iter_r_same {A S S'} (f : A -> S -> result S) (f' : A -> S' -> result S') (hs : S -> S') :
  (forall a st, f' a (hs st) = result_map hs (f a st)) ->
  forall l st, iter_r f' l (hs st) = result_map hs (iter_r f l st).
Proof. intros H l st. pose proof (iter_r_map f f' (fun a => a) hs H l st) as E. now rewrite map_id in E. Qed.
Lemma child_times_in c m T s_pa c_pa k n x : 0 < c ->
  child_times (ct_model_in c m) (c * T) (c * s_pa) c_pa k n x = map (Rmult c) (child_times m T s_pa c_pa k n x).
Proof.
  intros Hc. unfold child_times. cbn [ct_model_in cm_dtmax cm_mu cm_tau].
  induction (seq 0 n) as [|i l IH]; [reflexivity|]. cbn [map filter].
  replace (c * s_pa + c * cm_dtmax m * logistic 1 (cm_mu m c_pa k + sqrt (1 / cm_tau m c_pa k) * x i))
    with (c * (s_pa + cm_dtmax m * logistic 1 (cm_mu m c_pa k + sqrt (1 / cm_tau m c_pa k) * x i))) by ring.
  rewrite Rltb_scale by exact Hc. destruct (Rltb _ T); cbn [map]; rewrite IH; reflexivity.
Qed.
Lemma helper_in c r m T : 0 < c -> forall fuel s_pa c_pa st,
  gen_helper r (ct_model_in c m) (c * T) fuel (c * s_pa) c_pa (gst_in c st) = result_map (gst_in c) (gen_helper r m T fuel s_pa c_pa st).
Proof.
  intros Hc. induction fuel as [|f IH]; intros s_pa c_pa st; [reflexivity|]. cbn [gen_helper]. cbn [ct_model_in cm_K cm_W cm_A]. fold (ct_model_in c m).
  apply iter_r_same. intros k [evs tr]. destruct (_ || _)%bool; [reflexivity|]. unfold gst_in at 1. cbn [fst snd].
  destruct (ask_pois r (cm_W m c_pa k) tr) as [[n tr1]|]; cbn [bindr result_map]; [|reflexivity].
  destruct (ask_norm r n tr1) as [x tr2]. rewrite child_times_in by exact Hc.
  rewrite <- (@iter_r_map R R gst gst (fun s st => gen_helper r m T f s k st) (fun s st => gen_helper r (ct_model_in c m) (c * T) f s k st) (Rmult c) (gst_in c)).
  - f_equal. unfold gst_in. cbn [fst snd]. f_equal. rewrite map_app. f_equal. rewrite !map_map. reflexivity.
  - intros s st'. apply IH.
Qed.
Lemma gen_all_in c r m T max_round st : 0 < c ->
  gen_all r (ct_model_in c m) (c * T) max_round (gst_in c st) = result_map (gst_in c) (gen_all r m T max_round st).
Proof.
  intros Hc. unfold gen_all. cbn [ct_model_in cm_K cm_lam]. fold (ct_model_in c m). apply iter_r_same. intros k [evs tr]. unfold gst_in at 1. cbn [fst snd].
  replace (cm_lam m k / c * (c * T)) with (cm_lam m k * T) by (field; lra).
  destruct (ask_pois r (cm_lam m k * T) tr) as [[n tr1]|]; cbn [bindr result_map]; [|reflexivity].
  destruct (ask_unif r n tr1) as [u tr2].
  replace (map (fun i => u i * (c * T)) (seq 0 n)) with (map (Rmult c) (map (fun i => u i * T) (seq 0 n))) by (rewrite map_map; apply map_ext; intros; ring).
  rewrite <- (@iter_r_map R R gst gst (fun s st => gen_helper r m T max_round s k st) (fun s st => gen_helper r (ct_model_in c m) (c * T) max_round s k st) (Rmult c) (gst_in c)).
  - f_equal. unfold gst_in. cbn [fst snd]. f_equal. rewrite map_app. f_equal. rewrite !map_map. reflexivity.
  - intros s st'. apply helper_in. exact Hc.
Qed.
(** C123 (simulation): the same random numbers are asked for, and the same answers give the same events, at times in the new
    unit.  [argsort], which answers the order of a list of times, must not depend on the unit. *)
Theorem C123_simulation : forall c r argsort m keep T f max_round tr0, 0 < c ->
  (forall l, argsort (map (Rmult c) l) = argsort l) ->
  ct_generate r argsort (ct_model_in c m) keep (c * T) f max_round tr0
  = (result_map (fun x => let '(S_, C_, tr) := x in (map (Rmult c) S_, C_, tr)) (fst (ct_generate r argsort m keep T f max_round tr0)),
     ct_model_in c (snd (ct_generate r argsort m keep T f max_round tr0))).
Proof.
  intros c r argsort m keep T f max_round tr0 Hc Ha. unfold ct_generate.
  change (@nil ev, tr0) with (gst_in c ([], tr0)) at 1. rewrite gen_all_in by exact Hc.
  destruct (gen_all r m T max_round ([], tr0)) as [[evs tr]|]; cbn [result_map]; [|reflexivity]. unfold gst_in. cbn [fst snd ct_model_in cm_K]. fold (ct_model_in c m).
  destruct (Nat.eqb (cm_K m) 0); [reflexivity|].
  replace (map fst (map (ev_in c) evs)) with (map (Rmult c) (map fst evs)) by (rewrite !map_map; reflexivity).
  replace (map snd (map (ev_in c) evs)) with (map snd evs) by (rewrite !map_map; reflexivity). rewrite Ha.
  set (perm := argsort (map fst evs)).
  assert (ES : map (fun i => nth i (map (Rmult c) (map fst evs)) 0) perm = map (Rmult c) (map (fun i => nth i (map fst evs) 0) perm)).
  { symmetry. etransitivity; [apply map_map|]. apply map_ext. intros i. symmetry. rewrite <- (Rmult_0_r c) at 1. apply map_nth. }
  rewrite ES. set (S_ := map (fun i => nth i (map fst evs) 0) perm). set (C_ := map (fun i => nth i (map snd evs) 0%nat) perm).
  destruct keep; [|reflexivity].
  set (tv := {| tv_isarray := true; tv_dims := [length S_]; tv_isfloat := true; tv_at := fun i => nth i S_ 0 |}).
  assert (Et : {| tv_isarray := true; tv_dims := [length (map (Rmult c) S_)]; tv_isfloat := true; tv_at := fun i => nth i (map (Rmult c) S_) 0 |} = times_in c tv).
  { unfold times_in, tv. cbn [tv_isarray tv_dims tv_isfloat tv_at]. rewrite map_length. f_equal. apply functional_extensionality. intros i. rewrite <- (Rmult_0_r c) at 1. apply map_nth. }
  rewrite Et, C123_add_data by exact Hc. destruct (ct_add_data m tv _ T f); reflexivity.
Qed.
Print Assumptions C123_simulation.

(* ---------------- impulse responses and the rate on a grid ---------------- *)
Lemma ediv_scale c a b : 0 < c -> ediv (Fin (c * a)) (Fin (c * b)) = ediv (Fin a) (Fin b).
Proof.
  intros Hc. cbn [ediv]. rewrite Reqb_scale, einf_sign_scale by exact Hc. destruct (Reqb b 0) eqn:E; [reflexivity|]. apply Reqb_false in E. f_equal. field. split; lra.
Qed.
Lemma emul_per c x y : 0 < c -> emul (per_unit c x) y = per_unit c (emul x y).
Proof.
  intros Hc. assert (Es : forall a p, per_unit c (einf_sign a p) = einf_sign a p) by (intros a p; unfold einf_sign; destruct (Rltb 0 a), (Rltb a 0), p; reflexivity).
  assert (Ed : forall a p, einf_sign (a / c) p = einf_sign a p) by (intros; apply einf_sign_pos; now apply div_pos_iff).
  destruct x as [a| | |], y as [b| | |]; cbn; rewrite ?Es, ?Ed; try reflexivity. f_equal. unfold Rdiv. ring.
Qed.
(** C123 (responses): the impulse response is the same density per new unit, at every delay; so are the tables of responses
    and the rate on a grid. *)
Theorem C123_impulses : forall c, 0 < c ->
  (forall dt_max dt mu tau, py_impulse (c * dt_max) (c * dt) mu tau = per_unit c (py_impulse dt_max dt mu tau)) /\
  (forall m j k1 k2, ct_impulses (ct_model_in c m) j k1 k2 = per_unit c (ct_impulses m j k1 k2)) /\
  (forall m dt j k1 k2, dt <> 0 -> ct_impulse_grid (ct_model_in c m) (c * dt) j = c * ct_impulse_grid m dt j /\
     ct_compute_impulses (ct_model_in c m) (c * dt) j k1 k2 = per_unit c (ct_compute_impulses m dt j k1 k2)) /\
  (forall m N S_ C t k, ct_compute_rate (ct_model_in c m) N (fun n => c * S_ n) C (c * t) k = per_unit c (ct_compute_rate m N S_ C t k)).
Proof.
  intros c Hc. assert (Hc0 : c <> 0) by lra.
  assert (P : forall dt_max dt mu tau, py_impulse (c * dt_max) (c * dt) mu tau = per_unit c (py_impulse dt_max dt mu tau)).
  { intros D x mu tau. unfold py_impulse. rewrite ediv_scale by exact Hc. rewrite <- emul_per by exact Hc. f_equal.
    replace (c * x * (c * D - c * x) / (c * D) * sqrt (2 * PI / tau)) with (c * (x * (D - x) / D * sqrt (2 * PI / tau))).
    2:{ unfold Rdiv. rewrite Rinv_mult, <- Rmult_minus_distr_l. replace (c * x * (c * (D - x)) * (/ c * / D)) with (c * / c * (c * (x * (D - x) * / D))) by ring.
        rewrite Rinv_r by exact Hc0. ring. }
    set (z := x * (D - x) / D * sqrt (2 * PI / tau)). cbn [ediv]. rewrite Reqb_scale by exact Hc. destruct (Reqb z 0) eqn:E.
    - unfold einf_sign. rewrite Rltb_t by lra. reflexivity.
    - apply Reqb_false in E. cbn [per_unit]. f_equal. field. split; lra. }
  assert (G : forall m dt j, dt <> 0 -> ct_impulse_grid (ct_model_in c m) (c * dt) j = c * ct_impulse_grid m dt j).
  { intros m dt j Hdt. unfold ct_impulse_grid. cbn [ct_model_in cm_dtmax]. rewrite arange_len_scale by auto. destruct (Nat.ltb _ _); ring. }
  split; [exact P|]. split; [|split].
  - intros m j k1 k2. unfold ct_impulses. cbn [ct_model_in cm_dtmax cm_mu cm_tau]. rewrite <- P. f_equal. unfold linspace50. destruct (Nat.eqb j 49); [reflexivity|]. unfold Rdiv. ring.
  - intros m dt j k1 k2 Hdt. split; [now apply G|]. unfold ct_compute_impulses. rewrite G by exact Hdt. apply P.
  - intros m N S_ C t k. unfold ct_compute_rate. cbn [ct_model_in cm_dtmax cm_mu cm_tau cm_lam].
    assert (Pa : forall a x, eadd (Fin (0 + a / c)) (per_unit c x) = per_unit c (eadd (Fin (0 + a)) x)) by (intros a [x| | |]; cbn; try reflexivity; f_equal; unfold Rdiv; ring).
    assert (E0 : Fin (0 + cm_lam m k / c) = per_unit c (Fin (0 + cm_lam m k))) by (cbn; f_equal; unfold Rdiv; ring).
    assert (Q : forall l cur, fold_left (fun cur n => if (Rltb 0 (c * t - c * S_ n) && Rltb (c * t - c * S_ n) (c * cm_dtmax m))%bool
         then eadd (Fin (0 + cm_lam m k / c)) (py_impulse (c * cm_dtmax m) (c * t - c * S_ n) (cm_mu m (C n) k) (cm_tau m (C n) k)) else cur) l (per_unit c cur)
       = per_unit c (fold_left (fun cur n => if (Rltb 0 (t - S_ n) && Rltb (t - S_ n) (cm_dtmax m))%bool
         then eadd (Fin (0 + cm_lam m k)) (py_impulse (cm_dtmax m) (t - S_ n) (cm_mu m (C n) k) (cm_tau m (C n) k)) else cur) l cur)).
    { induction l as [|n l IH]; intros cur; [reflexivity|]. cbn [fold_left].
      rewrite <- Rmult_minus_distr_l, Rltb_scale by exact Hc. replace (Rltb 0 (c * (t - S_ n))) with (Rltb 0 (t - S_ n)) by (rewrite <- (Rmult_0_r c) at 2; now rewrite Rltb_scale).
      rewrite P, Pa. destruct (Rltb 0 (t - S_ n) && Rltb (t - S_ n) (cm_dtmax m))%bool; apply IH. }
    specialize (Q (seq 0 N) (Fin (0 + cm_lam m k))). rewrite <- E0 in Q. exact Q.
Qed.
Print Assumptions C123_impulses.

(* ---------------- the margins depend on the unit ---------------- *)
(** False of the code in general: the margins are 1e-8 of whatever unit is used.  Two events one nanosecond apart do not interact
    when time is counted in seconds, and do when it is counted in milliseconds, so the log likelihood does not move by the
    constant. *)
Theorem C123_margins_refuted : exists c m d order, 0 < c /\ params_ok m /\ data_ok (cm_K m) d /\ same_schedule c order d /\
  ct_log_likelihood order (ct_model_in c m) (Some [recording_in c d])
  <> esub (ct_log_likelihood order m (Some [d])) (Fin (ln c * INR (cd_N d))).
Proof.
  exists 1000, (ex_ct 1), (ex_rec (/ 10 ^ 9)), (fun _ => [0%nat; 1%nat]).
  assert (Hs : 0 < / 10 ^ 9 < eps) by (unfold eps; lra).
  split; [lra|]. split; [apply ex_ct_ok; lra|]. split; [apply ex_rec_ok; unfold eps in Hs; lra|]. split.
  { split; [reflexivity|]. intros n [<-|[<-|[]]]; cbn; lia. }
  set (h := ln_impulse (1000 * / 10 ^ 9) 0 1 2000).
  assert (Hh : 0 < h).
  { unfold h, ln_impulse. rewrite !Rltb_f by (unfold eps; lra). apply Rdiv_lt_0_compat; [apply exp_pos|]. rewrite sqrt_1. pose proof SQRT_2PI_pos.
    unfold Rdiv. rewrite Rinv_1, Rmult_1_r. apply Rmult_lt_0_compat; [|assumption]. lra. }
  unfold ct_log_likelihood. cbn [fold_left]. unfold ct_ll_data. cbn [recording_in ex_rec cd_N esum].
  unfold ct_model_rate, ct_rate_at_events. cbn [run_tasks upd Nat.eqb]. unfold upd. cbn [Nat.eqb].
  unfold ct_rate_one. cbn [back_scan recording_in ct_model_in ex_ct ex_rec cd_S cd_C cm_lam cm_dtmax cm_mu cm_tau Nat.eqb fst].
  fold (ex_ct 1) (ex_rec (/ 10 ^ 9)). unfold ct_integrated. cbn [ct_model_in recording_in ex_rec ex_ct cm_lam cd_T cm_K Rsum].
  fold (ex_ct 1) (ex_rec (/ 10 ^ 9)).
  assert (EW : ct_W_effective (ct_model_in 1000 (ex_ct 1)) 0%nat 0%nat = 1) by (unfold ct_W_effective; cbn; ring).
  assert (EW' : ct_W_effective (ex_ct 1) 0%nat 0%nat = 1) by (unfold ct_W_effective; cbn; ring).
  change (cd_Ns (recording_in 1000 (ex_rec (/ 10 ^ 9))) 0%nat) with (2)%Z. change (cd_Ns (ex_rec (/ 10 ^ 9)) 0%nat) with 2%Z.
  unfold ct_w. cbn [Nat.eqb]. rewrite EW, EW'.
  replace (1000 * / 10 ^ 9 - 1000 * 0) with (1000 * / 10 ^ 9) by ring. replace (1000 * 2) with 2000 by ring. fold h.
  replace (/ 10 ^ 9 - 0) with (/ 10 ^ 9) by ring. rewrite (@Rltb_t (/ 10 ^ 9) eps) by lra. rewrite (@Rltb_f (1000 * / 10 ^ 9) eps) by (unfold eps; lra).
  rewrite (@Rleb_f (2000 - eps) (1000 * / 10 ^ 9)) by (unfold eps; lra). rewrite (@Rltb_t 0 1) by lra. cbn [fst].
  rewrite !elog_fin by lra. rewrite !eadd_fin, !esub_fin. intros X. injection X as X.
  replace (0 + 1) with 1 in X by ring. rewrite ln_1 in X. replace (INR 2) with 2 in X by (cbn; lra).
  replace (0 + 1 / 1000) with (/ 1000) in X by lra. rewrite ln_Rinv in X by lra.
  assert (L : ln (/ 1000) < ln (/ 1000 + 1 * h)) by (apply ln_increasing; lra). rewrite ln_Rinv in L by lra. lra.
Qed.
Print Assumptions C123_margins_refuted.

(** A concrete case of the theorems: the same network with two events one second apart, in milliseconds. *)
Example C123_nonvacuous : clear_recording 1000 (cm_dtmax (ex_ct 1)) (ex_rec 1) /\ same_schedule 1000 (fun _ => [0%nat; 1%nat]) (ex_rec 1) /\
  params_ok (ex_ct 1) /\ data_ok 1 (ex_rec 1) /\ cm_dtmax (ct_model_in 1000 (ex_ct 1)) = 2000 /\ cd_S (recording_in 1000 (ex_rec 1)) 1%nat = 1000 /\
  (exists argsort, sorts argsort /\ forall l, argsort (map (Rmult 1000) l) = argsort l).
Proof.
  split.
  { intros p n Hp Hn. cbn in Hn. assert (n = 1%nat) as -> by lia. assert (p = 0%nat) as -> by lia. right. cbn. rewrite Rmin_left by lra. split; [lra|right; lra]. }
  split; [split; [reflexivity|intros n [<-|[<-|[]]]; cbn; lia]|]. split; [apply ex_ct_ok; lra|]. split; [apply ex_rec_ok; lra|].
  split; [cbn; lra|]. split; [cbn; lra|].
  exists argsort_ex. split; [exact argsort_exists|]. intros l. unfold argsort_ex. rewrite map_length. unfold isort.
  assert (I : forall i x, ins (fun i => nth i (map (Rmult 1000) l) 0) i x = ins (fun i => nth i l 0) i x).
  { intros i x. induction x as [|j x IH]; [reflexivity|]. cbn [ins]. rewrite IH.
    replace (nth i (map (Rmult 1000) l) 0) with (1000 * nth i l 0) by (symmetry; rewrite <- (Rmult_0_r 1000) at 1; apply map_nth).
    replace (nth j (map (Rmult 1000) l) 0) with (1000 * nth j l 0) by (symmetry; rewrite <- (Rmult_0_r 1000) at 1; apply map_nth).
    rewrite Rleb_scale by lra. reflexivity. }
  induction (seq 0 (length l)) as [|i x IH]; [reflexivity|]. cbn [fold_right]. rewrite IH. apply I.
Qed.
