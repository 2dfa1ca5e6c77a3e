(** * Props_CtCut2: C138 continued: the parameter updates of the continuous-time sweep on a cut recording.
    No new model code: M_Continuous (bias.py 185-210; impulses.py 392-416; weights.py 586-691; continuous_time_helpers.pyx 223-252). *)
From Coq Require Import Permutation FunctionalExtensionality.
From Verif Require Import Prelude ExtReal Arrays Spec_Gibbs Spec_Continuous Spec_CtCut M_Basis M_Parents M_Discrete M_Gibbs M_Dist M_Network M_Sweep
  L_Gibbs Props_Network M_Continuous L_Continuous Props_Continuous Props_CtCut.
Set Implicit Arguments.
Open Scope R_scope.

Lemma back_scan_vec_ext skip stop w c skip' stop' w' c' : forall n acc,
  (forall p, (p < n)%nat -> skip p = skip' p /\ stop p = stop' p /\ w p = w' p /\ c p = c' p) ->
  back_scan_vec skip stop w c n acc = back_scan_vec skip' stop' w' c' n acc.
Proof.
  induction n as [|n IH]; intros acc H; cbn [back_scan_vec]; [reflexivity|].
  destruct (H n ltac:(lia)) as (-> & -> & -> & ->).
  destruct (skip' n); [apply IH; intros; apply H; lia|]. destruct (stop' n); [reflexivity|]. apply IH. intros; apply H; lia.
Qed.
Lemma back_scan_vec_silent skip stop w c : forall n acc, (forall p, (p < n)%nat -> stop p = true) ->
  back_scan_vec skip stop w c n acc = acc.
Proof.
  induction n as [|n IH]; intros acc H; cbn [back_scan_vec]; [reflexivity|].
  destruct (skip n); [apply IH; intros; apply H; lia|]. now rewrite H by lia.
Qed.
Lemma back_scan_vec_shift N1 skip stop w c skip' stop' w' c' : forall n acc,
  (forall p, (p < N1)%nat -> stop p = true) ->
  (forall p, (p < n)%nat -> skip (N1 + p)%nat = skip' p /\ stop (N1 + p)%nat = stop' p /\ w (N1 + p)%nat = w' p /\ c (N1 + p)%nat = c' p) ->
  back_scan_vec skip stop w c (N1 + n) acc = back_scan_vec skip' stop' w' c' n acc.
Proof.
  induction n as [|n IH]; intros acc Hs H.
  - rewrite Nat.add_0_r. now apply back_scan_vec_silent.
  - rewrite Nat.add_succ_r. cbn [back_scan_vec]. destruct (H n ltac:(lia)) as (-> & -> & -> & ->).
    destruct (skip' n); [apply IH; auto; intros; apply H; lia|]. destruct (stop' n); [reflexivity|]. apply IH; auto; intros; apply H; lia.
Qed.

(** Weighted impulse responses at the events, used by the adjacency update: those of the parts. *)
Lemma irs_joined m d1 d2 d o1 o2 o : joined d1 d2 d ->
  silent_end (cd_N d1) (cd_T d1) (cm_dtmax m) (cd_S d1) -> (forall n, (n < cd_N d2)%nat -> 0 <= cd_S d2 n) ->
  Permutation o1 (seq 0 (cd_N d1)) -> Permutation o2 (seq 0 (cd_N d2)) -> Permutation o (seq 0 (cd_N d)) ->
  forall n, (n < cd_N d)%nat -> ct_irs o m d n = then_ (cd_N d1) (ct_irs o1 m d1) (ct_irs o2 m d2) n.
Proof.
  intros J Q P2 H1 H2 H n Hn. unfold ct_irs.
  rewrite (@run_tasks_all _ o (cd_N d)) by auto. rewrite (jn_N J) in Hn.
  destruct (Nat.lt_ge_cases n (cd_N d1)) as [L|L].
  - rewrite then_l by exact L. rewrite (@run_tasks_all _ o1 (cd_N d1)) by auto. unfold ct_irs_one. apply back_scan_vec_ext.
    intros p Hp. rewrite (w1 m J), (jC1 J), !(jS1 J) by lia. auto.
  - replace n with (cd_N d1 + (n - cd_N d1))%nat by lia. rewrite then_r. set (q := (n - cd_N d1)%nat) in *.
    assert (Hq : (q < cd_N d2)%nat) by lia.
    rewrite (@run_tasks_all _ o2 (cd_N d2)) by auto. unfold ct_irs_one. apply back_scan_vec_shift.
    + intros p Hp. apply Rleb_true. pose proof (@far m d1 d2 d J Q P2 q p Hq Hp). pose proof eps_pos. lra.
    + intros p Hp. rewrite (w2 m J), (gap2 J), (jC2 J) by lia. auto.
Qed.

Lemma ll_single_joined norder m d1 d2 d k a : joined d1 d2 d ->
  silent_end (cd_N d1) (cd_T d1) (cm_dtmax m) (cd_S d1) -> (forall n, (n < cd_N d2)%nat -> 0 <= cd_S d2 n) ->
  (forall x, Permutation (norder x) (seq 0 (cd_N x))) ->
  let ll := ct_ll_single_data m (fun d => ct_irs (norder d) m d) k a in ll d = eadd (ll d1) (ll d2).
Proof.
  intros J Q P2 Ho. cbv zeta. unfold ct_ll_single_data.
  assert (E := @irs_joined m d1 d2 d (norder d1) (norder d2) (norder d) J Q P2 (Ho d1) (Ho d2) (Ho d)). rewrite (jn_N J) in E.
  rewrite (jn_N J), esum_app.
  rewrite (@esum_ext (cd_N d1) _ (fun n => if Nat.eqb (cd_C d1 n) k
     then elog (Fin (cm_lam m k + Rsum (cm_K m) (fun k1 => b2R (a k1) * ct_irs (norder d1) m d1 n k1))) else Fin 0)).
  2:{ intros n Hn. rewrite (jC1 J), E, then_l by lia. reflexivity. }
  rewrite (@esum_ext (cd_N d2) _ (fun n => if Nat.eqb (cd_C d2 n) k
     then elog (Fin (cm_lam m k + Rsum (cm_K m) (fun k1 => b2R (a k1) * ct_irs (norder d2) m d2 n k1))) else Fin 0)).
  2:{ intros n Hn. rewrite (jC2 J), E, then_r by lia. reflexivity. }
  match goal with |- eadd _ (eadd ?x ?y) = _ => generalize x; generalize y end. intros y x.
  assert (Es : forall p q, esub (Fin p) (Fin q) = Fin (p - q)) by (intros; reflexivity). rewrite !Es.
  assert (Ec : 0 - cm_lam m k * cd_T d - Rsum (cm_K m) (fun k1 => b2R (a k1) * cm_W m k1 k * IZR (cd_Ns d k1)) =
    (0 - cm_lam m k * cd_T d1 - Rsum (cm_K m) (fun k1 => b2R (a k1) * cm_W m k1 k * IZR (cd_Ns d1 k1))) +
    (0 - cm_lam m k * cd_T d2 - Rsum (cm_K m) (fun k1 => b2R (a k1) * cm_W m k1 k * IZR (cd_Ns d2 k1)))).
  { rewrite (@Rsum_ext (cm_K m) (fun k1 => b2R (a k1) * cm_W m k1 k * IZR (cd_Ns d k1))
      (fun k1 => b2R (a k1) * cm_W m k1 k * IZR (cd_Ns d1 k1) + b2R (a k1) * cm_W m k1 k * IZR (cd_Ns d2 k1))).
    - rewrite Rsum_plus, (jn_T J). lra.
    - intros k1 _. rewrite (joined_Ns k1 J), plus_IZR. lra. }
  rewrite Ec, <- eadd_fin. rewrite !eadd_assoc. f_equal. rewrite <- !eadd_assoc. f_equal. apply eadd_comm.
Qed.

(** The update of the weights and of the network's edges (serial or parallel, any schedule) is the same function of the
    generator for the whole and for the parts. *)
Theorem C138_weights_update :
  forall order norder g u m d1 d2 d before after, joined d1 d2 d ->
    silent_end (cd_N d1) (cd_T d1) (cm_dtmax m) (cd_S d1) -> (forall n, (n < cd_N d2)%nat -> 0 <= cd_S d2 n) ->
    (forall x, Permutation (norder x) (seq 0 (cd_N x))) ->
    (forall a b, cd_weight d a b = cd_weight d1 a b + cd_weight d2 a b) ->
    ct_weights_resample order norder g u m (before ++ d :: after) = ct_weights_resample order norder g u m (before ++ d1 :: d2 :: after).
Proof.
  intros order norder g u m d1 d2 d before after J Q P2 Ho Hw.
  assert (Pl : forall f : ctdata -> R, f d = f d1 + f d2 -> pool f (before ++ d :: after) = pool f (before ++ d1 :: d2 :: after)).
  { intros f Hf. rewrite !pool_lsum, !map_app, !lsum_app. cbn [map lsum]. rewrite Hf. lra. }
  assert (EW : forall A, ct_W_resample g (net_view (cm_net m)) A (before ++ d :: after) = ct_W_resample g (net_view (cm_net m)) A (before ++ d1 :: d2 :: after)).
  { intros A. unfold ct_W_resample. extensionality k1. extensionality k2. unfold ct_W_request.
    rewrite (Pl (fun x => cd_weight x k1 k2)) by apply Hw.
    rewrite (Pl (fun x => IZR (cd_Ns x k1))) by (rewrite (joined_Ns k1 J), plus_IZR; reflexivity). reflexivity. }
  unfold ct_weights_resample. cbv zeta. rewrite EW.
  match goal with |- cm_set ?M _ _ _ _ _ _ _ = _ => set (m' := M) in * end.
  assert (EL : ct_ll_single m' (fun x => ct_irs (norder x) m' x) (before ++ d :: after) =
               ct_ll_single m' (fun x => ct_irs (norder x) m' x) (before ++ d1 :: d2 :: after)).
  { extensionality k. extensionality a. unfold ct_ll_single. rewrite !fold_left_app. cbn [fold_left].
    rewrite (@ll_single_joined norder m' d1 d2 d k a J Q P2 Ho). now rewrite eadd_assoc. }
  rewrite EL. destruct before as [|b before]; reflexivity.
Qed.

(** The impulse parameters: prior mean, pseudo-count and shape requested for the whole are those for the parts; the rate is
    larger by half the spread between the parts' mean transformed delays, which the parts' statistics do not hold. *)
Theorem C138_impulse_update :
  forall m d1 d2 d before after k1 k2,
    (forall a b, cd_imp d 0%nat a b = cd_imp d1 0%nat a b + cd_imp d2 0%nat a b) ->
    (forall a b, cd_imp d 1%nat a b = cd_imp d1 1%nat a b + cd_imp d2 1%nat a b) ->
    (forall a b, let n1 := cd_imp d1 0%nat a b in let n2 := cd_imp d2 0%nat a b in
         cd_imp d 2%nat a b = cd_imp d1 2%nat a b + cd_imp d2 2%nat a b +
           n1 * n2 / (n1 + n2) * (cd_imp d1 1%nat a b / n1 - cd_imp d2 1%nat a b / n2) ^ 2) ->
    let n1 := cd_imp d1 0%nat k1 k2 in let n2 := cd_imp d2 0%nat k1 k2 in
    let '(mw, lw, aw, bw) := ct_imp_request m (before ++ d :: after) k1 k2 in
    let '(mp, lp, ap, bp) := ct_imp_request m (before ++ d1 :: d2 :: after) k1 k2 in
    mw = mp /\ lw = lp /\ aw = ap /\
    bw = bp + 1 / 2 * (n1 * n2 / (n1 + n2) * (cd_imp d1 1%nat k1 k2 / n1 - cd_imp d2 1%nat k1 k2 / n2) ^ 2).
Proof.
  intros m d1 d2 d before after k1 k2 H0 H1 H2. cbv zeta.
  assert (Pl : forall (f : ctdata -> R) x, f d = f d1 + f d2 + x -> pool f (before ++ d :: after) = pool f (before ++ d1 :: d2 :: after) + x).
  { intros f x Hf. rewrite !pool_lsum, !map_app, !lsum_app. cbn [map lsum]. rewrite Hf. lra. }
  unfold ct_imp_request, nig_post, nig_stats. specialize (H2 k1 k2). cbv zeta in H2.
  rewrite (Pl (fun x => cd_imp x 0%nat k1 k2) 0) by (rewrite H0; lra).
  rewrite (Pl (fun x => cd_imp x 1%nat k1 k2) 0) by (rewrite H1; lra).
  rewrite (Pl (fun x => cd_imp x 2%nat k1 k2) _ H2).
  rewrite !Rplus_0_r. split; [reflexivity|]. split; [reflexivity|]. split; [reflexivity|]. lra.
Qed.

(** The background update forgets the first part of a recording that was cut (it reads the last recording only): when the
    cut recording is the last one, the scale it requests is never that of the whole. *)
Theorem C138_bias_update_refuted :
  forall m d1 d2 d before k, joined d1 d2 d -> 0 < cd_T d1 -> 0 <= cd_T d2 -> 0 < cm_beta m ->
    (forall k, cd_bkgd d k = cd_bkgd d1 k + cd_bkgd d2 k) ->
    ct_bias_request (cm_alpha m) (cm_beta m) (map cd_stat (before ++ [d])) k =
      (cm_alpha m + (cd_bkgd d1 k + cd_bkgd d2 k), 1 / (cm_beta m + (cd_T d1 + cd_T d2))) /\
    ct_bias_request (cm_alpha m) (cm_beta m) (map cd_stat (before ++ [d1; d2])) k =
      (cm_alpha m + cd_bkgd d2 k, 1 / (cm_beta m + cd_T d2)) /\
    ct_bias_request (cm_alpha m) (cm_beta m) (map cd_stat (before ++ [d])) k <>
    ct_bias_request (cm_alpha m) (cm_beta m) (map cd_stat (before ++ [d1; d2])) k.
Proof.
  intros m d1 d2 d before k J HT1 HT2 Hb Hbk.
  assert (E1 : ct_bias_request (cm_alpha m) (cm_beta m) (map cd_stat (before ++ [d])) k =
      (cm_alpha m + (cd_bkgd d1 k + cd_bkgd d2 k), 1 / (cm_beta m + (cd_T d1 + cd_T d2)))).
  { unfold ct_bias_request, ct_bias_ss. rewrite map_app, fold_left_app. cbn [map fold_left cd_stat cs_bkgd cs_T].
    rewrite Hbk, (jn_T J). reflexivity. }
  assert (E2 : ct_bias_request (cm_alpha m) (cm_beta m) (map cd_stat (before ++ [d1; d2])) k =
      (cm_alpha m + cd_bkgd d2 k, 1 / (cm_beta m + cd_T d2))).
  { unfold ct_bias_request, ct_bias_ss. rewrite map_app, fold_left_app. reflexivity. }
  split; [exact E1|]. split; [exact E2|]. rewrite E1, E2. intros Hc. injection Hc as _ Hs.
  assert (Hlt : / (cm_beta m + (cd_T d1 + cd_T d2)) < / (cm_beta m + cd_T d2)).
  { apply Rinv_lt_contravar; [apply Rmult_lt_0_compat|]; lra. }
  unfold Rdiv in Hs. lra.
Qed.

(** The premises hold of the statistics computed by C138_parents for the concrete case of C138_nonvacuous. *)
Example C138_updates_nonvacuous :
  exists e1 e2 e, joined e1 e2 e /\ silent_end (cd_N e1) (cd_T e1) (cm_dtmax cut_m) (cd_S e1) /\ (forall n, (n < cd_N e2)%nat -> 0 <= cd_S e2 n) /\
    (forall a b, cd_weight e a b = cd_weight e1 a b + cd_weight e2 a b) /\ (forall k, cd_bkgd e k = cd_bkgd e1 k + cd_bkgd e2 k) /\
    (forall a b, cd_imp e 0%nat a b = cd_imp e1 0%nat a b + cd_imp e2 0%nat a b) /\ cd_N e = 4%nat /\ 0 < cd_T e1 /\ 0 <= cd_T e2.
Proof.
  destruct C138_nonvacuous as (J & Hp & D1 & D2 & Q & _).
  destruct (@C138_parents cut_m (cut_d 2 2) (cut_d 2 1) (cut_whole 2 2 2 1) (seq 0 2) (seq 0 2) (seq 0 4) (fun _ => 0) J Hp D1 D2
    ltac:(cbn; lra) ltac:(cbn; lra) Q (Permutation_refl _) (Permutation_refl _) (Permutation_refl _)) as (e1 & e2 & e & E1 & E2 & E & _ & Hb & Hw & H0 & _).
  { intros n _. unfold unit_interval. lra. }
  assert (F : forall o u d d', ct_parents_resample cut_m o u d = Ok d' -> cd_N d' = cd_N d /\ cd_S d' = cd_S d /\ cd_C d' = cd_C d /\ cd_T d' = cd_T d).
  { intros o u d d' H. unfold ct_parents_resample in H. apply bindr_ok in H as (z & _ & H).
    apply bindr_ok in H as (? & _ & H). apply bindr_ok in H as (? & _ & H). apply bindr_ok in H as ([[bk ws] im] & _ & H).
    apply bindr_ok in H as (? & _ & H). injection H as <-. auto. }
  destruct (F _ _ _ _ E1) as (A1 & B1 & C1 & F1). destruct (F _ _ _ _ E2) as (A2 & B2 & C2 & F2). destruct (F _ _ _ _ E) as (A & B & C & F0).
  exists e1, e2, e. split; [|split].
  - constructor; rewrite ?A, ?A1, ?A2, ?F0, ?F1, ?F2, ?B, ?B1, ?B2, ?C, ?C1, ?C2; apply J.
  - rewrite A1, B1, F1. exact Q.
  - split; [intros n Hn; rewrite B2; apply D2; rewrite A2 in Hn; exact Hn|].
    rewrite A, F1, F2. repeat split; auto; cbn; lra.
Qed.
Print Assumptions C138_weights_update.
Print Assumptions C138_impulse_update.
Print Assumptions C138_bias_update_refuted.
