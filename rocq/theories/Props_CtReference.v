(** * Props_CtReference: C111, the pure-Python reference sampler of the continuous-time parents. *)
From Coq Require Import FunctionalExtensionality Permutation.
From Verif Require Import Prelude ExtReal Arrays Spec_Continuous M_Basis M_Parents M_Discrete M_Gibbs M_Dist M_Network M_Sweep
  M_Continuous L_Continuous Props_Continuous Props_Continuous2 M_CtReference.
Set Implicit Arguments.
Open Scope R_scope.

(** No two events at the same time; no delay exactly at the end of the response window. *)
Definition no_ties (d : ctdata) : Prop := forall p n, (p < n)%nat -> (n < cd_N d)%nat -> cd_S d p < cd_S d n.
Definition off_end (D : R) (d : ctdata) : Prop := forall p n, (p < n)%nat -> (n < cd_N d)%nat -> cd_S d n - cd_S d p <> D.
(** The response of b to an event of a, ignoring whether the edge is present: what the reference sampler uses. *)
Definition bare_response (m : ctmodel) (a b : nat) (dt : R) : R :=
  cm_W m a b * delay_pdf (cm_dtmax m) (cm_mu m a b) (cm_tau m a b) dt.
(** The mass of candidate j (0: background; S p: the earlier event p) for event n. *)
Definition ref_mass (m : ctmodel) (d : ctdata) (n : nat) : vec :=
  parent_weight 0 (cm_dtmax m) (cd_S d) (cd_C d) (cm_lam m) (bare_response m) n.
(** sample_discrete returns an index of positive weight. *)
Definition disc_ok (disc : disc_oracle) : Prop :=
  forall n len v, (forall i, (i < len)%nat -> 0 <= v i) -> 0 < Rsum len v -> (disc n len v < len)%nat /\ 0 < v (disc n len v).

(* ---------------- the backward scan ---------------- *)
Lemma ref_back_spec dt D w : forall n p, let '(q, mp) := ref_back dt D w n p in
  (mp <= n)%nat /\ ((0 < n)%nat -> (mp < n)%nat) /\
  (forall i, (n <= i)%nat -> q i = p i) /\
  (forall i, (mp <= i < n)%nat -> q i = if Rltb D (dt i) then Fin 0 else w i) /\
  ((0 < mp)%nat -> D < dt mp).
Proof.
  induction n as [|n IH]; intros p; cbn [ref_back].
  - repeat split; intros; try lia; reflexivity.
  - destruct (Rltb D (dt n)) eqn:E.
    + repeat split; intros; try lia.
      * unfold upd. destruct (Nat.eqb_spec i n); [lia|reflexivity].
      * assert (i = n) as -> by lia. rewrite E. unfold upd. now rewrite Nat.eqb_refl.
      * now apply Rltb_true.
    + specialize (IH (upd p n (w n))). destruct (ref_back dt D w n _) as [q mp]. destruct IH as (I1 & I2 & I3 & I4 & I5).
      repeat split; intros; try lia.
      * rewrite I3 by lia. unfold upd. destruct (Nat.eqb_spec i n); [lia|reflexivity].
      * destruct (Nat.eq_dec i n) as [->|]; [|apply I4; lia]. rewrite I3 by lia. rewrite E. unfold upd. now rewrite Nat.eqb_refl.
      * auto.
Qed.

Lemma ref_weight_fin m d n par : params_ok m -> data_ok (cm_K m) d -> no_ties d -> off_end (cm_dtmax m) d ->
  (par < n)%nat -> (n < cd_N d)%nat ->
  (if Rltb (cm_dtmax m) (cd_S d n - cd_S d par) then Fin 0 else ref_weight m d n par) = Fin (ref_mass m d n (S par)).
Proof.
  intros (Hl & Hw & Ht) (_ & _ & Hc) Hn Ho Hp HN. specialize (Hn _ _ Hp HN). specialize (Ho _ _ Hp HN).
  unfold ref_mass, parent_weight, ref_weight, bare_response.
  replace (Rleb 0 (cd_S d n - cd_S d par)) with true by (symmetry; apply Rleb_true; lra). cbn [andb].
  rewrite Rminus_0_r. destruct (Rltb (cm_dtmax m) (cd_S d n - cd_S d par)) eqn:E.
  - apply Rltb_true in E. replace (Rleb _ _) with false by (symmetry; apply Rleb_false; lra). reflexivity.
  - apply Rltb_false in E. replace (Rleb _ _) with true by (symmetry; apply Rleb_true; lra).
    rewrite C61_impulse_is_density; [now rewrite emul_fin|lra|]. apply Ht; apply Hc; lia.
Qed.
Lemma ref_mass_nonneg m d n j : params_ok m -> data_ok (cm_K m) d -> no_ties d -> off_end (cm_dtmax m) d ->
  (n < cd_N d)%nat -> (j <= n)%nat -> 0 <= ref_mass m d n j.
Proof.
  intros (Hl & Hw & Ht) (_ & _ & Hc) Hn Ho HN Hj. destruct j as [|p]; cbn [ref_mass parent_weight]; [left; apply Hl, Hc; lia|].
  unfold ref_mass, parent_weight. destruct (_ && _)%bool eqn:E; [|lra]. apply andb_prop in E. destruct E as [_ E].
  apply Rleb_true in E. rewrite Rminus_0_r in E. specialize (Hn p n ltac:(lia) HN). specialize (Ho p n ltac:(lia) HN).
  unfold bare_response. apply Rmult_le_pos; [apply Hw; apply Hc; lia|]. left. apply delay_pdf_pos; try lra. apply Ht; apply Hc; lia.
Qed.
Lemma ref_mass_pos m d n p : params_ok m -> data_ok (cm_K m) d -> no_ties d -> off_end (cm_dtmax m) d ->
  (n < cd_N d)%nat -> (p < n)%nat -> 0 < ref_mass m d n (S p) ->
  0 < cd_S d n - cd_S d p < cm_dtmax m /\ 0 < cm_W m (cd_C d p) (cd_C d n).
Proof.
  intros (Hl & Hw & Ht) (_ & _ & Hc) Hn Ho HN Hj. unfold ref_mass, parent_weight.
  specialize (Hn p n Hj HN). specialize (Ho p n Hj HN). destruct (_ && _)%bool eqn:E; [|lra]. intros H.
  apply andb_prop in E. destruct E as [_ E]. apply Rleb_true in E. rewrite Rminus_0_r in E. split; [lra|].
  unfold bare_response in H. specialize (Hw (cd_C d p) (cd_C d n) ltac:(apply Hc; lia) ltac:(apply Hc; lia)).
  destruct (Req_dec (cm_W m (cd_C d p) (cd_C d n)) 0) as [E0|]; [rewrite E0 in H; lra|lra].
Qed.

(** What sample_discrete is asked for at event n: candidate 0 is the background with mass lambda0, the others are the
    events from the first candidate on, each with mass W * density of the delay; every event left out has a delay longer
    than dt_max, hence mass 0. *)
Theorem C111_reference_request :
  forall m d n, params_ok m -> data_ok (cm_K m) d -> no_ties d -> off_end (cm_dtmax m) d -> (0 < n)%nat -> (n < cd_N d)%nat ->
    let '(len, v, first) := ref_request m d n in
    (first < n)%nat /\ len = S (n - first) /\ v 0%nat = Fin (ref_mass m d n 0%nat) /\
    (forall j, (first + j < n)%nat -> v (S j) = Fin (ref_mass m d n (S (first + j)))) /\
    (forall p, (p < first)%nat -> cm_dtmax m < cd_S d n - cd_S d p /\ ref_mass m d n (S p) = 0).
Proof.
  intros m d n Hp Hd Ht Ho H0 HN. unfold ref_request.
  pose proof (@ref_back_spec (fun par => cd_S d n - cd_S d par) (cm_dtmax m) (ref_weight m d n) n (fun _ => Fin 0)) as B.
  destruct (ref_back _ _ _ _ _) as [q mp]. destruct B as (B1 & B2 & _ & B4 & B5). cbv beta in *.
  assert (B6 : forall p, (p < mp)%nat -> cm_dtmax m < cd_S d n - cd_S d p).
  { intros p Hpm. specialize (B5 ltac:(lia)). destruct Hd as (_ & Hs & _). specialize (Hs p mp ltac:(lia) ltac:(lia)). lra. }
  repeat split; auto; try lia.
  - intros j Hj. rewrite B4 by lia. apply ref_weight_fin; auto.
  - unfold ref_mass, parent_weight. rewrite Rminus_0_r. specialize (B6 p H).
    replace (Rleb (cd_S d n - cd_S d p) (cm_dtmax m)) with false by (symmetry; apply Rleb_false; lra). now rewrite andb_false_r.
Qed.

(* ---------------- the loop ---------------- *)
Record ref_inv (m : ctmodel) (d0 d : ctdata) (n : nat) : Prop := {
  ri_same : cd_N d = cd_N d0 /\ cd_S d = cd_S d0 /\ cd_C d = cd_C d0 /\ cd_T d = cd_T d0;
  ri_rest : forall i, (n <= i)%nat -> cd_Z d i = cd_Z d0 i;
  ri_z : forall i, (i < n)%nat -> cd_Z d i = (-1)%Z \/
     exists p, (p < i)%nat /\ cd_Z d i = Z.of_nat p /\ 0 < cd_S d0 i - cd_S d0 p < cm_dtmax m /\ 0 < cm_W m (cd_C d0 p) (cd_C d0 i);
  ri_bk : forall k, cd_bkgd d k = count n (bg (cd_C d0) (cd_Z d) k);
  ri_ws : forall a b, cd_weight d a b = count n (att (cd_C d0) (cd_Z d) a b);
  ri_imp : forall j a b, cd_imp d j a b = total n (att (cd_C d0) (cd_Z d) a b) (dly (cd_S d0) (cd_Z d) (cm_dtmax m)) }.

Lemma count_ext n P Q : (forall i, (i < n)%nat -> P i = Q i) -> count n P = count n Q.
Proof. intros H. unfold count. apply Rsum_ext. intros i Hi. now rewrite H. Qed.
Lemma total_ext n P Q x y : (forall i, (i < n)%nat -> P i = Q i /\ x i = y i) -> total n P x = total n Q y.
Proof. intros H. unfold total. apply Rsum_ext. intros i Hi. destruct (H i Hi) as [-> ->]. reflexivity. Qed.
Lemma upd_lt (T : Type) (f : nat -> T) n v i : (i < n)%nat -> upd f n v i = f i.
Proof. intros. unfold upd. destruct (Nat.eqb_spec i n); [lia|reflexivity]. Qed.
Lemma upd_eq (T : Type) (f : nat -> T) n v : upd f n v n = v.
Proof. unfold upd. now rewrite Nat.eqb_refl. Qed.

Lemma bkgd_inv m d0 d n : ref_inv m d0 d n ->
  ref_inv m d0 (cd_with d (upd (cd_Z d) n (-1)%Z) (upd (cd_bkgd d) (cd_C d n) (cd_bkgd d (cd_C d n) + 1)) (cd_weight d) (cd_imp d)) (S n).
Proof.
  intros [(S1 & S2 & S3 & S4) R Zv B W I]. constructor; cbn [cd_N cd_S cd_C cd_T cd_Z cd_bkgd cd_weight cd_imp cd_with].
  - auto.
  - intros i Hi. rewrite <- R by lia. unfold upd. destruct (Nat.eqb_spec i n); [lia|reflexivity].
  - intros i Hi. destruct (Nat.eq_dec i n) as [->|]; [left; apply upd_eq|]. rewrite upd_lt by lia. apply Zv. lia.
  - intros k. rewrite S3. unfold count in *. cbn [Rsum]. unfold bg at 2. rewrite upd_eq. cbn [Z.eqb andb Pos.eqb].
    assert (E : Rsum n (fun i => if bg (cd_C d0) (upd (cd_Z d) n (-1)%Z) k i then 1 else 0) = cd_bkgd d k).
    { rewrite B. apply (@count_ext n). intros i Hi. unfold bg. now rewrite upd_lt by lia. }
    rewrite E. unfold upd at 1. rewrite (Nat.eqb_sym (cd_C d0 n)). destruct (Nat.eqb_spec k (cd_C d0 n)) as [->|]; lra.
  - intros a b. rewrite W. unfold count. cbn [Rsum]. unfold att at 3. rewrite upd_eq. cbn [Z.eqb Pos.eqb negb andb]. rewrite Rplus_0_r.
    apply (@count_ext n). intros i Hi. unfold att. now rewrite upd_lt by lia.
  - intros j a b. rewrite I. unfold total. cbn [Rsum]. unfold att at 3. rewrite upd_eq. cbn [Z.eqb Pos.eqb negb andb]. rewrite Rplus_0_r.
    apply (@total_ext n). intros i Hi. unfold att, dly. now rewrite !upd_lt by lia.
Qed.
Lemma att_inv m d0 d n p : ref_inv m d0 d n -> (p < n)%nat -> 0 < cd_S d0 n - cd_S d0 p < cm_dtmax m -> 0 < cm_W m (cd_C d0 p) (cd_C d0 n) ->
  ref_inv m d0 (cd_with d (upd (cd_Z d) n (Z.of_nat p)) (cd_bkgd d) (upd_add2 (cd_weight d) (cd_C d p) (cd_C d n) 1)
              (fun i => upd_add2 (cd_imp d i) (cd_C d p) (cd_C d n) (sdt (cm_dtmax m) (cd_S d n - cd_S d p)))) (S n).
Proof.
  intros [(S1 & S2 & S3 & S4) R Zv B W I] Hp Hdt HW.
  assert (Ep : Z.eqb (Z.of_nat p) (-1) = false) by (apply Z.eqb_neq; lia).
  constructor; cbn [cd_N cd_S cd_C cd_T cd_Z cd_bkgd cd_weight cd_imp cd_with].
  - auto.
  - intros i Hi. rewrite <- R by lia. unfold upd. destruct (Nat.eqb_spec i n); [lia|reflexivity].
  - intros i Hi. destruct (Nat.eq_dec i n) as [->|]; [right; exists p; rewrite upd_eq; auto|]. rewrite upd_lt by lia. apply Zv. lia.
  - intros k. rewrite B. unfold count. cbn [Rsum]. unfold bg at 3. rewrite upd_eq, Ep. cbn [andb]. rewrite Rplus_0_r.
    apply (@count_ext n). intros i Hi. unfold bg. now rewrite upd_lt by lia.
  - intros a b. unfold count. cbn [Rsum]. unfold att at 2. rewrite upd_eq, Ep, Nat2Z.id. cbn [negb andb].
    assert (E : Rsum n (fun i => if att (cd_C d0) (upd (cd_Z d) n (Z.of_nat p)) a b i then 1 else 0) = cd_weight d a b).
    { rewrite W. apply (@count_ext n). intros i Hi. unfold att. now rewrite !upd_lt by lia. }
    rewrite E. rewrite S3. unfold upd_add2, upd2. rewrite (Nat.eqb_sym (cd_C d0 p)), (Nat.eqb_sym (cd_C d0 n)).
    destruct (Nat.eqb_spec a (cd_C d0 p)), (Nat.eqb_spec b (cd_C d0 n)); subst; cbn [andb]; lra.
  - intros j a b. unfold total. cbn [Rsum]. unfold att at 2. rewrite upd_eq, Ep, Nat2Z.id. cbn [negb andb].
    assert (E : Rsum n (fun i => if att (cd_C d0) (upd (cd_Z d) n (Z.of_nat p)) a b i
                 then dly (cd_S d0) (upd (cd_Z d) n (Z.of_nat p)) (cm_dtmax m) i else 0) = cd_imp d j a b).
    { rewrite I. apply (@total_ext n). intros i Hi. unfold att, dly. now rewrite !upd_lt by lia. }
    rewrite E. unfold dly. rewrite upd_eq, Nat2Z.id. rewrite S2, S3. unfold upd_add2, upd2.
    rewrite (Nat.eqb_sym (cd_C d0 p)), (Nat.eqb_sym (cd_C d0 n)).
    destruct (Nat.eqb_spec a (cd_C d0 p)), (Nat.eqb_spec b (cd_C d0 n)); subst; cbn [andb]; lra.
Qed.

Lemma ref_request_same m d d0 n : cd_S d = cd_S d0 -> cd_C d = cd_C d0 -> ref_request m d n = ref_request m d0 n.
Proof. intros H1 H2. unfold ref_request, ref_weight. now rewrite H1, H2. Qed.
Lemma ref_event_inv m disc d0 d n : params_ok m -> data_ok (cm_K m) d0 -> no_ties d0 -> off_end (cm_dtmax m) d0 -> disc_ok disc ->
  (n < cd_N d0)%nat -> ref_inv m d0 d n -> exists d', ref_event m disc d n = Ok d' /\ ref_inv m d0 d' (S n).
Proof.
  intros Hp Hd Ht Ho HD HN Hi. unfold ref_event. destruct n as [|n']; [eexists; split; [reflexivity|now apply bkgd_inv]|].
  set (n := S n') in *. assert (H0 : (0 < n)%nat) by (unfold n; lia). clearbody n.
  pose proof Hi as [(S1 & S2 & S3 & S4) _ _ _ _ _]. rewrite (ref_request_same m d d0 n S2 S3).
  pose proof (@C111_reference_request m d0 n Hp Hd Ht Ho H0 HN) as Q. destruct (ref_request m d0 n) as [[len v] mp].
  destruct Q as (Q1 & -> & Q3 & Q4 & Q5).
  assert (Hv : forall i, (i < S (n - mp))%nat -> exists c, (c <= n)%nat /\ v i = Fin (ref_mass m d0 n c)).
  { intros [|j] Hj; [exists 0%nat; split; [lia|exact Q3]|]. exists (S (mp + j)). split; [lia|]. apply Q4. lia. }
  assert (Hnn : forall i, (i < S (n - mp))%nat -> 0 <= fval (v i)).
  { intros i Hl. destruct (Hv i Hl) as (c & Hc & ->). cbn [fval]. now apply ref_mass_nonneg. }
  replace (forall_lt _ _) with true.
  2:{ symmetry. apply forall_lt_true. intros i Hl. destruct (Hv i Hl) as (c & Hc & E). specialize (Hnn i Hl). rewrite E in *.
      cbn [enonneg fval] in *. now apply Rleb_true. }
  cbn [guard bindr].
  assert (Htot : 0 < Rsum (S (n - mp)) (fun i => fval (v i))).
  { rewrite Rsum_S_l. rewrite Q3. cbn [fval].
    assert (0 < ref_mass m d0 n 0%nat). { destruct Hp as (Hl & _). destruct Hd as (_ & _ & Hc). cbn. apply Hl, Hc. lia. }
    assert (0 <= Rsum (n - mp) (fun i => fval (v (S i)))) by (apply Rsum_nonneg; intros; apply Hnn; lia). lra. }
  destruct (HD n (S (n - mp)) (fun i => fval (v i)) Hnn Htot) as [D1 D2].
  destruct (disc _ _ _) as [|j]; [eexists; split; [reflexivity|now apply bkgd_inv]|].
  eexists; split; [reflexivity|]. rewrite Q4 in D2 by lia. cbn [fval] in D2.
  rewrite (Nat.add_comm j mp). destruct (@ref_mass_pos m d0 n (mp + j) Hp Hd Ht Ho HN ltac:(lia) D2). apply att_inv; auto. lia.
Qed.
Lemma ref_loop_inv m disc d0 : params_ok m -> data_ok (cm_K m) d0 -> no_ties d0 -> off_end (cm_dtmax m) d0 -> disc_ok disc ->
  forall k n d, (n + k <= cd_N d0)%nat -> ref_inv m d0 d n ->
  exists d', ref_loop m disc (seq n k) d = (Ok tt, d') /\ ref_inv m d0 d' (n + k).
Proof.
  intros Hp Hd Ht Ho HD. induction k as [|k IH]; intros n d Hk Hi; cbn [seq ref_loop].
  - exists d. rewrite Nat.add_0_r. auto.
  - destruct (@ref_event_inv m disc d0 d n Hp Hd Ht Ho HD ltac:(lia) Hi) as (d1 & -> & Hi1).
    destruct (IH (S n) d1 ltac:(lia) Hi1) as (d' & E & Hi'). exists d'. split; [exact E|]. now rewrite Nat.add_succ_r.
Qed.
Lemma ref_start m d0 : ref_inv m d0 (cd_with d0 (cd_Z d0) (fun _ => 0) (fun _ _ => 0) (fun _ _ _ => 0)) 0.
Proof. constructor; cbn; auto; intros; try lia; reflexivity. Qed.

(** On events without ties (and no delay exactly dt_max) the reference sampler does not raise; every parent is the
    background or a strictly earlier event within the window whose connection weight is positive; bkgd_ss and weight_ss are
    the counts of these attributions; imp_ss[a, b] is the total of the transformed delays of the a -> b attributions; the
    events themselves are unchanged. *)
Theorem C111_reference_sampler_partial :
  forall m disc d, params_ok m -> data_ok (cm_K m) d -> no_ties d -> off_end (cm_dtmax m) d -> disc_ok disc ->
    exists d', ref_resample m disc d = (Ok tt, d') /\
      (cd_N d' = cd_N d /\ cd_S d' = cd_S d /\ cd_C d' = cd_C d /\ cd_T d' = cd_T d) /\
      (forall n, (n < cd_N d)%nat -> cd_Z d' n = (-1)%Z \/
         exists p, (p < n)%nat /\ cd_Z d' n = Z.of_nat p /\ 0 < cd_S d n - cd_S d p < cm_dtmax m /\ 0 < cm_W m (cd_C d p) (cd_C d n)) /\
      (forall k, cd_bkgd d' k = count (cd_N d) (fun n => (cd_Z d' n =? -1)%Z && Nat.eqb (cd_C d n) k)%bool) /\
      (forall a b, cd_weight d' a b = count (cd_N d) (fun n =>
         negb (cd_Z d' n =? -1)%Z && Nat.eqb (cd_C d (Z.to_nat (cd_Z d' n))) a && Nat.eqb (cd_C d n) b)%bool) /\
      (forall i a b, cd_imp d' i a b = total (cd_N d) (fun n =>
         negb (cd_Z d' n =? -1)%Z && Nat.eqb (cd_C d (Z.to_nat (cd_Z d' n))) a && Nat.eqb (cd_C d n) b)%bool
         (fun n => to_line (cm_dtmax m) (cd_S d n - cd_S d (Z.to_nat (cd_Z d' n))))) /\
      (forall k, (k < cm_K m)%nat -> cd_bkgd d' k + Rsum (cm_K m) (fun a => cd_weight d' a k) = IZR (cd_Ns d k)).
Proof.
  intros m disc d Hp Hd Ht Ho HD. unfold ref_resample.
  destruct (@ref_loop_inv m disc d Hp Hd Ht Ho HD (cd_N d) 0 _ ltac:(lia) (ref_start m d)) as (d' & E & [Q1 Q2 Q3 Q4 Q5 Q6]).
  cbn [Nat.add] in *. exists d'. split; [exact E|]. split; [exact Q1|]. split; [exact Q3|]. split; [exact Q4|]. split; [exact Q5|]. split.
  - intros i a b. rewrite Q6. unfold total. apply Rsum_ext. intros n Hn. fold (att (cd_C d) (cd_Z d') a b n).
    destruct (att (cd_C d) (cd_Z d') a b n) eqn:Ea; [|reflexivity]. unfold att in Ea.
    apply andb_prop in Ea. destruct Ea as [Ea _]. apply andb_prop in Ea. destruct Ea as [Ea _].
    apply Bool.negb_true_iff, Z.eqb_neq in Ea. destruct (Q3 n Hn) as [|(p & _ & Ez & Hdt & _)]; [congruence|].
    unfold dly, sdt, to_line. rewrite Ez, Nat2Z.id. unfold Rdiv. rewrite ln_mult, ln_Rinv; try lra. apply Rinv_0_lt_compat. lra.
  - intros k Hk. rewrite Q4. rewrite (@Rsum_ext (cm_K m) _ (fun a => count (cd_N d) (att (cd_C d) (cd_Z d') a k))) by (intros; apply Q5).
    apply (@balance (cm_K m)).
    + destruct Hd as (_ & _ & Hc). exact Hc.
    + intros n Hn. destruct (Q3 n Hn) as [->|(p & Hpn & -> & _)]; lia.
Qed.

(** On fully connected models, for an event whose delays stay clear of both ends of the window, the compiled sampler gives
    the background the same mass and each earlier event the same mass up to the constant kappa_c common to all of them (the
    decimal literal of sqrt(2 pi) in the compiled code, C61). *)
Theorem C111_agrees_with_the_compiled_sampler :
  forall m d n, params_ok m -> data_ok (cm_K m) d -> (n < cd_N d)%nat -> 0 < cm_dtmax m ->
    (forall a b, (a < cm_K m)%nat -> (b < cm_K m)%nat -> cm_A m a b = true) ->
    (forall p, (p < n)%nat -> eps <= cd_S d n - cd_S d p <= cm_dtmax m - eps \/ cm_dtmax m < cd_S d n - cd_S d p) ->
    let w := parent_weight eps (cm_dtmax m) (cd_S d) (cd_C d) (cm_lam m) (impulse_of m) n in
    w 0%nat = ref_mass m d n 0%nat /\ (forall p, (p < n)%nat -> w (S p) = kappa_c * ref_mass m d n (S p)).
Proof.
  intros m d n Hp (_ & _ & Hc) HN HD HA Hdel w. split; [reflexivity|]. intros p Hpn. unfold w, ref_mass, parent_weight.
  pose proof eps_pos as He. rewrite Rminus_0_r. destruct (Hdel p Hpn) as [H|H].
  - replace (Rleb eps _) with true by (symmetry; apply Rleb_true; lra). replace (Rleb 0 _) with true by (symmetry; apply Rleb_true; lra).
    replace (Rleb _ (cm_dtmax m - eps)) with true by (symmetry; apply Rleb_true; lra).
    replace (Rleb _ (cm_dtmax m)) with true by (symmetry; apply Rleb_true; lra). cbn [andb].
    unfold impulse_of, conn, bare_response. rewrite HA by (apply Hc; lia). ring.
  - replace (Rleb _ (cm_dtmax m - eps)) with false by (symmetry; apply Rleb_false; lra).
    replace (Rleb _ (cm_dtmax m)) with false by (symmetry; apply Rleb_false; lra). rewrite !andb_false_r. ring.
Qed.

(* ---------------- what fails ---------------- *)
Lemma ref_event_raises m disc d n e : ref_event m disc d n = Raise e -> e = AssertionError.
Proof.
  unfold ref_event. destruct n; [discriminate|]. destruct (ref_request m d (S n)) as [[len v] mp].
  destruct (forall_lt len _); cbn [guard bindr]; [|congruence]. destruct (disc _ _ _); discriminate.
Qed.
Lemma ref_event_same m disc d n d' : ref_event m disc d n = Ok d' -> cd_N d' = cd_N d /\ cd_S d' = cd_S d /\ cd_C d' = cd_C d.
Proof.
  unfold ref_event. destruct n; [intros [= <-]; auto|]. destruct (ref_request m d (S n)) as [[len v] mp].
  destruct (forall_lt len _); cbn [guard bindr]; [|discriminate]. destruct (disc _ _ _); intros [= <-]; auto.
Qed.
Lemma ref_event_tie m disc d n : 0 < cm_dtmax m -> 0 < cm_tau m (cd_C d n) (cd_C d (S n)) -> cd_S d n = cd_S d (S n) ->
  ref_event m disc d (S n) = Raise AssertionError.
Proof.
  intros HD Ht E. unfold ref_event. cbv zeta. unfold ref_request.
  pose proof (@ref_back_spec (fun par => cd_S d (S n) - cd_S d par) (cm_dtmax m) (ref_weight m d (S n)) (S n) (fun _ => Fin 0)) as B.
  destruct (ref_back _ _ _ _ _) as [q mp]. destruct B as (B1 & B2 & _ & B4 & B5). specialize (B2 ltac:(lia)).
  destruct (forall_lt _ _) eqn:F; [|reflexivity]. exfalso. rewrite forall_lt_true in F. specialize (F (S (n - mp)) ltac:(lia)).
  cbv beta iota in F. replace (mp + (n - mp))%nat with n in F by lia. rewrite B4 in F by lia. cbv beta in F.
  rewrite E in F. replace (cd_S d (S n) - cd_S d (S n)) with 0 in F by ring.
  replace (Rltb (cm_dtmax m) 0) with false in F by (symmetry; apply Rltb_false; lra).
  unfold ref_weight in F. rewrite E in F. replace (cd_S d (S n) - cd_S d (S n)) with 0 in F by ring.
  rewrite (proj1 (@impulse_ends (cm_dtmax m) _ _ HD Ht)) in F. discriminate F.
Qed.
Lemma ref_loop_tie m disc : forall ns d n, In (S n) ns -> 0 < cm_dtmax m -> 0 < cm_tau m (cd_C d n) (cd_C d (S n)) -> cd_S d n = cd_S d (S n) ->
  fst (ref_loop m disc ns d) = Raise AssertionError.
Proof.
  induction ns as [|k ns IH]; intros d n Hin HD Ht E; [easy|]. cbn [ref_loop].
  destruct (ref_event m disc d k) as [d1|e] eqn:Ev.
  - destruct Hin as [->|Hin]; [now rewrite ref_event_tie in Ev|]. destruct (@ref_event_same _ _ _ _ _ Ev) as (_ & E1 & E2).
    apply IH with n; rewrite ?E1, ?E2; auto.
  - cbn [fst]. now rewrite (@ref_event_raises _ _ _ _ _ Ev).
Qed.

(** Two events at the same time -- accepted by add_data -- make the reference sampler raise, whatever is drawn: the response
    at delay 0 is 0 * inf * exp(-inf), a NaN.  (The compiled sampler accepts them, C59_parent_update.) *)
Theorem C111_simultaneous_events_refuted :
  forall m disc d p n, params_ok m -> data_ok (cm_K m) d -> 0 < cm_dtmax m -> (p < n)%nat -> (n < cd_N d)%nat -> cd_S d p = cd_S d n ->
    fst (ref_resample m disc d) = Raise AssertionError.
Proof.
  intros m disc d p n (_ & _ & Ht) (_ & Hs & Hc) HD Hp HN E. destruct n as [|n]; [lia|].
  unfold ref_resample. apply ref_loop_tie with n; cbn [cd_with cd_S cd_C cd_N]; auto.
  - apply in_seq. lia.
  - apply Ht; apply Hc; lia.
  - assert (cd_S d p <= cd_S d n) by (apply Hs; lia). assert (cd_S d n <= cd_S d (S n)) by (apply Hs; lia). lra.
Qed.

(** An absent edge: the reference sampler gives every event of the source within the window a positive mass (it uses W, not
    the effective weights); the compiled sampler gives it probability 0. *)
Theorem C111_absent_edge_refuted :
  forall m d n p, params_ok m -> data_ok (cm_K m) d -> no_ties d -> off_end (cm_dtmax m) d -> (p < n)%nat -> (n < cd_N d)%nat ->
    cm_A m (cd_C d p) (cd_C d n) = false -> 0 < cm_W m (cd_C d p) (cd_C d n) -> cd_S d n - cd_S d p < cm_dtmax m ->
    pparent m d n (S p) = 0 /\
    let '(len, v, first) := ref_request m d n in
    (first <= p)%nat /\ (S (p - first) < len)%nat /\ exists w, 0 < w /\ v (S (p - first)) = Fin w.
Proof.
  intros m d n p Hp Hd Ht Ho Hpn HN HA HW Hw. split.
  - unfold pparent, parent_prob, parent_weight, impulse_of, conn. rewrite HA. rewrite Rmult_0_l.
    destruct (_ && _)%bool; unfold Rdiv; now rewrite Rmult_0_l.
  - pose proof (@C111_reference_request m d n Hp Hd Ht Ho ltac:(lia) HN) as Q. destruct (ref_request m d n) as [[len v] mp].
    destruct Q as (Q1 & -> & _ & Q4 & Q5).
    assert (mp <= p)%nat by (destruct (Nat.le_gt_cases mp p) as [|L]; [assumption|destruct (Q5 p L); lra]).
    split; [assumption|]. split; [lia|]. exists (ref_mass m d n (S p)). split.
    + unfold ref_mass, parent_weight. specialize (Ht p n Hpn HN). rewrite Rminus_0_r.
      replace (Rleb 0 _) with true by (symmetry; apply Rleb_true; lra). replace (Rleb _ _) with true by (symmetry; apply Rleb_true; lra).
      cbn [andb]. unfold bare_response. destruct Hp as (_ & _ & Hta). destruct Hd as (_ & _ & Hc).
      apply Rmult_lt_0_compat; [exact HW|]. apply delay_pdf_pos; try lra. apply Hta; apply Hc; lia.
    + rewrite Q4 by lia. now replace (mp + (p - mp))%nat with p by lia.
Qed.

(* ---------------- examples ---------------- *)
(** sample_discrete returning the last index of positive weight. *)
Fixpoint last_pos (len : nat) (v : vec) : nat :=
  match len with O => O | S l => if Rltb 0 (v l) then l else last_pos l v end.
Definition last_disc : disc_oracle := fun _ len v => last_pos len v.
Lemma last_pos_ok len v : (forall i, (i < len)%nat -> 0 <= v i) -> 0 < Rsum len v -> (last_pos len v < len)%nat /\ 0 < v (last_pos len v).
Proof.
  induction len as [|l IH]; intros Hv Hs; cbn [Rsum last_pos] in *; [lra|].
  destruct (Rltb 0 (v l)) eqn:E; [apply Rltb_true in E; split; [lia|exact E]|]. apply Rltb_false in E.
  destruct IH; [intros; apply Hv; lia|lra|]. split; [lia|assumption].
Qed.
Lemma last_disc_ok : disc_ok last_disc.
Proof. intros n len v Hv Hs. now apply last_pos_ok. Qed.
(** One process, dt_max = 2, events at 0 and s; [a]: whether the edge exists. *)
Definition ex_ref (a : bool) : ctmodel :=
  {| cm_K := 1; cm_dtmax := 2; cm_lam := fun _ => 1; cm_A := fun _ _ => a; cm_W := fun _ _ => 1; cm_mu := fun _ _ => 0; cm_tau := fun _ _ => 1;
     cm_net := NetEr {| e_K := 1; e_p := 1 / 2; e_v := 1; e_kappa := 1; e_alpha := None; e_beta := None; e_allow := true; e_mf := None |};
     cm_data := []; cm_alpha := 1; cm_beta := 1; cm_mu0 := 0; cm_lmbda0 := 1; cm_alpha0 := 1; cm_beta0 := 1; cm_par := false |}.
Definition ex_two (s : R) : ctdata :=
  {| cd_N := 2; cd_S := fun n => if Nat.eqb n 0 then 0 else s; cd_C := fun _ => 0%nat; cd_T := 3; cd_Z := fun _ => (-1)%Z;
     cd_bkgd := fun _ => 2; cd_weight := fun _ _ => 0; cd_imp := fun _ _ _ => 0 |}.
Lemma ex_ref_ok a : params_ok (ex_ref a).
Proof. repeat split; intros; cbn; lra. Qed.
Lemma ex_two_ok s : 0 <= s < 3 -> data_ok 1 (ex_two s).
Proof.
  intros Hs. repeat split; cbn; intros; try lia.
  - destruct (n =? 0)%nat; lra.
  - destruct (n =? 0)%nat; lra.
  - intros i j Hij Hj. destruct (Nat.eqb_spec i 0), (Nat.eqb_spec j 0); try lia; lra.
Qed.
Lemma ex_two_ties s : 0 < s < 2 -> no_ties (ex_two s) /\ off_end 2 (ex_two s).
Proof.
  intros Hs. split; intros p n Hp Hn; cbn in *; assert (p = 0 /\ n = 1)%nat as [-> ->] by lia; cbn; lra.
Qed.
Lemma ex_ref_run a s : 0 < s < 2 -> exists d', ref_resample (ex_ref a) last_disc (ex_two s) = (Ok tt, d') /\
  cd_Z d' 0%nat = (-1)%Z /\ cd_Z d' 1%nat = 0%Z /\ (forall i, cd_imp d' i 0%nat 0%nat = to_line 2 s).
Proof.
  intros Hs. pose proof (ex_ref_ok a) as Hp. pose proof (@ex_two_ok s ltac:(lra)) as Hd. destruct (@ex_two_ties s Hs) as [Ht Ho].
  pose proof (@C111_reference_request (ex_ref a) (ex_two s) 1 Hp Hd Ht Ho ltac:(lia) ltac:(cbn; lia)) as Q.
  unfold ref_resample. change (seq 0 (cd_N (ex_two s))) with [0%nat; 1%nat].
  set (d0 := cd_with (ex_two s) _ _ _ _). cbn [ref_loop].
  change (ref_event (ex_ref a) last_disc d0 0) with
    (Ok (cd_with d0 (upd (cd_Z d0) 0 (-1)%Z) (upd (cd_bkgd d0) (cd_C d0 0%nat) (cd_bkgd d0 (cd_C d0 0%nat) + 1)) (cd_weight d0) (cd_imp d0))).
  cbv iota beta. set (d1 := cd_with d0 _ _ _ _).
  rewrite <- (ref_request_same (ex_ref a) d1 (ex_two s) 1 eq_refl eq_refl) in Q.
  unfold ref_event. cbv zeta. destruct (ref_request (ex_ref a) d1 1) as [[len v] mp]. destruct Q as (Q1 & -> & Q3 & Q4 & _).
  assert (mp = 0%nat) as -> by lia. cbn [Nat.sub]. specialize (Q4 0%nat ltac:(lia)). cbn [Nat.add] in Q4.
  assert (Hm : 0 < ref_mass (ex_ref a) (ex_two s) 1 1%nat).
  { unfold ref_mass, parent_weight. cbn [ex_two cd_S cd_C Nat.eqb ex_ref cm_dtmax]. rewrite !Rminus_0_r.
    replace (Rleb 0 _) with true by (symmetry; apply Rleb_true; lra). replace (Rleb _ _) with true by (symmetry; apply Rleb_true; lra).
    cbn [andb]. unfold bare_response. cbn [ex_ref cm_W cm_dtmax cm_mu cm_tau]. rewrite Rmult_1_l. apply delay_pdf_pos; lra. }
  replace (forall_lt 2 _) with true.
  2:{ symmetry. apply forall_lt_true. intros [|[|]] Hi; try lia; [rewrite Q3; cbn|rewrite Q4; cbn [enonneg]]; apply Rleb_true; lra. }
  cbn [guard bindr]. unfold last_disc. cbn [last_pos]. rewrite Q4. cbn [fval].
  replace (Rltb 0 (ref_mass _ _ _ _)) with true by (symmetry; now apply Rltb_true).
  eexists. split; [reflexivity|]. cbn -[sdt to_line]. repeat split. intros i. unfold upd_add2, upd2. cbn -[sdt to_line].
  unfold sdt, to_line, Rdiv. rewrite Rminus_0_r, ln_mult, ln_Rinv; try lra. apply Rinv_0_lt_compat; lra.
Qed.

(** The statistics left behind do not have the form the impulse update reads (count, sum, sum of squares): the update takes
    the sum of the transformed delays for the number of attributions as well, so its request can leave the domain of the
    normal-gamma law altogether. *)
Theorem C111_impulse_update_refuted :
  (forall m disc d d' a b, params_ok m -> data_ok (cm_K m) d -> no_ties d -> off_end (cm_dtmax m) d -> disc_ok disc ->
     ref_resample m disc d = (Ok tt, d') ->
     let s := total (cd_N d) (fun n => negb (cd_Z d' n =? -1)%Z && Nat.eqb (cd_C d (Z.to_nat (cd_Z d' n))) a && Nat.eqb (cd_C d n) b)%bool
                (fun n => to_line (cm_dtmax m) (cd_S d n - cd_S d (Z.to_nat (cd_Z d' n)))) in
     ct_imp_request m [d'] a b = nig_post (cm_mu0 m) (cm_lmbda0 m) (cm_alpha0 m) (cm_beta0 m) s s s) /\
  (exists m disc d d' q, params_ok m /\ data_ok (cm_K m) d /\ no_ties d /\ off_end (cm_dtmax m) d /\ disc_ok disc /\
     0 < cm_lmbda0 m /\ 0 < cm_alpha0 m /\ 0 < cm_beta0 m /\ ref_resample m disc d = (Ok tt, d') /\
     ct_imp_request m [d'] 0 0 = q /\ snd (fst (fst q)) < 0 /\ snd (fst q) < 0).
Proof.
  split.
  - intros m disc d d' a b Hp Hd Ht Ho HD E s.
    destruct (C111_reference_sampler_partial Hp Hd Ht Ho HD) as (d2 & E2 & _ & _ & _ & _ & Q & _).
    assert (d2 = d') as -> by congruence. unfold ct_imp_request.
    assert (E3 : forall j, nig_stats [d'] j a b = s). { intros j. unfold nig_stats. cbn. rewrite Q. fold s. ring. }
    now rewrite !E3.
  - set (x := exp (-10)). assert (Hx : 0 < x < 1). { unfold x. split; [apply exp_pos|]. replace 1 with (exp 0) by apply exp_0. apply exp_increasing. lra. }
    set (s := 2 * x / (1 + x)). assert (Hs : 0 < s < 2).
    { unfold s. split; [apply Rdiv_lt_0_compat; lra|]. apply Rmult_lt_reg_r with (1 + x); [lra|]. unfold Rdiv. rewrite Rmult_assoc, Rinv_l; lra. }
    destruct (@ex_ref_run true s Hs) as (d' & E & _ & _ & Hi).
    exists (ex_ref true), last_disc, (ex_two s), d', (ct_imp_request (ex_ref true) [d'] 0 0).
    destruct (@ex_two_ties s Hs) as [Ht Ho]. repeat (split; [first [exact (ex_ref_ok true)|apply ex_two_ok; lra|assumption|exact last_disc_ok|cbn; lra|reflexivity]|]).
    assert (El : to_line 2 s = -10).
    { unfold to_line, s. replace (2 * x / (1 + x) / (2 - 2 * x / (1 + x))) with x by (field; lra). unfold x. apply ln_exp. }
    unfold ct_imp_request, nig_post. cbn [fst snd].
    assert (E3 : nig_stats [d'] 0 0 0 = -10). { unfold nig_stats. cbn. rewrite Hi, El. ring. }
    rewrite !E3. cbn [ex_ref cm_lmbda0 cm_alpha0]. lra.
Qed.

Example C111_nonvacuous :
  (exists d', ref_resample (ex_ref true) last_disc (ex_two 1) = (Ok tt, d') /\ cd_Z d' 1%nat = 0%Z) /\
  (exists d', ref_resample (ex_ref false) last_disc (ex_two 1) = (Ok tt, d') /\ cd_Z d' 1%nat = 0%Z) /\
  fst (ref_resample (ex_ref true) last_disc (ex_two 0)) = Raise AssertionError /\
  parent_weight eps 2 (cd_S (ex_two 1)) (cd_C (ex_two 1)) (fun _ => 1) (impulse_of (ex_ref true)) 1 1%nat =
    kappa_c * ref_mass (ex_ref true) (ex_two 1) 1 1%nat.
Proof.
  repeat split.
  - destruct (@ex_ref_run true 1 ltac:(lra)) as (d' & E & _ & Ez & _). eauto.
  - destruct (@ex_ref_run false 1 ltac:(lra)) as (d' & E & _ & Ez & _). eauto.
  - apply C111_simultaneous_events_refuted with 0%nat 1%nat; try (cbn; lia); [apply ex_ref_ok|apply ex_two_ok; lra|cbn; lra|reflexivity].
  - pose proof eps_pos. apply (@C111_agrees_with_the_compiled_sampler (ex_ref true) (ex_two 1) 1); try (cbn; lia).
    + apply ex_ref_ok.
    + apply ex_two_ok; lra.
    + cbn; lra.
    + intros p Hp. assert (p = 0%nat) as -> by lia. left. cbn. unfold eps in *. lra.
Qed.

Print Assumptions C111_reference_request.
Print Assumptions C111_reference_sampler_partial.
Print Assumptions C111_agrees_with_the_compiled_sampler.
Print Assumptions C111_simultaneous_events_refuted.
Print Assumptions C111_absent_edge_refuted.
Print Assumptions C111_impulse_update_refuted.
