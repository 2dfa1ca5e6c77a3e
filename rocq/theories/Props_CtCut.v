(** * Props_CtCut: C138, a continuous-time recording may be cut wherever the last dt_max was silent.
    No new model code: M_Continuous (models.py 1560-1590, 1703-1814; parents.py 483-543; continuous_time_helpers.pyx 96-220). *)
From Coq Require Import Permutation.
From Verif Require Import Prelude ExtReal Arrays Spec_Gibbs Spec_Continuous Spec_CtCut M_Basis M_Parents M_Discrete M_Gibbs M_Dist M_Network M_Sweep
  L_Gibbs Props_Network M_Continuous L_Continuous Props_Continuous.
Set Implicit Arguments.
Open Scope R_scope.

(** [d] is the recording [d1] followed by the recording [d2]. *)
Record joined (d1 d2 d : ctdata) : Prop := {
  jn_N : cd_N d = (cd_N d1 + cd_N d2)%nat;
  jn_T : cd_T d = cd_T d1 + cd_T d2;
  jn_S : forall n, (n < cd_N d)%nat -> cd_S d n = times_then (cd_N d1) (cd_T d1) (cd_S d1) (cd_S d2) n;
  jn_C : forall n, (n < cd_N d)%nat -> cd_C d n = then_ (cd_N d1) (cd_C d1) (cd_C d2) n }.

Lemma then_l {A} N1 (x y : nat -> A) n : (n < N1)%nat -> then_ N1 x y n = x n.
Proof. intros H. unfold then_. destruct (Nat.ltb_spec n N1); [reflexivity|lia]. Qed.
Lemma then_r {A} N1 (x y : nat -> A) n : then_ N1 x y (N1 + n) = y n.
Proof. unfold then_. destruct (Nat.ltb_spec (N1 + n) N1); [lia|]. f_equal. lia. Qed.

(* ---------------- the backward scan ---------------- *)
Lemma back_scan_ext skip stop w skip' stop' w' : forall n acc,
  (forall p, (p < n)%nat -> skip p = skip' p /\ stop p = stop' p /\ w p = w' p) ->
  back_scan skip stop w n acc = back_scan skip' stop' w' n acc.
Proof.
  induction n as [|n IH]; intros acc H; cbn [back_scan]; [reflexivity|].
  destruct (H n ltac:(lia)) as (-> & -> & ->).
  destruct (skip' n); [apply IH; intros; apply H; lia|]. destruct (stop' n); [reflexivity|]. apply IH. intros; apply H; lia.
Qed.
Lemma back_scan_le skip stop w : forall n acc, (snd (back_scan skip stop w n acc) <= n)%nat.
Proof.
  induction n as [|n IH]; intros acc; cbn [back_scan snd]; [lia|].
  destruct (skip n); [specialize (IH acc); lia|]. destruct (stop n); [cbn [snd]; lia|]. specialize (IH (acc + w n)). lia.
Qed.
Lemma back_scan_silent skip stop w : forall n acc,
  (forall p, (p < n)%nat -> stop p = true) ->
  exists q, (q <= n)%nat /\ back_scan skip stop w n acc = (acc, q).
Proof.
  induction n as [|n IH]; intros acc H; cbn [back_scan]; [exists 0%nat; auto|].
  destruct (skip n).
  - destruct (IH acc) as (q & Hq & ->); [intros; apply H; lia|]. exists q. split; [lia|reflexivity].
  - rewrite H by lia. exists n. split; [lia|reflexivity].
Qed.
Lemma back_scan_shift N1 skip stop w skip' stop' w' : forall n acc,
  (forall p, (p < N1)%nat -> stop p = true) ->
  (forall p, (p < n)%nat -> skip (N1 + p)%nat = skip' p /\ stop (N1 + p)%nat = stop' p /\ w (N1 + p)%nat = w' p) ->
  exists a p q, back_scan skip' stop' w' n acc = (a, p) /\ (p <= n)%nat /\ back_scan skip stop w (N1 + n) acc = (a, q) /\
    (q = (N1 + p)%nat \/ (p = 0%nat /\ (q <= N1)%nat)).
Proof.
  induction n as [|n IH]; intros acc Hs H.
  - rewrite Nat.add_0_r. destruct (@back_scan_silent skip stop w N1 acc Hs) as (q & Hq & E).
    exists acc, 0%nat, q. cbn [back_scan]. repeat split; auto.
  - rewrite Nat.add_succ_r. cbn [back_scan]. destruct (H n ltac:(lia)) as (-> & -> & ->).
    assert (H' : forall p, (p < n)%nat -> skip (N1 + p)%nat = skip' p /\ stop (N1 + p)%nat = stop' p /\ w (N1 + p)%nat = w' p)
      by (intros; apply H; lia).
    destruct (skip' n).
    + destruct (IH acc Hs H') as (a & p & q & E1 & Hp & E2 & Hq). exists a, p, q. rewrite E1, E2. repeat split; auto.
    + destruct (stop' n).
      * exists acc, n, (N1 + n)%nat. repeat split; auto.
      * destruct (IH (acc + w' n) Hs H') as (a & p & q & E1 & Hp & E2 & Hq). exists a, p, q. rewrite E1, E2. repeat split; auto.
Qed.

(* ---------------- the forward scan ---------------- *)
Lemma fwd_scan_ext usable p usable' p' denom u : forall k par acc,
  (forall i, (par <= i < par + k)%nat -> usable i = usable' i /\ p i = p' i) ->
  fwd_scan usable p denom u par k acc = fwd_scan usable' p' denom u par k acc.
Proof.
  induction k as [|k IH]; intros par acc H; cbn [fwd_scan]; [reflexivity|].
  destruct (H par ltac:(lia)) as (-> & ->). cbv zeta.
  destruct (usable' par); [destruct (Rltb u _); [reflexivity|]|]; apply IH; intros; apply H; lia.
Qed.
Definition on (N1 : nat) (z : Z) : Z := if Z.ltb z 0 then z else (Z.of_nat N1 + z)%Z.
Lemma fwd_scan_shift N1 usable p usable' p' denom u : forall k par acc,
  (forall i, (par <= i < par + k)%nat -> usable (N1 + i)%nat = usable' i /\ p (N1 + i)%nat = p' i) ->
  fwd_scan usable p denom u (N1 + par) k acc = on N1 (fwd_scan usable' p' denom u par k acc).
Proof.
  induction k as [|k IH]; intros par acc H; cbn [fwd_scan]; [reflexivity|].
  destruct (H par ltac:(lia)) as (-> & ->). rewrite <- Nat.add_succ_r. cbv zeta.
  destruct (usable' par).
  - destruct (Rltb u _).
    + unfold on. destruct (Z.ltb_spec (Z.of_nat par) 0); lia.
    + apply IH; intros; apply H; lia.
  - apply IH; intros; apply H; lia.
Qed.
Lemma fwd_scan_unusable usable p denom u par k acc : forall j,
  (forall i, (par <= i < par + j)%nat -> usable i = false) ->
  fwd_scan usable p denom u par (j + k) acc = fwd_scan usable p denom u (par + j) k acc.
Proof.
  intros j. revert par. induction j as [|j IH]; intros par H; [cbn [Nat.add]; now rewrite Nat.add_0_r|].
  cbn [Nat.add fwd_scan]. rewrite H by lia. rewrite IH by (intros; apply H; lia). f_equal. lia.
Qed.

Section Cut.
Variables (m : ctmodel) (d1 d2 d : ctdata).
Hypothesis J : joined d1 d2 d.
Hypothesis Q : silent_end (cd_N d1) (cd_T d1) (cm_dtmax m) (cd_S d1).
Hypothesis P2 : forall n, (n < cd_N d2)%nat -> 0 <= cd_S d2 n.

Lemma jS1 n : (n < cd_N d1)%nat -> cd_S d n = cd_S d1 n.
Proof using J. intros H. rewrite (jn_S J) by (rewrite (jn_N J); lia). unfold times_then. now apply then_l. Qed.
Lemma jS2 n : (n < cd_N d2)%nat -> cd_S d (cd_N d1 + n)%nat = cd_T d1 + cd_S d2 n.
Proof using J. intros H. rewrite (jn_S J) by (rewrite (jn_N J); lia). unfold times_then. now rewrite then_r. Qed.
Lemma jC1 n : (n < cd_N d1)%nat -> cd_C d n = cd_C d1 n.
Proof using J. intros H. rewrite (jn_C J) by (rewrite (jn_N J); lia). now apply then_l. Qed.
Lemma jC2 n : (n < cd_N d2)%nat -> cd_C d (cd_N d1 + n)%nat = cd_C d2 n.
Proof using J. intros H. rewrite (jn_C J) by (rewrite (jn_N J); lia). now rewrite then_r. Qed.
Lemma gap2 n p : (n < cd_N d2)%nat -> (p < n)%nat -> cd_S d (cd_N d1 + n)%nat - cd_S d (cd_N d1 + p)%nat = cd_S d2 n - cd_S d2 p.
Proof using J. intros Hn Hp. rewrite !jS2 by lia. lra. Qed.
Lemma far n p : (n < cd_N d2)%nat -> (p < cd_N d1)%nat -> cm_dtmax m <= cd_S d (cd_N d1 + n)%nat - cd_S d p.
Proof using J Q P2. intros Hn Hp. rewrite jS2, jS1 by lia. specialize (Q Hp). specialize (P2 Hn). lra. Qed.
Lemma w1 W mu tau n p : (n < cd_N d1)%nat -> (p < n)%nat ->
  ct_w (cd_S d) (cd_C d) (cm_dtmax m) W mu tau n p = ct_w (cd_S d1) (cd_C d1) (cm_dtmax m) W mu tau n p.
Proof using J. intros Hn Hp. unfold ct_w. rewrite !jC1, !jS1 by lia. reflexivity. Qed.
Lemma w2 W mu tau n p : (n < cd_N d2)%nat -> (p < n)%nat ->
  ct_w (cd_S d) (cd_C d) (cm_dtmax m) W mu tau (cd_N d1 + n)%nat (cd_N d1 + p)%nat = ct_w (cd_S d2) (cd_C d2) (cm_dtmax m) W mu tau n p.
Proof using J. intros Hn Hp. unfold ct_w. rewrite !jC2, gap2 by lia. reflexivity. Qed.

Lemma rate1 lam W mu tau n : (n < cd_N d1)%nat ->
  ct_rate_one (cd_S d) (cd_C d) (cm_dtmax m) lam W mu tau n = ct_rate_one (cd_S d1) (cd_C d1) (cm_dtmax m) lam W mu tau n.
Proof using J.
  intros Hn. unfold ct_rate_one. rewrite jC1 by lia. f_equal. apply back_scan_ext. intros p Hp.
  rewrite w1, jC1, !jS1 by lia. auto.
Qed.
Lemma rate2 lam W mu tau n : (n < cd_N d2)%nat ->
  ct_rate_one (cd_S d) (cd_C d) (cm_dtmax m) lam W mu tau (cd_N d1 + n)%nat = ct_rate_one (cd_S d2) (cd_C d2) (cm_dtmax m) lam W mu tau n.
Proof using J Q P2.
  intros Hn. unfold ct_rate_one. rewrite jC2 by lia.
  match goal with |- fst (back_scan ?a ?b ?c _ ?acc) = fst (back_scan ?a' ?b' ?c' _ _) =>
    destruct (@back_scan_shift (cd_N d1) a b c a' b' c' n acc) as (x & p & q & E1 & _ & E2 & _) end.
  - intros p Hp. apply Rleb_true. pose proof (@far n p Hn Hp). pose proof eps_pos. lra.
  - intros p Hp. cbv beta. rewrite w2, gap2, jC2 by lia. auto.
  - rewrite E1, E2. reflexivity.
Qed.

Lemma parent1 lam W mu tau u1 u n : (n < cd_N d1)%nat -> u n = u1 n ->
  ct_parent (cd_S d) (cd_C d) (cm_dtmax m) lam W mu tau u n = ct_parent (cd_S d1) (cd_C d1) (cm_dtmax m) lam W mu tau u1 n.
Proof using J.
  intros Hn Hu. destruct n as [|n']; [reflexivity|]. unfold ct_parent. rewrite jC1 by lia. rewrite Hu. cbv zeta.
  match goal with |- (let '(_, _) := back_scan ?a ?b ?c _ ?acc in _) = (let '(_, _) := back_scan ?a' ?b' ?c' _ _ in _) =>
    rewrite (@back_scan_ext a b c a' b' c' (S n') acc) by (intros p Hp; cbv beta; rewrite w1, !jS1 by lia; auto);
    pose proof (@back_scan_le a' b' c' (S n') acc) as Hmp;
    destruct (back_scan a' b' c' (S n') acc) as [denom mp] end.
  cbn [snd] in Hmp. destruct (Reqb denom 0); [reflexivity|]. destruct (Rltb (u1 (S n')) _); [reflexivity|]. f_equal.
  apply fwd_scan_ext. intros i Hi. rewrite w1, !jS1 by lia. auto.
Qed.
Lemma parent2 lam W mu tau u2 u n : (n < cd_N d2)%nat -> u (cd_N d1 + n)%nat = u2 n -> 0 < lam (cd_C d2 n) -> u2 n < 1 ->
  ct_parent (cd_S d) (cd_C d) (cm_dtmax m) lam W mu tau u (cd_N d1 + n)%nat =
  (do z <- ct_parent (cd_S d2) (cd_C d2) (cm_dtmax m) lam W mu tau u2 n ;; Ok (on (cd_N d1) z)).
Proof using J Q P2.
  intros Hn Hu Hl Hu1.
  (* event 0 of the second recording is treated apart: its only candidate is the background *)
  assert (Hgen : forall k, k = (cd_N d1 + n)%nat -> (0 < k)%nat ->
    ct_parent (cd_S d) (cd_C d) (cm_dtmax m) lam W mu tau u k =
    (let w := ct_w (cd_S d2) (cd_C d2) (cm_dtmax m) W mu tau n in
     let skip := fun par => Rltb (cd_S d2 n - cd_S d2 par) eps in
     let '(denom, min_par) := back_scan skip (fun par => Rltb (cm_dtmax m - eps) (cd_S d2 n - cd_S d2 par)) w n (lam (cd_C d2 n)) in
     if Reqb denom 0 then Raise ZeroDivisionError
     else let acc := lam (cd_C d2 n) / denom in
       if Rltb (u2 n) acc then Ok (-1)%Z
       else Ok (on (cd_N d1) (fwd_scan (fun par => (negb (skip par) && Rleb (cd_S d2 n - cd_S d2 par) (cm_dtmax m - eps))%bool)
                        w denom (u2 n) min_par (n - min_par) acc)))).
  { intros k Ek Hk. unfold ct_parent. destruct k as [|k']; [lia|]. rewrite Ek. rewrite jC2 by lia. rewrite Hu. cbv zeta.
    match goal with |- (let '(_, _) := back_scan ?a ?b ?c _ ?acc in _) = (let '(_, _) := back_scan ?a' ?b' ?c' _ _ in _) =>
      destruct (@back_scan_shift (cd_N d1) a b c (fun par => Rltb (cd_S d2 n - cd_S d2 par) eps)
        (fun par => Rltb (cm_dtmax m - eps) (cd_S d2 n - cd_S d2 par)) (ct_w (cd_S d2) (cd_C d2) (cm_dtmax m) W mu tau n) n acc)
        as (x & p & q & E1 & Hp & E2 & Hq) end.
    - intros p Hp. apply Rltb_true. pose proof (@far n p Hn Hp). pose proof eps_pos. lra.
    - intros p Hp. cbv beta. rewrite w2, gap2 by lia. auto.
    - rewrite E1, E2. destruct (Reqb x 0); [reflexivity|]. destruct (Rltb (u2 n) _); [reflexivity|]. f_equal.
      assert (Hsh : forall i, (p <= i < p + (n - p))%nat ->
        (negb (Rltb (cd_S d (cd_N d1 + n)%nat - cd_S d (cd_N d1 + i)%nat) eps) && Rleb (cd_S d (cd_N d1 + n)%nat - cd_S d (cd_N d1 + i)%nat) (cm_dtmax m - eps))%bool =
        (negb (Rltb (cd_S d2 n - cd_S d2 i) eps) && Rleb (cd_S d2 n - cd_S d2 i) (cm_dtmax m - eps))%bool /\
        ct_w (cd_S d) (cd_C d) (cm_dtmax m) W mu tau (cd_N d1 + n)%nat (cd_N d1 + i)%nat = ct_w (cd_S d2) (cd_C d2) (cm_dtmax m) W mu tau n i).
      { intros i Hi. rewrite w2, gap2 by lia. auto. }
      destruct Hq as [->|[-> Hq]].
      + replace (cd_N d1 + n - (cd_N d1 + p)%nat)%nat with (n - p)%nat by lia. apply fwd_scan_shift. exact Hsh.
      + replace (cd_N d1 + n - q)%nat with ((cd_N d1 - q) + (n - 0))%nat by lia.
        rewrite fwd_scan_unusable.
        * replace (q + (cd_N d1 - q))%nat with (cd_N d1 + 0)%nat by lia. apply fwd_scan_shift. exact Hsh.
        * intros i Hi. apply andb_false_intro2. apply not_true_iff_false. intros H. apply Rleb_true in H.
          pose proof (@far n i Hn ltac:(lia)). pose proof eps_pos. lra. }
  destruct n as [|n'].
  - cbn [ct_parent bindr]. change (on (cd_N d1) (-1)) with (-1)%Z.
    destruct (cd_N d1 + 0)%nat as [|k] eqn:Ek; [reflexivity|].
    rewrite (Hgen (S k) eq_refl ltac:(lia)). cbn [back_scan].
    assert (Reqb (lam (cd_C d2 0%nat)) 0 = false) as -> by (apply not_true_iff_false; intros H; apply Reqb_true in H; lra).
    cbv zeta. assert (Rltb (u2 0%nat) (lam (cd_C d2 0%nat) / lam (cd_C d2 0%nat)) = true) as ->; [|reflexivity].
    apply Rltb_true. unfold Rdiv. rewrite Rinv_r by lra. exact Hu1.
  - rewrite (Hgen (cd_N d1 + S n')%nat eq_refl ltac:(lia)). unfold ct_parent. cbv zeta.
    destruct (back_scan _ _ _ (S n') _) as [denom mp].
    destruct (Reqb denom 0); [reflexivity|]. destruct (Rltb (u2 (S n')) _); reflexivity.
Qed.
End Cut.

(* ================= C138 ================= *)
(** Rates at the events: those of the parts one after the other.  No assumption on the parameters. *)
Theorem C138_rates :
  forall m d1 d2 d order1 order2 order, joined d1 d2 d ->
    silent_end (cd_N d1) (cd_T d1) (cm_dtmax m) (cd_S d1) -> (forall n, (n < cd_N d2)%nat -> 0 <= cd_S d2 n) ->
    Permutation order1 (seq 0 (cd_N d1)) -> Permutation order2 (seq 0 (cd_N d2)) -> Permutation order (seq 0 (cd_N d)) ->
    forall n, (n < cd_N d)%nat ->
      ct_model_rate order m d n = then_ (cd_N d1) (ct_model_rate order1 m d1) (ct_model_rate order2 m d2) n.
Proof.
  intros m d1 d2 d o1 o2 o J Q P2 H1 H2 H n Hn. unfold ct_model_rate, ct_rate_at_events.
  rewrite (@run_tasks_all _ o (cd_N d)) by auto.
  rewrite (jn_N J) in Hn. destruct (Nat.lt_ge_cases n (cd_N d1)) as [L|L].
  - rewrite then_l by exact L. rewrite (@run_tasks_all _ o1 (cd_N d1)) by auto. eapply rate1; eauto.
  - replace n with (cd_N d1 + (n - cd_N d1))%nat by lia. rewrite then_r.
    rewrite (@run_tasks_all _ o2 (cd_N d2)) by (auto; lia). eapply rate2; eauto. lia.
Qed.

Lemma joined_Ns d1 d2 d k : joined d1 d2 d -> cd_Ns d k = (cd_Ns d1 k + cd_Ns d2 k)%Z.
Proof.
  intros J. unfold cd_Ns, ct_Ns. rewrite (jn_N J), Zsum_app. f_equal; apply Zsum_ext; intros n Hn.
  - now rewrite (jC1 J).
  - now rewrite (jC2 J).
Qed.

Lemma ll_joined order m d1 d2 d : joined d1 d2 d ->
  silent_end (cd_N d1) (cd_T d1) (cm_dtmax m) (cd_S d1) -> (forall n, (n < cd_N d2)%nat -> 0 <= cd_S d2 n) ->
  (forall x, Permutation (order x) (seq 0 (cd_N x))) ->
  ct_ll_data order m d = eadd (ct_ll_data order m d1) (ct_ll_data order m d2).
Proof.
  intros J Q P2 Ho. unfold ct_ll_data.
  assert (E : - Rsum (cm_K m) (ct_integrated m d) = - Rsum (cm_K m) (ct_integrated m d1) + - Rsum (cm_K m) (ct_integrated m d2)).
  { rewrite (@Rsum_ext (cm_K m) (ct_integrated m d) (fun k => ct_integrated m d1 k + ct_integrated m d2 k)).
    - rewrite Rsum_plus. lra.
    - intros k Hk. unfold ct_integrated. rewrite (jn_T J).
      rewrite (@Rsum_ext (cm_K m) _ (fun k1 => ct_W_effective m k1 k * IZR (cd_Ns d1 k1) + ct_W_effective m k1 k * IZR (cd_Ns d2 k1))).
      + rewrite Rsum_plus. lra.
      + intros k1 _. rewrite (joined_Ns k1 J), plus_IZR. lra. }
  rewrite E, <- eadd_fin. rewrite (jn_N J), esum_app.
  assert (C := @C138_rates m d1 d2 d (order d1) (order d2) (order d) J Q P2 (Ho d1) (Ho d2) (Ho d)). rewrite (jn_N J) in C.
  rewrite (@esum_ext (cd_N d1) _ (fun n => elog (Fin (ct_model_rate (order d1) m d1 n))))
    by (intros n Hn; rewrite C by lia; now rewrite then_l).
  rewrite (@esum_ext (cd_N d2) _ (fun n => elog (Fin (ct_model_rate (order d2) m d2 n))))
    by (intros n Hn; rewrite C by lia; now rewrite then_r).
  set (a := Fin (- Rsum (cm_K m) (ct_integrated m d1))). set (b := Fin (- Rsum (cm_K m) (ct_integrated m d2))).
  generalize (esum (cd_N d1) (fun n => elog (Fin (ct_model_rate (order d1) m d1 n)))) as x.
  generalize (esum (cd_N d2) (fun n => elog (Fin (ct_model_rate (order d2) m d2 n)))) as y.
  intros y x. rewrite !eadd_assoc. f_equal. rewrite <- !eadd_assoc. f_equal. apply eadd_comm.
Qed.

(** The log likelihood of a list of recordings does not change when one of them is cut (infinite and NaN values included). *)
Theorem C138_log_likelihood :
  forall order m d1 d2 d before after, joined d1 d2 d ->
    silent_end (cd_N d1) (cd_T d1) (cm_dtmax m) (cd_S d1) -> (forall n, (n < cd_N d2)%nat -> 0 <= cd_S d2 n) ->
    (forall x, Permutation (order x) (seq 0 (cd_N x))) ->
    ct_log_likelihood order m (Some (before ++ d :: after)) = ct_log_likelihood order m (Some (before ++ d1 :: d2 :: after)).
Proof.
  intros order m d1 d2 d before after J Q P2 Ho. unfold ct_log_likelihood. rewrite !fold_left_app. cbn [fold_left].
  rewrite (@ll_joined order m d1 d2 d J Q P2 Ho). now rewrite eadd_assoc.
Qed.

(** The arrays of the whole recording. *)
Definition whole_times (N1 N2 : nat) (T1 : R) (s1 s2 : tval) : tval :=
  {| tv_isarray := true; tv_dims := [(N1 + N2)%nat]; tv_isfloat := true; tv_at := times_then N1 T1 (tv_at s1) (tv_at s2) |}.
Definition whole_ids (N1 N2 : nat) (c1 c2 : ival) : ival :=
  {| iv_isarray := true; iv_dims := [(N1 + N2)%nat]; iv_isint := true; iv_at := then_ N1 (iv_at c1) (iv_at c2) |}.

Lemma whole_acceptable K N1 N2 T1 T2 s1 s2 c1 c2 f1 f2 :
  acceptable K s1 c1 T1 f1 -> acceptable K s2 c2 T2 f2 -> tv_dims s1 = [N1] -> tv_dims s2 = [N2] -> 0 <= T1 -> 0 <= T2 ->
  acceptable K (whole_times N1 N2 T1 s1 s2) (whole_ids N1 N2 c1 c2) (T1 + T2) true.
Proof.
  intros (_ & _ & _ & _ & N1' & E1 & _ & _ & A1 & B1 & D1) (_ & _ & _ & _ & N2' & E2 & _ & _ & A2 & B2 & D2) Es1 Es2 HT1 HT2.
  rewrite Es1 in E1. injection E1 as <-. rewrite Es2 in E2. injection E2 as <-.
  repeat (split; [reflexivity|]). exists (N1 + N2)%nat. cbn [whole_times whole_ids tv_dims iv_dims tv_isfloat tv_at iv_at].
  split; [reflexivity|]. split; [reflexivity|]. split; [reflexivity|]. unfold times_then. split; [|split].
  - intros n Hn. destruct (Nat.lt_ge_cases n N1) as [L|L].
    + rewrite then_l by exact L. specialize (A1 n L). lra.
    + replace n with (N1 + (n - N1))%nat by lia. rewrite then_r. specialize (A2 (n - N1)%nat ltac:(lia)). lra.
  - intros i j Hij Hj. destruct (Nat.lt_ge_cases i N1) as [L|L]; destruct (Nat.lt_ge_cases j N1) as [L'|L']; try lia.
    + rewrite !then_l by lia. apply B1; lia.
    + rewrite then_l by lia. replace j with (N1 + (j - N1))%nat by lia. rewrite then_r.
      specialize (A1 i L). specialize (A2 (j - N1)%nat ltac:(lia)). lra.
    + replace i with (N1 + (i - N1))%nat by lia. replace j with (N1 + (j - N1))%nat by lia. rewrite !then_r.
      assert (tv_at s2 (i - N1)%nat <= tv_at s2 (j - N1)%nat) by (apply B2; lia). lra.
  - intros n Hn. destruct (Nat.lt_ge_cases n N1) as [L|L].
    + rewrite then_l by exact L. auto.
    + replace n with (N1 + (n - N1))%nat by lia. rewrite then_r. apply D2. lia.
Qed.

Lemma heldout_value order m S_ C_ T f d : ct_add_data m S_ C_ T f = Ok (cm_with_data m (cm_data m ++ [d])) ->
  fst (ct_heldout order m S_ C_ T f) = Ok (eadd (Fin 0) (ct_ll_data order m d)).
Proof.
  intros E. unfold ct_heldout. rewrite E. cbn [cm_with_data cm_set cm_data]. rewrite rev_app_distr. cbn [rev app].
  rewrite rev_involutive. reflexivity.
Qed.

(** Through the interface: adding the two parts, or the whole, gives the same training log likelihood, and held-out log
    likelihoods add up. *)
Theorem C138_add_data :
  forall order m N1 N2 T1 T2 s1 s2 c1 c2 f1 f2,
    acceptable (cm_K m) s1 c1 T1 f1 -> acceptable (cm_K m) s2 c2 T2 f2 -> tv_dims s1 = [N1] -> tv_dims s2 = [N2] ->
    0 <= T1 -> 0 <= T2 -> silent_end N1 T1 (cm_dtmax m) (tv_at s1) ->
    (forall x, Permutation (order x) (seq 0 (cd_N x))) ->
    (exists m1 m2 mw, ct_add_data m s1 c1 T1 f1 = Ok m1 /\ ct_add_data m1 s2 c2 T2 f2 = Ok m2 /\
       ct_add_data m (whole_times N1 N2 T1 s1 s2) (whole_ids N1 N2 c1 c2) (T1 + T2) true = Ok mw /\
       ct_log_likelihood order mw None = ct_log_likelihood order m2 None) /\
    (exists v1 v2, fst (ct_heldout order m s1 c1 T1 f1) = Ok v1 /\ fst (ct_heldout order m s2 c2 T2 f2) = Ok v2 /\
       fst (ct_heldout order m (whole_times N1 N2 T1 s1 s2) (whole_ids N1 N2 c1 c2) (T1 + T2) true) = Ok (eadd v1 v2)).
Proof.
  intros order m N1 N2 T1 T2 s1 s2 c1 c2 f1 f2 A1 A2 E1 E2 HT1 HT2 Q Ho.
  pose proof (@whole_acceptable (cm_K m) N1 N2 T1 T2 s1 s2 c1 c2 f1 f2 A1 A2 E1 E2 HT1 HT2) as Aw.
  destruct (proj1 (C78_add_data_accepts m s1 c1 T1 f1) A1) as (d1 & X1 & Y1 & O1 & U1 & V1 & _).
  destruct (proj1 (C78_add_data_accepts m s2 c2 T2 f2) A2) as (d2 & X2 & Y2 & O2 & U2 & V2 & _).
  destruct (proj1 (C78_add_data_accepts (cm_with_data m (cm_data m ++ [d1])) s2 c2 T2 f2) A2) as (d2' & X3 & Y3 & O3 & U3 & V3 & _).
  destruct (proj1 (C78_add_data_accepts m _ _ _ _) Aw) as (d & X & Y & O & U & V & _).
  rewrite E1 in Y1. injection Y1 as Y1. rewrite E2 in Y2, Y3. injection Y2 as Y2. injection Y3 as Y3.
  cbn [whole_times tv_dims] in Y. injection Y as Y.
  assert (J : forall e, cd_N e = N2 -> cd_T e = T2 ->
    (forall n, (n < cd_N e)%nat -> cd_S e n = tv_at s2 n /\ Z.of_nat (cd_C e n) = iv_at c2 n /\ cd_Z e n = (-1)%Z) -> joined d1 e d).
  { intros e He HTe Ve. constructor; [congruence|congruence| |]; intros n Hn; destruct (V n Hn) as (Va & Vb & _); cbn [whole_times whole_ids tv_at iv_at] in Va, Vb.
    - rewrite Va, <- Y1, U1. unfold times_then. destruct (Nat.lt_ge_cases n N1) as [L|L].
      + rewrite !then_l by exact L. symmetry. apply V1. lia.
      + replace n with (N1 + (n - N1))%nat by lia. rewrite !then_r. f_equal. symmetry. apply Ve. lia.
    - apply Nat2Z.inj. rewrite Vb, <- Y1. destruct (Nat.lt_ge_cases n N1) as [L|L].
      + rewrite !then_l by exact L. symmetry. apply V1. lia.
      + replace n with (N1 + (n - N1))%nat by lia. rewrite !then_r. symmetry. apply Ve. lia. }
  assert (Q1 : silent_end (cd_N d1) (cd_T d1) (cm_dtmax m) (cd_S d1)).
  { intros n Hn. destruct (V1 n Hn) as (-> & _). rewrite U1. apply Q. lia. }
  split.
  - exists (cm_with_data m (cm_data m ++ [d1])). eexists. eexists. split; [exact X1|]. split; [exact X3|]. split; [exact X|].
    unfold ct_log_likelihood. cbn [cm_with_data cm_set cm_data]. rewrite <- app_assoc. rewrite !fold_left_app. cbn [app fold_left].
    change (ct_ll_data order (cm_with_data m (cm_data m ++ [d]))) with (ct_ll_data order m).
    change (ct_ll_data order (cm_with_data (cm_with_data m (cm_data m ++ [d1])) ((cm_data m ++ [d1]) ++ [d2']))) with (ct_ll_data order m).
    rewrite (@ll_joined order m d1 d2' d (J d2' (eq_sym Y3) U3 V3) Q1) by (exact Ho || (intros n Hn; apply O3; exact Hn)).
    rewrite eadd_assoc. reflexivity.
  - do 2 eexists. split; [exact (@heldout_value order m _ _ _ _ _ X1)|]. split; [exact (@heldout_value order m _ _ _ _ _ X2)|].
    rewrite (@heldout_value order m _ _ _ _ _ X). f_equal.
    rewrite (@ll_joined order m d1 d2 d (J d2 (eq_sym Y2) U2 V2) Q1) by (exact Ho || (intros n Hn; apply O2; exact Hn)).
    rewrite !eadd_0_l. reflexivity.
Qed.

(* ---------------- the parents ---------------- *)
Lemma run_tasks_r_ok {A} (task : nat -> result A) : forall order slots z, run_tasks_r order task slots = Ok z ->
  forall k, (In k order -> task k = Ok (z k)) /\ (~ In k order -> z k = slots k).
Proof.
  induction order as [|j order IH]; intros slots z H k; cbn [run_tasks_r] in H.
  - injection H as <-. split; [intros []|reflexivity].
  - apply bindr_ok in H as (x & Ex & H). destruct (IH _ _ H k) as [I1 I2]. split.
    + intros Hin. destruct (in_dec Nat.eq_dec k order) as [Hi|Hi]; [auto|].
      destruct Hin as [->|]; [|contradiction]. rewrite (I2 Hi). unfold upd. now rewrite Nat.eqb_refl.
    + intros Hn. rewrite I2 by (intros Hc; apply Hn; now right). unfold upd.
      destruct (Nat.eqb_spec k j) as [->|]; [|reflexivity]. exfalso. apply Hn. now left.
Qed.
Lemma parents_resample_Z m order u d d' : ct_parents_resample m order u d = Ok d' -> Permutation order (seq 0 (cd_N d)) ->
  forall n, (n < cd_N d)%nat ->
    ct_parent (cd_S d) (cd_C d) (cm_dtmax m) (cm_lam m) (ct_W_effective m) (cm_mu m) (cm_tau m) u n = Ok (cd_Z d' n).
Proof.
  intros H Ho n Hn. unfold ct_parents_resample in H. apply bindr_ok in H as (z & Hz & H).
  apply bindr_ok in H as (? & _ & H). apply bindr_ok in H as (? & _ & H). apply bindr_ok in H as ([[bk ws] im] & _ & H).
  apply bindr_ok in H as (? & _ & H). injection H as <-. cbn [cd_with cd_Z].
  apply (run_tasks_r_ok _ _ _ Hz n). apply (Permutation_in n (Permutation_sym Ho)), in_seq. lia.
Qed.

Lemma count_joined N1 N2 P P1 P2 : (forall n, (n < N1)%nat -> P n = P1 n) -> (forall n, (n < N2)%nat -> P (N1 + n)%nat = P2 n) ->
  count (N1 + N2) P = count N1 P1 + count N2 P2.
Proof.
  intros H1 H2. unfold count. rewrite Rsum_app. f_equal; apply Rsum_ext; intros n Hn; [now rewrite H1|now rewrite H2].
Qed.
Lemma total_joined N1 N2 P P1 P2 x x1 x2 : (forall n, (n < N1)%nat -> P n = P1 n) -> (forall n, (n < N2)%nat -> P (N1 + n)%nat = P2 n) ->
  (forall n, (n < N1)%nat -> P1 n = true -> x n = x1 n) -> (forall n, (n < N2)%nat -> P2 n = true -> x (N1 + n)%nat = x2 n) ->
  total (N1 + N2) P x = total N1 P1 x1 + total N2 P2 x2.
Proof.
  intros H1 H2 X1 X2. unfold total. rewrite Rsum_app. f_equal; apply Rsum_ext; intros n Hn.
  - rewrite H1 by exact Hn. destruct (P1 n) eqn:E; auto.
  - rewrite H2 by exact Hn. destruct (P2 n) eqn:E; auto.
Qed.

(** Sum of squared deviations from the mean, of a group made of two. *)
Lemma ss_value N P x c : total N P (fun n => (x n - c) ^ 2) = total N P (fun n => x n ^ 2) - 2 * c * total N P x + c ^ 2 * count N P.
Proof.
  unfold total, count. induction N as [|N IH]; cbn [Rsum]; [lra|]. rewrite IH. destruct (P N); lra.
Qed.
Lemma count_nonneg N P : 0 <= count N P.
Proof. unfold count. apply Rsum_nonneg. intros i _. destruct (P i); lra. Qed.
Lemma count_0_total N P x : count N P = 0 -> total N P x = 0.
Proof.
  unfold count, total. induction N as [|N IH]; cbn [Rsum]; [auto|]. intros H.
  pose proof (count_nonneg N P) as H0. unfold count in H0. destruct (P N); [lra|]. rewrite IH by lra. lra.
Qed.
Lemma ss_joined n1 n2 s1 s2 q1 q2 : 0 <= n1 -> 0 <= n2 -> (n1 = 0 -> s1 = 0 /\ q1 = 0) -> (n2 = 0 -> s2 = 0 /\ q2 = 0) ->
  let ss n s q := q - 2 * (s / n) * s + (s / n) ^ 2 * n in
  ss (n1 + n2) (s1 + s2) (q1 + q2) = ss n1 s1 q1 + ss n2 s2 q2 + n1 * n2 / (n1 + n2) * (s1 / n1 - s2 / n2) ^ 2.
Proof.
  intros H1 H2 Z1 Z2 ss. unfold ss.
  destruct (Req_dec n1 0) as [E1|E1]; destruct (Req_dec n2 0) as [E2|E2].
  - destruct (Z1 E1) as [-> ->]. destruct (Z2 E2) as [-> ->]. subst. unfold Rdiv. ring.
  - destruct (Z1 E1) as [-> ->]. subst n1. unfold Rdiv. rewrite !Rplus_0_l, !Rmult_0_l. ring.
  - destruct (Z2 E2) as [-> ->]. subst n2. unfold Rdiv. rewrite !Rplus_0_r, !Rmult_0_r, !Rmult_0_l. ring.
  - field. repeat split; lra.
Qed.

Lemma joined_data_ok K d1 d2 d : joined d1 d2 d -> data_ok K d1 -> data_ok K d2 -> 0 <= cd_T d1 -> 0 <= cd_T d2 -> data_ok K d.
Proof.
  intros J (A1 & B1 & C1) (A2 & B2 & C2) HT1 HT2.
  pose proof (jn_N J) as HN. pose proof (jn_T J) as HT. split; [|split].
  - intros n Hn. destruct (Nat.lt_ge_cases n (cd_N d1)) as [L|L].
    + rewrite (jS1 J) by exact L. specialize (A1 n L). lra.
    + replace n with (cd_N d1 + (n - cd_N d1))%nat by lia. rewrite (jS2 J) by lia. specialize (A2 (n - cd_N d1)%nat ltac:(lia)). lra.
  - intros i j Hij Hj. destruct (Nat.lt_ge_cases i (cd_N d1)) as [L|L]; destruct (Nat.lt_ge_cases j (cd_N d1)) as [L'|L']; try lia.
    + rewrite !(jS1 J) by lia. apply B1; lia.
    + rewrite (jS1 J) by lia. replace j with (cd_N d1 + (j - cd_N d1))%nat by lia. rewrite (jS2 J) by lia.
      specialize (A1 i L). specialize (A2 (j - cd_N d1)%nat ltac:(lia)). lra.
    + replace i with (cd_N d1 + (i - cd_N d1))%nat by lia. replace j with (cd_N d1 + (j - cd_N d1))%nat by lia. rewrite !(jS2 J) by lia.
      assert (cd_S d2 (i - cd_N d1)%nat <= cd_S d2 (j - cd_N d1)%nat) by (apply B2; lia). lra.
  - intros n Hn. destruct (Nat.lt_ge_cases n (cd_N d1)) as [L|L].
    + rewrite (jC1 J) by exact L. auto.
    + replace n with (cd_N d1 + (n - cd_N d1))%nat by lia. rewrite (jC2 J) by lia. apply C2. lia.
Qed.

(** One parent update of the whole, with the uniforms of the two parts one after the other, attributes every event as the
    updates of the parts do; the counts and the sums of transformed delays add up.  The squared deviations, which the code
    takes within each recording, add up except for the spread between the two means (compare C65). *)
Theorem C138_parents :
  forall m d1 d2 d order1 order2 order u, joined d1 d2 d -> params_ok m -> data_ok (cm_K m) d1 -> data_ok (cm_K m) d2 ->
    0 <= cd_T d1 -> 0 <= cd_T d2 -> silent_end (cd_N d1) (cd_T d1) (cm_dtmax m) (cd_S d1) ->
    Permutation order1 (seq 0 (cd_N d1)) -> Permutation order2 (seq 0 (cd_N d2)) -> Permutation order (seq 0 (cd_N d)) ->
    (forall n, (n < cd_N d)%nat -> unit_interval (u n)) ->
    exists e1 e2 e,
      ct_parents_resample m order1 u d1 = Ok e1 /\
      ct_parents_resample m order2 (fun n => u (cd_N d1 + n)%nat) d2 = Ok e2 /\
      ct_parents_resample m order u d = Ok e /\
      (forall n, (n < cd_N d)%nat -> cd_Z e n = parents_then (cd_N d1) (cd_Z e1) (cd_Z e2) n) /\
      (forall k, cd_bkgd e k = cd_bkgd e1 k + cd_bkgd e2 k) /\
      (forall a b, cd_weight e a b = cd_weight e1 a b + cd_weight e2 a b) /\
      (forall a b, cd_imp e 0%nat a b = cd_imp e1 0%nat a b + cd_imp e2 0%nat a b) /\
      (forall a b, cd_imp e 1%nat a b = cd_imp e1 1%nat a b + cd_imp e2 1%nat a b) /\
      (forall a b, let n1 := cd_imp e1 0%nat a b in let n2 := cd_imp e2 0%nat a b in
         cd_imp e 2%nat a b = cd_imp e1 2%nat a b + cd_imp e2 2%nat a b +
           n1 * n2 / (n1 + n2) * (cd_imp e1 1%nat a b / n1 - cd_imp e2 1%nat a b / n2) ^ 2).
Proof.
  intros m d1 d2 d o1 o2 o u J Hp D1 D2 HT1 HT2 Q H1 H2 H Hu. pose proof (joined_data_ok J D1 D2 HT1 HT2) as D.
  pose proof (jn_N J) as HN.
  assert (P2 : forall n, (n < cd_N d2)%nat -> 0 <= cd_S d2 n) by (intros n Hn; apply D2; exact Hn).
  assert (U2 : forall n, (n < cd_N d2)%nat -> unit_interval (u (cd_N d1 + n)%nat)) by (intros n Hn; apply Hu; lia).
  destruct (@C59_parent_update m o1 u d1 Hp D1 H1) as (e1 & E1 & (N1 & S1 & C1 & _) & K1 & R1); [intros n Hn; apply Hu; lia|].
  destruct (@C59_parent_update m o2 (fun n => u (cd_N d1 + n)%nat) d2 Hp D2 H2 U2) as (e2 & E2 & (N2 & S2 & C2 & _) & K2 & R2).
  destruct (@C59_parent_update m o u d Hp D H Hu) as (e & E & (N & S_ & C & _) & K & _).
  exists e1, e2, e. split; [exact E1|]. split; [exact E2|]. split; [exact E|].
  assert (Z1 : forall n, (n < cd_N d1)%nat -> cd_Z e n = cd_Z e1 n).
  { intros n Hn. pose proof (@parents_resample_Z m o1 u d1 e1 E1 H1 n Hn) as A. pose proof (@parents_resample_Z m o u d e E H n ltac:(lia)) as B.
    rewrite (@parent1 m d1 d2 d J (cm_lam m) (ct_W_effective m) (cm_mu m) (cm_tau m) u u n Hn eq_refl), A in B. congruence. }
  assert (Z2 : forall n, (n < cd_N d2)%nat -> cd_Z e (cd_N d1 + n)%nat = on (cd_N d1) (cd_Z e2 n)).
  { intros n Hn. pose proof (@parents_resample_Z m o2 _ d2 e2 E2 H2 n Hn) as A. pose proof (@parents_resample_Z m o u d e E H (cd_N d1 + n)%nat ltac:(lia)) as B.
    rewrite (@parent2 m d1 d2 d J Q P2 (cm_lam m) (ct_W_effective m) (cm_mu m) (cm_tau m) (fun n => u (cd_N d1 + n)%nat) u n Hn eq_refl) in B.
    - rewrite A in B. cbn [bindr] in B. congruence.
    - apply Hp. apply D2. exact Hn.
    - apply U2. exact Hn. }
  assert (Zr1 : forall n, (n < cd_N d1)%nat -> (-1 <= cd_Z e1 n < Z.of_nat n)%Z).
  { intros n Hn. destruct (R1 n Hn) as ((j & Hj & -> & _) & _). lia. }
  assert (Zr2 : forall n, (n < cd_N d2)%nat -> (-1 <= cd_Z e2 n < Z.of_nat n)%Z).
  { intros n Hn. destruct (R2 n Hn) as ((j & Hj & -> & _) & _). lia. }
  assert (On : forall n, (n < cd_N d2)%nat -> Z.eqb (cd_Z e (cd_N d1 + n)%nat) (-1) = Z.eqb (cd_Z e2 n) (-1)).
  { intros n Hn. rewrite Z2 by exact Hn. specialize (Zr2 n Hn). unfold on. destruct (Z.ltb_spec (cd_Z e2 n) 0); [reflexivity|].
    destruct (Z.eqb_spec (Z.of_nat (cd_N d1) + cd_Z e2 n) (-1)), (Z.eqb_spec (cd_Z e2 n) (-1)); lia || reflexivity. }
  assert (To : forall n, (n < cd_N d2)%nat -> Z.eqb (cd_Z e2 n) (-1) = false ->
     Z.to_nat (cd_Z e (cd_N d1 + n)%nat) = (cd_N d1 + Z.to_nat (cd_Z e2 n))%nat /\ (Z.to_nat (cd_Z e2 n) < n)%nat).
  { intros n Hn Ez. rewrite Z2 by exact Hn. specialize (Zr2 n Hn). apply Z.eqb_neq in Ez. unfold on. destruct (Z.ltb_spec (cd_Z e2 n) 0); lia. }
  assert (PE1 : forall a b n, (n < cd_N d1)%nat -> pair_events e a b n = pair_events e1 a b n).
  { intros a b n Hn. unfold pair_events. rewrite C, C1, Z1 by exact Hn. specialize (Zr1 n Hn).
    destruct (Z.eqb_spec (cd_Z e1 n) (-1)); [reflexivity|]. rewrite !(jC1 J) by lia. reflexivity. }
  assert (PE2 : forall a b n, (n < cd_N d2)%nat -> pair_events e a b (cd_N d1 + n)%nat = pair_events e2 a b n).
  { intros a b n Hn. unfold pair_events. rewrite C, C2, On by exact Hn.
    destruct (Z.eqb (cd_Z e2 n) (-1)) eqn:Ez; [reflexivity|]. destruct (To n Hn Ez) as [-> Hlt]. rewrite !(jC2 J) by lia. reflexivity. }
  assert (PX1 : forall a b n, (n < cd_N d1)%nat -> pair_events e1 a b n = true -> xdelay m e n = xdelay m e1 n).
  { intros a b n Hn Hpe. unfold xdelay. rewrite S_, S1, Z1 by exact Hn. specialize (Zr1 n Hn). unfold pair_events in Hpe.
    destruct (Z.eqb_spec (cd_Z e1 n) (-1)); [discriminate|]. rewrite !(jS1 J) by lia. reflexivity. }
  assert (PX2 : forall a b n, (n < cd_N d2)%nat -> pair_events e2 a b n = true -> xdelay m e (cd_N d1 + n)%nat = xdelay m e2 n).
  { intros a b n Hn Hpe. unfold xdelay. rewrite S_, S2. unfold pair_events in Hpe.
    destruct (Z.eqb (cd_Z e2 n) (-1)) eqn:Ez; [discriminate|]. destruct (To n Hn Ez) as [-> Hlt]. rewrite (gap2 J) by lia. reflexivity. }
  split.
  { intros n Hn. unfold parents_then. destruct (Nat.lt_ge_cases n (cd_N d1)) as [L|L].
    - rewrite then_l by exact L. auto.
    - replace n with (cd_N d1 + (n - cd_N d1))%nat by lia. rewrite then_r. apply Z2. lia. }
  assert (Cn : forall a b, count (cd_N e) (pair_events e a b) = count (cd_N e1) (pair_events e1 a b) + count (cd_N e2) (pair_events e2 a b)).
  { intros a b. rewrite N, HN, N1, N2. apply count_joined; auto. }
  assert (Tx : forall a b, total (cd_N e) (pair_events e a b) (xdelay m e) =
     total (cd_N e1) (pair_events e1 a b) (xdelay m e1) + total (cd_N e2) (pair_events e2 a b) (xdelay m e2)).
  { intros a b. rewrite N, HN, N1, N2. apply total_joined; eauto. }
  split.
  { intros k. rewrite (st_bkgd K), (st_bkgd K1), (st_bkgd K2). rewrite N, HN, N1, N2. apply count_joined.
    - intros n Hn. rewrite Z1, C, C1, (jC1 J) by exact Hn. reflexivity.
    - intros n Hn. rewrite On, C, C2, (jC2 J) by exact Hn. reflexivity. }
  split; [intros a b; rewrite (st_weight K), (st_weight K1), (st_weight K2); apply Cn|].
  split; [intros a b; rewrite (st_n K), (st_n K1), (st_n K2); apply Cn|].
  split; [intros a b; rewrite (st_sum K), (st_sum K1), (st_sum K2); apply Tx|].
  intros a b. cbv zeta. rewrite (st_n K1), (st_n K2), (st_sum K1), (st_sum K2), (st_ss K), (st_ss K1), (st_ss K2).
  rewrite !ss_value, Cn, Tx.
  replace (total (cd_N e) (pair_events e a b) (fun n => xdelay m e n ^ 2)) with
    (total (cd_N e1) (pair_events e1 a b) (fun n => xdelay m e1 n ^ 2) + total (cd_N e2) (pair_events e2 a b) (fun n => xdelay m e2 n ^ 2)).
  2:{ rewrite N, HN, N1, N2. symmetry. apply total_joined; auto; intros n Hn Hpe; f_equal; eauto. }
  apply ss_joined; try apply count_nonneg; intros Hz; split; apply count_0_total; exact Hz.
Qed.

(* ---------------- a concrete case, and the silence is needed ---------------- *)
Definition cut_net : netobj := NetEr {| e_K := 1; e_p := 1 / 2; e_v := 1; e_kappa := 1; e_alpha := None; e_beta := None; e_allow := true; e_mf := None |}.
Definition cut_m : ctmodel :=
  {| cm_K := 1; cm_dtmax := 1; cm_lam := fun _ => 1; cm_A := fun _ _ => true; cm_W := fun _ _ => 1; cm_mu := fun _ _ => 0; cm_tau := fun _ _ => 1;
     cm_net := cut_net; cm_data := []; cm_alpha := 1; cm_beta := 1; cm_mu0 := 0; cm_lmbda0 := 1; cm_alpha0 := 1; cm_beta0 := 1; cm_par := true |}.
(** [N] events of process 0 half a unit apart, from time 0, and a horizon T. *)
Definition cut_d (N : nat) (T : R) : ctdata :=
  {| cd_N := N; cd_S := fun n => INR n / 2; cd_C := fun _ => 0%nat; cd_T := T; cd_Z := fun _ => (-1)%Z;
     cd_bkgd := fun _ => INR N; cd_weight := fun _ _ => 0; cd_imp := fun _ _ _ => 0 |}.
Definition cut_whole (N1 : nat) (T1 : R) (N2 : nat) (T2 : R) : ctdata :=
  {| cd_N := N1 + N2; cd_S := times_then N1 T1 (cd_S (cut_d N1 T1)) (cd_S (cut_d N2 T2)); cd_C := fun _ => 0%nat; cd_T := T1 + T2; cd_Z := fun _ => (-1)%Z;
     cd_bkgd := fun _ => INR (N1 + N2); cd_weight := fun _ _ => 0; cd_imp := fun _ _ _ => 0 |}.
Lemma cut_joined N1 T1 N2 T2 : joined (cut_d N1 T1) (cut_d N2 T2) (cut_whole N1 T1 N2 T2).
Proof. constructor; [reflexivity|reflexivity|reflexivity|]. intros n _. unfold then_. destruct (Nat.ltb n _); reflexivity. Qed.
Lemma cut_params : params_ok cut_m.
Proof. repeat split; intros; cbn; lra. Qed.
Lemma cut_d_ok N T : (forall n, (n < N)%nat -> INR n / 2 < T) -> data_ok 1 (cut_d N T).
Proof.
  intros H. split; [|split]; cbn [cut_d cd_S cd_N cd_C cd_T].
  - intros n Hn. split; [pose proof (pos_INR n); lra|auto].
  - intros i j Hij Hj. apply le_INR in Hij. cbn. lra.
  - intros; lia.
Qed.

(** Without the silence the rates differ: an event half a unit before the cut. *)
Theorem C138_silence_needed :
  exists m d1 d2 d n, joined d1 d2 d /\ params_ok m /\ data_ok (cm_K m) d1 /\ data_ok (cm_K m) d2 /\ (n < cd_N d2)%nat /\
    ~ silent_end (cd_N d1) (cd_T d1) (cm_dtmax m) (cd_S d1) /\
    (forall o2 o, Permutation o2 (seq 0 (cd_N d2)) -> Permutation o (seq 0 (cd_N d)) ->
       ct_model_rate o2 m d2 n < ct_model_rate o m d (cd_N d1 + n)%nat).
Proof.
  exists cut_m, (cut_d 1 (1 / 2)), (cut_d 1 1), (cut_whole 1 (1 / 2) 1 1), 0%nat.
  split; [apply cut_joined|]. split; [apply cut_params|].
  split. { apply cut_d_ok. intros n Hn. replace n with 0%nat by lia. cbn. lra. }
  split. { apply cut_d_ok. intros n Hn. replace n with 0%nat by lia. cbn. lra. }
  split; [cbn; lia|]. split. { intros Hq. specialize (Hq 0%nat). cbn in Hq. specialize (Hq ltac:(lia)). lra. }
  intros o2 o H2 H. unfold ct_model_rate, ct_rate_at_events.
  rewrite (@run_tasks_all _ o2 (cd_N (cut_d 1 1))) by (auto; cbn; lia).
  rewrite (@run_tasks_all _ o (cd_N (cut_whole 1 (1 / 2) 1 1))) by (auto; cbn; lia).
  unfold ct_rate_one. cbn [cut_d cut_whole cut_m cd_N cd_S cd_C cm_lam cm_W cm_mu cm_tau cm_dtmax Nat.add back_scan fst].
  unfold times_then, then_. cbn [Nat.ltb Nat.leb Nat.sub INR].
  assert (eps < / 10) as He by (unfold eps; lra).
  assert (0 < eps) as He0 by apply eps_pos.
  assert (Rltb (1 / 2 + 0 / 2 - 0 / 2) eps = false) as -> by (apply not_true_iff_false; intros Hc; apply Rltb_true in Hc; lra).
  assert (Rleb (1 - eps) (1 / 2 + 0 / 2 - 0 / 2) = false) as -> by (apply not_true_iff_false; intros Hc; apply Rleb_true in Hc; lra).
  unfold ct_W_effective. cbn [cut_m cm_A cm_W b2R fst].
  assert (Rltb 0 (1 * 1) = true) as -> by (apply Rltb_true; lra). cbn [fst].
  unfold ct_w. cbn [cut_m cm_mu cm_tau]. unfold ln_impulse. cbn [INR Nat.ltb Nat.leb Nat.sub].
  assert (Rltb (1 / 2 + 0 / 2 - 0 / 2) eps = false) as -> by (apply not_true_iff_false; intros Hc; apply Rltb_true in Hc; lra).
  assert (Rltb (1 - (1 / 2 + 0 / 2 - 0 / 2)) eps = false) as -> by (apply not_true_iff_false; intros Hc; apply Rltb_true in Hc; lra).
  match goal with |- _ < _ + 1 * 1 * (exp ?x / ?z) => assert (0 < exp x / z) end; [|lra].
  apply Rdiv_lt_0_compat; [apply exp_pos|]. rewrite sqrt_1. unfold SQRT_2PI. lra.
Qed.

(** The premises hold of a recording of two events, then silence, then two more: both responses are inside the parts. *)
Example C138_nonvacuous :
  joined (cut_d 2 2) (cut_d 2 1) (cut_whole 2 2 2 1) /\ params_ok cut_m /\ data_ok (cm_K cut_m) (cut_d 2 2) /\ data_ok (cm_K cut_m) (cut_d 2 1) /\
  silent_end (cd_N (cut_d 2 2)) (cd_T (cut_d 2 2)) (cm_dtmax cut_m) (cd_S (cut_d 2 2)) /\
  Permutation [1; 0]%nat (seq 0 (cd_N (cut_d 2 2))).
Proof.
  split; [apply cut_joined|]. split; [apply cut_params|].
  assert (H : forall T, 1 <= T -> forall n, (n < 2)%nat -> INR n / 2 < T).
  { intros T HT n Hn. destruct n as [|[|]]; [| |lia]; cbn; lra. }
  split; [apply cut_d_ok, H; lra|]. split; [apply cut_d_ok, H; lra|].
  split. { intros n Hn. cbn [cut_d cd_N cd_S cd_T cm_dtmax cut_m] in *. destruct n as [|[|]]; [| |lia]; cbn; lra. }
  apply perm_swap.
Qed.

(** Two float arrays through the interface. *)
Example C138_add_data_nonvacuous :
  let s := {| tv_isarray := true; tv_dims := [2%nat]; tv_isfloat := true; tv_at := fun n => INR n / 2 |} in
  let c := {| iv_isarray := true; iv_dims := [2%nat]; iv_isint := true; iv_at := fun _ => 0%Z |} in
  acceptable (cm_K cut_m) s c 2 true /\ silent_end 2 2 (cm_dtmax cut_m) (tv_at s).
Proof.
  split.
  - repeat (split; [reflexivity|]). exists 2%nat. cbn [tv_dims iv_dims tv_isfloat tv_at iv_at]. repeat (split; [reflexivity|]).
    split; [|split].
    + intros n Hn. destruct n as [|[|]]; [| |lia]; cbn; lra.
    + intros i j Hij Hj. apply le_INR in Hij. lra.
    + intros n Hn. cbn. lia.
  - intros n Hn. cbn [cm_dtmax cut_m tv_at]. destruct n as [|[|]]; [| |lia]; cbn; lra.
Qed.

Print Assumptions C138_rates.
Print Assumptions C138_log_likelihood.
Print Assumptions C138_add_data.
Print Assumptions C138_parents.
Print Assumptions C138_silence_needed.
