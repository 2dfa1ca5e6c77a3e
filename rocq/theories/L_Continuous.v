(** * L_Continuous: lemmas about the continuous-time scans. *)
From Coq Require Import Permutation Machin.
From Verif Require Import Prelude ExtReal Arrays Spec_Gibbs Spec_Continuous M_Basis M_Parents M_Discrete M_Gibbs M_Dist M_Network M_Sweep
  L_Gibbs M_Continuous.
Set Implicit Arguments.
Open Scope R_scope.

Lemma eps_pos : 0 < eps.
Proof. unfold eps. apply Rinv_0_lt_compat, pow_lt. lra. Qed.
Lemma SQRT_2PI_pos : 0 < SQRT_2PI.
Proof. unfold SQRT_2PI. apply Rdiv_lt_0_compat; [lra|apply pow_lt; lra]. Qed.

(* ---------------- impulse ---------------- *)
(** Ratio of sqrt(2 pi) to the literal compiled into the helpers. *)
Definition kappa_c : R := sqrt (2 * PI) / SQRT_2PI.
Lemma kappa_c_pos : 0 < kappa_c.
Proof. apply Rdiv_lt_0_compat; [apply sqrt_lt_R0; pose proof PI_RGT_0; lra|apply SQRT_2PI_pos]. Qed.

Lemma ln_impulse_pdf dt mu tau D : 0 < tau -> eps <= dt -> eps <= D - dt ->
  ln_impulse dt mu tau D = kappa_c * delay_pdf D mu tau dt.
Proof.
  intros Ht H1 H2. pose proof eps_pos. pose proof PI_RGT_0 as HPI. pose proof SQRT_2PI_pos.
  unfold ln_impulse. replace (Rltb dt eps) with false by (symmetry; apply Rltb_false; lra).
  replace (Rltb (D - dt) eps) with false by (symmetry; apply Rltb_false; lra).
  assert (E : c_logit (dt / D) = to_line D dt).
  { unfold c_logit, to_line. f_equal. field. lra. }
  rewrite E. unfold delay_pdf, normal_pdf, kappa_c.
  replace (- tau / 2 * (to_line D dt - mu) ^ 2) with (- (tau / 2) * (to_line D dt - mu) ^ 2) by field.
  rewrite sqrt_div by lra.
  assert (0 < sqrt tau) by (apply sqrt_lt_R0; lra).
  assert (0 < sqrt (2 * PI)) by (apply sqrt_lt_R0; lra).
  set (e := exp _). clearbody e.
  assert (Hs : sqrt tau * sqrt tau = tau) by (apply sqrt_sqrt; lra).
  field. repeat split; lra.
Qed.
Lemma delay_pdf_pos D mu tau dt : 0 < tau -> 0 < dt -> dt < D -> 0 < delay_pdf D mu tau dt.
Proof.
  intros. unfold delay_pdf, normal_pdf. pose proof PI_RGT_0.
  apply Rmult_lt_0_compat; [apply Rmult_lt_0_compat|].
  - apply sqrt_lt_R0. apply Rdiv_lt_0_compat; lra.
  - apply exp_pos.
  - apply Rdiv_lt_0_compat; [lra|]. apply Rmult_lt_0_compat; lra.
Qed.
Lemma ln_impulse_nonneg dt mu tau D : 0 < tau -> 0 <= ln_impulse dt mu tau D.
Proof.
  intros Ht. destruct (Rlt_le_dec dt eps).
  - unfold ln_impulse. replace (Rltb dt eps) with true by (symmetry; apply Rltb_true; lra). lra.
  - destruct (Rlt_le_dec (D - dt) eps).
    + unfold ln_impulse. replace (Rltb dt eps) with false by (symmetry; apply Rltb_false; lra).
      replace (Rltb (D - dt) eps) with true by (symmetry; apply Rltb_true; lra). lra.
    + rewrite ln_impulse_pdf by auto. pose proof eps_pos. pose proof kappa_c_pos.
      left. apply Rmult_lt_0_compat; [auto|apply delay_pdf_pos; lra].
Qed.

(* ---------------- scans ---------------- *)
Lemma back_scan_sum skip stop w : forall n acc,
  (forall p q, (q <= p)%nat -> (p < n)%nat -> stop p = true -> stop q = true) ->
  fst (back_scan skip stop w n acc) =
  acc + Rsum n (fun p => if (negb (skip p) && negb (stop p))%bool then w p else 0).
Proof.
  induction n as [|n IH]; intros acc H; cbn [back_scan Rsum fst]; [lra|].
  assert (Hm : forall p q, (q <= p)%nat -> (p < n)%nat -> stop p = true -> stop q = true) by (intros; eapply (H p); eauto).
  destruct (skip n) eqn:Es; cbn [negb andb].
  - rewrite IH by exact Hm. lra.
  - destruct (stop n) eqn:Et; cbn [negb fst].
    + rewrite Rsum_0; [lra|]. intros i Hi. rewrite (H n i) by (auto; lia). cbn. now rewrite andb_false_r.
    + rewrite IH by exact Hm. lra.
Qed.
(** The index where the backward loop ends: everything below it is out of the window. *)
Lemma back_scan_min skip stop w : forall n acc,
  (forall p q, (q <= p)%nat -> (p < n)%nat -> stop p = true -> stop q = true) ->
  (snd (back_scan skip stop w n acc) <= n)%nat /\
  forall p, (p < snd (back_scan skip stop w n acc))%nat -> stop p = true.
Proof.
  induction n as [|n IH]; intros acc H; cbn [back_scan]; [split; [cbn; lia|cbn; lia]|].
  assert (Hm : forall p q, (q <= p)%nat -> (p < n)%nat -> stop p = true -> stop q = true) by (intros; eapply (H p); eauto).
  destruct (skip n) eqn:Es.
  - destruct (IH acc Hm). split; [lia|auto].
  - destruct (stop n) eqn:Et; cbn [snd].
    + split; [lia|]. intros p Hp. apply (H n); auto; lia.
    + destruct (IH (acc + w n) Hm). split; [lia|auto].
Qed.

Lemma run_tasks_all {A} order N (task : nat -> A) slots k : Permutation order (seq 0 N) -> (k < N)%nat ->
  run_tasks order task slots k = task k.
Proof.
  intros Hp Hk. rewrite run_tasks_spec.
  assert (Hin : existsb (Nat.eqb k) order = true).
  { apply existsb_exists. exists k. split; [|apply Nat.eqb_refl].
    apply (Permutation_in k (Permutation_sym Hp)), in_seq. lia. }
  now rewrite Hin.
Qed.
Lemma run_tasks_none {A} order N (task : nat -> A) slots k : Permutation order (seq 0 N) -> (N <= k)%nat ->
  run_tasks order task slots k = slots k.
Proof.
  intros Hp Hk. rewrite run_tasks_spec.
  assert (Hin : existsb (Nat.eqb k) order = false).
  { apply not_true_iff_false. intros H. apply existsb_exists in H as (j & Hj & E). apply Nat.eqb_eq in E. subst j.
    apply (Permutation_in k Hp), in_seq in Hj. lia. }
  now rewrite Hin.
Qed.
Lemma run_tasks_r_spec {A} (task : nat -> result A) (val : nat -> A) : forall order slots,
  (forall k, In k order -> task k = Ok (val k)) ->
  run_tasks_r order task slots = Ok (run_tasks order val slots).
Proof.
  induction order as [|k order IH]; intros slots H; cbn [run_tasks_r run_tasks]; [reflexivity|].
  rewrite (H k) by now left. cbn [bindr]. apply IH. intros; apply H; now right.
Qed.

(* forward scan *)
Definition gated (usable : nat -> bool) (p : nat -> R) (j : nat) : R := if usable j then p j else 0.
Definition pref (usable : nat -> bool) (p : nat -> R) (lo k : nat) : R := Rsum k (fun i => gated usable p (lo + i)).

Lemma Rsum_shift n f : Rsum (S n) f = f 0%nat + Rsum n (fun i => f (S i)).
Proof. induction n as [|n IH]; cbn [Rsum] in *; [lra|]. rewrite IH. lra. Qed.

(** The scan returns a candidate j iff u falls in its slice; -2 iff u is beyond everything. *)
Lemma fwd_scan_spec usable p denom u : forall k par acc, acc <= u -> (forall j, 0 <= gated usable p j / denom) ->
  (exists i, (i < k)%nat /\ fwd_scan usable p denom u par k acc = Z.of_nat (par + i) /\
     acc + pref usable p par i / denom <= u < acc + pref usable p par (S i) / denom) \/
  (fwd_scan usable p denom u par k acc = (-2)%Z /\ acc + pref usable p par k / denom <= u).
Proof.
  induction k as [|k IH]; intros par acc Ha Hn; cbn [fwd_scan].
  - right. split; [reflexivity|]. unfold pref. cbn [Rsum]. unfold Rdiv. lra.
  - assert (Ep : forall j, pref usable p par (S j) = gated usable p par + pref usable p (S par) j).
    { intros j. unfold pref. rewrite Rsum_shift. rewrite Nat.add_0_r. f_equal. apply Rsum_ext. intros. f_equal. lia. }
    assert (Hrec : forall acc', acc' = acc + gated usable p par / denom -> acc' <= u ->
      (exists i, (i < S k)%nat /\ fwd_scan usable p denom u (S par) k acc' = Z.of_nat (par + i) /\
         acc + pref usable p par i / denom <= u < acc + pref usable p par (S i) / denom) \/
      (fwd_scan usable p denom u (S par) k acc' = (-2)%Z /\ acc + pref usable p par (S k) / denom <= u)).
    { intros acc' E Hle. destruct (IH (S par) acc' Hle Hn) as [(i & Hi & Ei & Hb)|(E2 & Hb)].
      - left. exists (S i). split; [lia|]. split; [rewrite Ei; f_equal; lia|]. rewrite !Ep. unfold Rdiv in *. subst acc'. lra.
      - right. split; [exact E2|]. rewrite Ep. unfold Rdiv in *. subst acc'. lra. }
    destruct (usable par) eqn:Eu.
    + assert (Eg : gated usable p par = p par) by (unfold gated; now rewrite Eu).
      destruct (Rltb u (acc + p par / denom)) eqn:El.
      * left. exists 0%nat. apply Rltb_true in El. split; [lia|]. split; [f_equal; lia|].
        unfold pref. cbn [Rsum]. rewrite Nat.add_0_r, Eg. unfold Rdiv in *. lra.
      * apply Rltb_false in El. apply Hrec; [now rewrite Eg|exact El].
    + assert (Eg : gated usable p par = 0) by (unfold gated; now rewrite Eu).
      apply Hrec; [rewrite Eg; unfold Rdiv; lra|exact Ha].
Qed.

(* ---------------- rate ---------------- *)
(** Response function the compiled code evaluates. *)
Definition response (D : R) (W mu tau : mat) (a b : nat) (dt : R) : R := W a b * (kappa_c * delay_pdf D (mu a b) (tau a b) dt).

Section Scan.
Variables (N : nat) (s : vec) (c : nat -> nat) (D : R) (lam : vec) (W mu tau : mat).
Hypothesis Hs : sorted N s.
Hypothesis HW : forall i j, (i < N)%nat -> (j < N)%nat -> 0 <= W (c i) (c j).
Hypothesis Ht : forall i j, (i < N)%nat -> (j < N)%nat -> 0 < tau (c i) (c j).

Lemma rate_one n : (n < N)%nat ->
  ct_rate_one s c D lam W mu tau n = intensity_at eps D s c lam (response D W mu tau) n.
Proof.
  intros Hn. unfold ct_rate_one, intensity_at.
  rewrite back_scan_sum.
  - rewrite Rplus_0_l. f_equal. apply Rsum_ext. intros p Hp. unfold in_window_b.
    destruct (Rltb (s n - s p) eps) eqn:E1; cbn [negb andb].
    + apply Rltb_true in E1. replace (Rleb eps (s n - s p)) with false by (symmetry; apply Rleb_false; lra). reflexivity.
    + apply Rltb_false in E1. replace (Rleb eps (s n - s p)) with true by (symmetry; apply Rleb_true; lra). cbn [andb].
      destruct (Rleb (D - eps) (s n - s p)) eqn:E2; cbn [negb].
      * apply Rleb_true in E2. replace (Rltb (s n - s p) (D - eps)) with false by (symmetry; apply Rltb_false; lra). reflexivity.
      * apply Rleb_false in E2. replace (Rltb (s n - s p) (D - eps)) with true by (symmetry; apply Rltb_true; lra).
        unfold response, ct_w. assert (Hw := HW (i:=p) (j:=n)). assert (Htt := Ht (i:=p) (j:=n)).
        destruct (Rltb 0 (W (c p) (c n))) eqn:E3.
        -- rewrite ln_impulse_pdf by (try apply Htt; try lia; lra). reflexivity.
        -- apply Rltb_false in E3. assert (W (c p) (c n) = 0) as -> by (apply Rle_antisym; [lra|apply Hw; lia]). ring.
  - intros p q Hqp Hp H. apply Rleb_true in H. apply Rleb_true. assert (s q <= s p) by (apply Hs; lia). lra.
Qed.

(* ---------------- parents ---------------- *)
Lemma weight_ok n j : (n < N)%nat -> (j <= n)%nat -> 0 <= lam (c n) ->
  0 <= parent_weight eps D s c lam (response D W mu tau) n j.
Proof.
  intros Hn Hj Hl. destruct j as [|p]; cbn [parent_weight]; [exact Hl|].
  destruct (Rleb eps (s n - s p)) eqn:E1; cbn [andb]; [|lra].
  destruct (Rleb (s n - s p) (D - eps)) eqn:E2; [|lra].
  apply Rleb_true in E1. apply Rleb_true in E2. pose proof eps_pos.
  unfold response. apply Rmult_le_pos; [apply HW; lia|]. pose proof kappa_c_pos.
  left. apply Rmult_lt_0_compat; [auto|]. apply delay_pdf_pos; [apply Ht; lia|lra|lra].
Qed.

Lemma gated_weight n p : (n < N)%nat -> (p < n)%nat ->
  gated (fun par => (negb (Rltb (s n - s par) eps) && Rleb (s n - s par) (D - eps))%bool) (ct_w s c D W mu tau n) p =
  parent_weight eps D s c lam (response D W mu tau) n (S p).
Proof.
  intros Hn Hp. unfold gated. cbn [parent_weight].
  destruct (Rltb (s n - s p) eps) eqn:E1; cbn [negb andb].
  - apply Rltb_true in E1. replace (Rleb eps (s n - s p)) with false by (symmetry; apply Rleb_false; lra). reflexivity.
  - apply Rltb_false in E1. replace (Rleb eps (s n - s p)) with true by (symmetry; apply Rleb_true; lra). cbn [andb].
    destruct (Rleb (s n - s p) (D - eps)) eqn:E2; [|reflexivity]. apply Rleb_true in E2.
    unfold ct_w, response. rewrite ln_impulse_pdf by (try (apply Ht; lia); lra). reflexivity.
Qed.
End Scan.

Lemma Rsum_split n m f : Rsum (n + m) f = Rsum n f + Rsum m (fun i => f (n + i)%nat).
Proof.
  induction m as [|m IH]; cbn [Rsum]; [rewrite Nat.add_0_r; lra|].
  rewrite Nat.add_succ_r. cbn [Rsum]. rewrite IH. lra.
Qed.
Lemma Rsum_mono p n : (forall j, (j < n)%nat -> 0 <= p j) -> forall a b, (a <= b)%nat -> (b <= n)%nat -> Rsum a p <= Rsum b p.
Proof.
  intros H a b Hab Hb. replace b with (a + (b - a))%nat by lia. rewrite Rsum_split.
  assert (0 <= Rsum (b - a) (fun i => p (a + i)%nat)); [|lra]. apply Rsum_nonneg. intros i Hi. apply H. lia.
Qed.
Lemma selects_unique p n u i j : (forall j, (j <= n)%nat -> 0 <= p j) -> (i <= n)%nat -> (j <= n)%nat ->
  selects p i u -> selects p j u -> i = j.
Proof.
  intros H Hi Hj [A1 A2] [B1 B2]. destruct (Nat.lt_trichotomy i j) as [L|[E|L]]; [|exact E|].
  - assert (Rsum (S i) p <= Rsum j p); [|lra]. apply (@Rsum_mono p (S n)); try lia. intros; apply H; lia.
  - assert (Rsum (S j) p <= Rsum i p); [|lra]. apply (@Rsum_mono p (S n)); try lia. intros; apply H; lia.
Qed.

Lemma ct_parent_selects N s c D lam W mu tau u n :
  sorted N s ->
  (forall i j, (i < N)%nat -> (j < N)%nat -> 0 <= W (c i) (c j)) ->
  (forall i j, (i < N)%nat -> (j < N)%nat -> 0 < tau (c i) (c j)) ->
  0 < lam (c n) -> (n < N)%nat -> 0 <= u n < 1 ->
  exists j, (j <= n)%nat /\ ct_parent s c D lam W mu tau u n = Ok (Z.of_nat j - 1)%Z /\
    selects (parent_prob eps D s c lam (response D W mu tau) n) j (u n).
Proof.
  intros Hs HW Ht Hl Hn Hu.
  set (pw := parent_weight eps D s c lam (response D W mu tau) n).
  assert (Hpw : forall j, (j <= n)%nat -> 0 <= pw j).
  { intros j Hj. eapply weight_ok; eauto. lra. }
  assert (Htot : 0 < Rsum (S n) pw).
  { rewrite Rsum_shift. change (pw 0%nat) with (lam (c n)).
    assert (0 <= Rsum n (fun i => pw (S i))); [|lra]. apply Rsum_nonneg. intros; apply Hpw; lia. }
  set (tot := Rsum (S n) pw) in *.
  assert (Epp : forall k, Rsum k (parent_prob eps D s c lam (response D W mu tau) n) = Rsum k pw / tot).
  { intros k. rewrite <- Rsum_div. reflexivity. }
  unfold selects. setoid_rewrite Epp. clear Epp.
  destruct n as [|m].
  { exists 0%nat. split; [lia|]. split; [reflexivity|]. cbn [Rsum]. unfold tot. cbn [Rsum].
    change (pw 0%nat) with (lam (c 0%nat)). replace ((0 + lam (c 0%nat)) / (0 + lam (c 0%nat))) with 1 by (field; lra).
    unfold Rdiv. lra. }
  set (n := S m) in *. change (ct_parent s c D lam W mu tau u n) with
   (let w := ct_w s c D W mu tau n in
    let skip := fun par => Rltb (s n - s par) eps in
    let '(denom, min_par) := back_scan skip (fun par => Rltb (D - eps) (s n - s par)) w n (lam (c n)) in
    if Reqb denom 0 then Raise ZeroDivisionError
    else
      let acc := lam (c n) / denom in
      if Rltb (u n) acc then Ok (-1)%Z
      else Ok (fwd_scan (fun par => (negb (skip par) && Rleb (s n - s par) (D - eps))%bool)
                        w denom (u n) min_par (n - min_par) acc)).
  cbv zeta.
  assert (Hmono : forall p q, (q <= p)%nat -> (p < n)%nat -> Rltb (D - eps) (s n - s p) = true -> Rltb (D - eps) (s n - s q) = true).
  { intros p q Hqp Hp H. apply Rltb_true in H. apply Rltb_true. assert (s q <= s p) by (apply Hs; lia). lra. }
  assert (Hsum := @back_scan_sum (fun par => Rltb (s n - s par) eps) _ (ct_w s c D W mu tau n) n (lam (c n)) Hmono).
  assert (Hmin := @back_scan_min (fun par => Rltb (s n - s par) eps) _ (ct_w s c D W mu tau n) n (lam (c n)) Hmono).
  set (us := fun par => (negb (Rltb (s n - s par) eps) && Rleb (s n - s par) (D - eps))%bool).
  assert (Hg : forall p, (p < n)%nat -> gated us (ct_w s c D W mu tau n) p = pw (S p)).
  { intros p Hp. unfold us, pw. eapply gated_weight; eauto. }
  assert (Hden : fst (back_scan (fun par => Rltb (s n - s par) eps) (fun par => Rltb (D - eps) (s n - s par)) (ct_w s c D W mu tau n) n (lam (c n))) = tot).
  { rewrite Hsum. unfold tot. rewrite Rsum_shift. f_equal. apply Rsum_ext. intros p Hp. rewrite <- Hg by exact Hp.
    unfold gated, us. replace (negb (Rltb (D - eps) (s n - s p))) with (Rleb (s n - s p) (D - eps)); [reflexivity|].
    destruct (Rleb (s n - s p) (D - eps)) eqn:X; symmetry; [apply negb_true_iff, Rltb_false; apply Rleb_true in X; exact X|apply negb_false_iff, Rltb_true; apply Rleb_false in X; exact X]. }
  clear Hsum. destruct (back_scan _ _ _ _ _) as [denom mp] eqn:Eb. cbn [fst snd] in *. subst denom.
  destruct Hmin as [Hmp Hbelow].
  replace (Reqb tot 0) with false by (symmetry; apply Reqb_false; lra).
  destruct (Rltb (u n) (lam (c n) / tot)) eqn:E1.
  - apply Rltb_true in E1. exists 0%nat. split; [lia|]. split; [reflexivity|]. cbn [Rsum].
    change (pw 0%nat) with (lam (c n)). rewrite Rplus_0_l. unfold Rdiv at 1. lra.
  - apply Rltb_false in E1.
    (* everything below mp has weight 0 *)
    assert (Hz : forall p, (p < mp)%nat -> pw (S p) = 0).
    { intros p Hp. rewrite <- Hg by lia. unfold gated, us. specialize (Hbelow p Hp). apply Rltb_true in Hbelow.
      replace (Rleb (s n - s p) (D - eps)) with false by (symmetry; apply Rleb_false; lra). now rewrite andb_false_r. }
    assert (Epref : forall i, (mp + i <= n)%nat -> Rsum (S (mp + i)) pw = lam (c n) + pref us (ct_w s c D W mu tau n) mp i).
    { intros i Hi. rewrite Rsum_shift. change (pw 0%nat) with (lam (c n)). f_equal. rewrite Rsum_split.
      rewrite (@Rsum_0 mp) by (intros; apply Hz; lia). rewrite Rplus_0_l. unfold pref. apply Rsum_ext.
      intros k Hk. rewrite Hg by lia. reflexivity. }
    assert (Hfs := @fwd_scan_spec us (fun p => if (p <? n)%nat then ct_w s c D W mu tau n p else 0) tot (u n) (n - mp) mp (lam (c n) / tot) E1).
    assert (Eq : forall k par acc, (par + k <= n)%nat ->
       fwd_scan us (fun p => if (p <? n)%nat then ct_w s c D W mu tau n p else 0) tot (u n) par k acc = fwd_scan us (ct_w s c D W mu tau n) tot (u n) par k acc).
    { induction k as [|k IH]; intros par acc Hle; cbn [fwd_scan]; [reflexivity|].
      replace (par <? n)%nat with true by (symmetry; apply Nat.ltb_lt; lia). rewrite !IH by lia. reflexivity. }
    rewrite Eq in Hfs by lia.
    assert (Eqp : forall i, (mp + i <= n)%nat -> pref us (fun p => if (p <? n)%nat then ct_w s c D W mu tau n p else 0) mp i = pref us (ct_w s c D W mu tau n) mp i).
    { intros i Hi. unfold pref. apply Rsum_ext. intros k Hk. unfold gated. replace (mp + k <? n)%nat with true by (symmetry; apply Nat.ltb_lt; lia). reflexivity. }
    destruct Hfs as [(i & Hi & Ei & Hb)|(Ei & Hb)].
    + intros j. destruct (Nat.ltb j n) eqn:Ej; unfold gated; rewrite Ej.
      * apply Nat.ltb_lt in Ej. fold (gated us (ct_w s c D W mu tau n) j). rewrite Hg by exact Ej.
        apply Rmult_le_pos; [apply Hpw; lia|]. left. now apply Rinv_0_lt_compat.
      * destruct (us j); unfold Rdiv; lra.
    + exists (S (mp + i)). split; [lia|]. rewrite Ei. split; [f_equal; lia|].
      rewrite !Eqp in Hb by lia.
      assert (Q1 := Epref i ltac:(lia)). assert (Q2 := Epref (S i) ltac:(lia)). rewrite Nat.add_succ_r in Q2.
      rewrite Q1, Q2. unfold Rdiv in *. rewrite !Rmult_plus_distr_r. lra.
    + exfalso. rewrite Eqp in Hb by lia. assert (Q := Epref (n - mp)%nat ltac:(lia)).
      replace (mp + (n - mp))%nat with n in Q by lia. fold tot in Q.
      assert (lam (c n) / tot + pref us (ct_w s c D W mu tau n) mp (n - mp) / tot = 1); [|lra].
      rewrite Q at 1 2. rewrite Q in Htot. field. lra.
Qed.

(* ---------------- the serial sampler ---------------- *)
Lemma back_scan_buf_spec skip stop w : forall n acc p,
  let r := back_scan_buf skip stop w n acc p in
  fst r = back_scan skip stop w n acc /\
  (forall i, (snd (fst r) <= i)%nat -> (i < n)%nat -> snd r i = gated (fun j => (negb (skip j) && negb (stop j))%bool) w i) /\
  (forall i, (n <= i)%nat -> snd r i = p i).
Proof.
  induction n as [|n IH]; intros acc p; cbn [back_scan_buf back_scan]; cbv zeta.
  - cbn [fst snd]. split; [reflexivity|]. split; [intros; lia|reflexivity].
  - destruct (skip n) eqn:Es.
    + destruct (IH acc (upd p n 0)) as (I1 & I2 & I3). split; [exact I1|]. split.
      * intros i H1 H2. destruct (Nat.eq_dec i n) as [->|Hne].
        -- rewrite I3 by lia. unfold upd, gated. rewrite Nat.eqb_refl, Es. reflexivity.
        -- apply I2; [exact H1|lia].
      * intros i H. rewrite I3 by lia. unfold upd. destruct (Nat.eqb_spec i n); [lia|reflexivity].
    + destruct (stop n) eqn:Et; cbn [fst snd].
      * split; [reflexivity|]. split.
        -- intros i H1 H2. assert (i = n) as -> by lia. unfold upd, gated. now rewrite Nat.eqb_refl, Es, Et.
        -- intros i H. unfold upd. destruct (Nat.eqb_spec i n); [lia|reflexivity].
      * destruct (IH (acc + w n) (upd p n (w n))) as (I1 & I2 & I3). split; [exact I1|]. split.
        -- intros i H1 H2. destruct (Nat.eq_dec i n) as [->|Hne].
           ++ rewrite I3 by lia. unfold upd, gated. rewrite Nat.eqb_refl, Es, Et. reflexivity.
           ++ apply I2; [exact H1|lia].
        -- intros i H. rewrite I3 by lia. unfold upd. destruct (Nat.eqb_spec i n); [lia|reflexivity].
Qed.

Lemma fwd_scan_buf us w p denom u : forall k par acc, acc <= u ->
  (forall i, (par <= i)%nat -> (i < par + k)%nat -> p i = gated us w i) ->
  fwd_scan (fun _ => true) p denom u par k acc = fwd_scan us w denom u par k acc.
Proof.
  induction k as [|k IH]; intros par acc Ha Hp; cbn [fwd_scan]; [reflexivity|]. cbv zeta.
  rewrite (Hp par) by lia. unfold gated. destruct (us par) eqn:Eu.
  - destruct (Rltb u (acc + w par / denom)) eqn:El; [reflexivity|]. apply Rltb_false in El.
    apply IH; [exact El|]. intros; apply Hp; lia.
  - replace (acc + 0 / denom) with acc by (unfold Rdiv; ring).
    replace (Rltb u acc) with false by (symmetry; apply Rltb_false; exact Ha).
    apply IH; [exact Ha|]. intros; apply Hp; lia.
Qed.

Lemma fwd_scan_ext us us' w denom u : forall k par acc, (forall i, us i = us' i) ->
  fwd_scan us w denom u par k acc = fwd_scan us' w denom u par k acc.
Proof.
  induction k as [|k IH]; intros par acc H; cbn [fwd_scan]; [reflexivity|]. cbv zeta. rewrite <- H.
  rewrite !(IH _ _ H). reflexivity.
Qed.
Lemma negb_Rltb a b : negb (Rltb a b) = Rleb b a.
Proof.
  destruct (Rleb b a) eqn:X; [apply negb_true_iff, Rltb_false; apply Rleb_true in X; exact X|].
  apply negb_false_iff, Rltb_true; apply Rleb_false in X; exact X.
Qed.

Lemma serial_one s c D lam W mu tau u n p :
  exists p', ct_parent_serial s c D lam W mu tau u n p = match ct_parent s c D lam W mu tau u n with Ok z => Ok (z, p') | Raise e => Raise e end.
Proof.
  destruct n as [|m]; [exists p; reflexivity|].
  set (n := S m).
  change (ct_parent s c D lam W mu tau u n) with
   (let w := ct_w s c D W mu tau n in
    let skip := fun par => Rltb (s n - s par) eps in
    let '(denom, min_par) := back_scan skip (fun par => Rltb (D - eps) (s n - s par)) w n (lam (c n)) in
    if Reqb denom 0 then Raise ZeroDivisionError
    else
      let acc := lam (c n) / denom in
      if Rltb (u n) acc then Ok (-1)%Z
      else Ok (fwd_scan (fun par => (negb (skip par) && Rleb (s n - s par) (D - eps))%bool)
                        w denom (u n) min_par (n - min_par) acc)).
  change (ct_parent_serial s c D lam W mu tau u n p) with
   (let w := ct_w s c D W mu tau n in
    let '(denom, min_par, p') := back_scan_buf (fun par => Rltb (s n - s par) eps) (fun par => Rltb (D - eps) (s n - s par))
                                               w n (lam (c n)) p in
    if Reqb denom 0 then Raise ZeroDivisionError
    else
      let acc := lam (c n) / denom in
      if Rltb (u n) acc then Ok ((-1)%Z, p')
      else Ok (fwd_scan (fun _ => true) p' denom (u n) min_par (n - min_par) acc, p')).
  cbv zeta. pose proof (back_scan_buf_spec (fun par => Rltb (s n - s par) eps) (fun par => Rltb (D - eps) (s n - s par))
      (ct_w s c D W mu tau n) n (lam (c n)) p) as (I1 & I2 & I3).
  destruct (back_scan_buf _ _ _ _ _ _) as [[denom mp] p'] eqn:Eb. cbn [fst snd] in *. rewrite <- I1.
  exists p'. destruct (Reqb denom 0); [reflexivity|]. destruct (Rltb (u n) (lam (c n) / denom)) eqn:El; [reflexivity|].
  apply Rltb_false in El. do 2 f_equal.
  rewrite (@fwd_scan_buf (fun j => (negb (Rltb (s n - s j) eps) && negb (Rltb (D - eps) (s n - s j)))%bool) (ct_w s c D W mu tau n)).
  - apply fwd_scan_ext. intros i. now rewrite negb_Rltb with (a := D - eps).
  - exact El.
  - intros i H1 H2. apply I2; lia.
Qed.

Lemma serial_loop s c D lam W mu tau u : forall ns Z0 p,
  ct_serial_loop s c D lam W mu tau u ns Z0 p = run_tasks_r ns (ct_parent s c D lam W mu tau u) Z0.
Proof.
  induction ns as [|n ns IH]; intros Z0 p; cbn [ct_serial_loop run_tasks_r]; [reflexivity|].
  destruct (serial_one s c D lam W mu tau u n p) as (p' & E). rewrite E.
  destruct (ct_parent s c D lam W mu tau u n) as [z|e]; cbn [bindr]; [apply IH|reflexivity].
Qed.

(* ---------------- sufficient statistics ---------------- *)
Lemma b2Z_R b : IZR (b2Z b) = b2R b. Proof. destruct b; reflexivity. Qed.
Lemma IZR_Zsum n f : IZR (Zsum n f) = Rsum n (fun i => IZR (f i)).
Proof. induction n as [|n IH]; cbn [Zsum Rsum]; [reflexivity|]. now rewrite plus_IZR, IH. Qed.

Section SS.
Variables (s : vec) (c : nat -> nat) (z : nat -> Z) (D : R).
Definition bg (k n : nat) : bool := (Z.eqb (z n) (-1) && Nat.eqb (c n) k)%bool.
Definition att (a b n : nat) : bool := (negb (Z.eqb (z n) (-1)) && Nat.eqb (c (Z.to_nat (z n))) a && Nat.eqb (c n) b)%bool.
Definition dly (n : nat) : R := sdt D (s n - s (Z.to_nat (z n))).

Lemma pass1_spec N :
  let '(bk, ws, i0, i1) := fold_left (ss_pass1 s c z D) (seq 0 N) (fun _ => 0, fun _ _ => 0, fun _ _ => 0, fun _ _ => 0) in
  (forall k, bk k = count N (bg k)) /\ (forall a b, ws a b = count N (att a b)) /\ (forall a b, i0 a b = count N (att a b)) /\
  (forall a b, i1 a b = total N (att a b) dly).
Proof.
  induction N as [|N IH]; [cbn; repeat split; reflexivity|].
  rewrite seq_S, fold_left_app. cbn [fold_left Nat.add].
  destruct (fold_left _ _ _) as [[[bk ws] i0] i1]. destruct IH as (H1 & H2 & H3 & H4).
  unfold ss_pass1, count, total in *. cbv zeta. cbn [Rsum].
  destruct (Z.eqb (z N) (-1)) eqn:Ez.
  - repeat split; intros; unfold upd, bg, att; rewrite ?Ez; cbn [andb negb].
    + rewrite <- (Nat.eqb_sym k). destruct (Nat.eqb_spec k (c N)) as [->|]; rewrite H1; unfold bg; lra.
    + rewrite H2. unfold att. lra.
    + rewrite H3. unfold att. lra.
    + rewrite H4. unfold att. lra.
  - repeat split; intros; unfold upd_add2, upd2, bg, att; rewrite ?Ez; cbn [andb negb].
    + rewrite H1. unfold bg. lra.
    + rewrite (Nat.eqb_sym (c (Z.to_nat (z N)))), (Nat.eqb_sym (c N)).
      destruct (Nat.eqb_spec a (c (Z.to_nat (z N)))), (Nat.eqb_spec b (c N)); subst; cbn [andb]; rewrite H2; unfold att; lra.
    + rewrite (Nat.eqb_sym (c (Z.to_nat (z N)))), (Nat.eqb_sym (c N)).
      destruct (Nat.eqb_spec a (c (Z.to_nat (z N)))), (Nat.eqb_spec b (c N)); subst; cbn [andb]; rewrite H3; unfold att; lra.
    + rewrite (Nat.eqb_sym (c (Z.to_nat (z N)))), (Nat.eqb_sym (c N)). unfold dly at 2.
      destruct (Nat.eqb_spec a (c (Z.to_nat (z N)))), (Nat.eqb_spec b (c N)); subst; cbn [andb]; rewrite H4; unfold att; lra.
Qed.
Lemma pass2_spec mean N : (forall n, (n < N)%nat -> (-1 <= z n)%Z) -> forall a b,
  fold_left (ss_pass2 s c z D mean) (seq 0 N) (fun _ _ => 0) a b = total N (att a b) (fun n => (dly n - mean a b) ^ 2).
Proof.
  induction N as [|N IH]; intros Hz a b; [reflexivity|].
  rewrite seq_S, fold_left_app. cbn [fold_left Nat.add]. unfold total in *. cbn [Rsum].
  rewrite <- IH by (intros; apply Hz; lia). set (f := fold_left _ _ _). clearbody f. clear IH.
  unfold ss_pass2. cbv zeta. specialize (Hz N ltac:(lia)). unfold att.
  destruct (Z.ltb_spec (-1) (z N)) as [L|L].
  - replace (Z.eqb (z N) (-1)) with false by (symmetry; apply Z.eqb_neq; lia). cbn [negb andb].
    unfold upd_add2, upd2. rewrite (Nat.eqb_sym (c (Z.to_nat (z N)))), (Nat.eqb_sym (c N)). unfold dly.
    destruct (Nat.eqb_spec a (c (Z.to_nat (z N)))), (Nat.eqb_spec b (c N)); subst; cbn [andb]; lra.
  - replace (Z.eqb (z N) (-1)) with true by (symmetry; apply Z.eqb_eq; lia). cbn [negb andb]. lra.
Qed.
End SS.

Lemma Rsum_swap n m (f : nat -> nat -> R) : Rsum n (fun i => Rsum m (fun j => f i j)) = Rsum m (fun j => Rsum n (fun i => f i j)).
Proof.
  induction n as [|n IH]; cbn [Rsum]; [symmetry; apply Rsum_zero|]. rewrite IH, <- Rsum_plus. reflexivity.
Qed.
Lemma Rsum_indicator K j : (j < K)%nat -> Rsum K (fun i => if Nat.eqb j i then 1 else 0) = 1.
Proof.
  induction K as [|K IH]; intros H; [lia|]. cbn [Rsum]. destruct (Nat.eqb_spec j K) as [->|].
  - rewrite Rsum_0; [lra|]. intros i Hi. destruct (Nat.eqb_spec K i); [lia|reflexivity].
  - rewrite IH by lia. lra.
Qed.
(** Balance: every event is either background or attributed to exactly one process. *)
Lemma balance K N c z k : (forall n, (n < N)%nat -> (c n < K)%nat) -> (forall n, (n < N)%nat -> (-1 <= z n < Z.of_nat n)%Z) ->
  count N (bg c z k) + Rsum K (fun a => count N (att c z a k)) = IZR (ct_Ns N c k).
Proof.
  intros Hc Hz. unfold ct_Ns, count. rewrite IZR_Zsum, Rsum_swap, <- Rsum_plus. apply Rsum_ext. intros n Hn. rewrite b2Z_R.
  unfold bg, att. destruct (Z.eqb_spec (z n) (-1)) as [E|E]; cbn [andb negb].
  - rewrite Rsum_0 by reflexivity. destruct (Nat.eqb (c n) k); cbn; lra.
  - destruct (Nat.eqb (c n) k); cbn [b2R].
    + rewrite (@Rsum_ext K _ (fun i => if Nat.eqb (c (Z.to_nat (z n))) i then 1 else 0)) by (intros; now rewrite andb_true_r).
      rewrite Rsum_indicator; [lra|]. apply Hc. specialize (Hz n Hn). lia.
    + rewrite Rsum_0; [lra|]. intros i _. now rewrite andb_false_r.
Qed.
