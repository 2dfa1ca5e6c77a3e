(** * L_LabelLaw: scans of single-label conditional updates. *)
From Coquelicot Require Import Coquelicot.
From Coq Require Import FunctionalExtensionality.
From Verif Require Import Prelude ExtReal Arrays Spec_Gibbs Spec_Network Spec_LabelLaw M_Network M_LabelLaw.
Set Implicit Arguments.
Open Scope R_scope.

Lemma upd_same T (f : nat -> T) i x y : upd (upd f i x) i y = upd f i y.
Proof. apply functional_extensionality; intros a. unfold upd. now destruct (Nat.eqb a i). Qed.
Lemma upd_swap T (f : nat -> T) i j x y : i <> j -> upd (upd f i x) j y = upd (upd f j y) i x.
Proof. intros H. apply functional_extensionality; intros a. unfold upd. destruct (Nat.eqb_spec a i), (Nat.eqb_spec a j); try reflexivity. subst; congruence. Qed.

Definition in_range (K C : nat) (c : nat -> nat) : Prop := forall j, (j < K)%nat -> (c j < C)%nat.
Lemma in_range_upd K C c k x : in_range K C c -> (x < C)%nat -> in_range K C (upd c k x).
Proof. intros H Hx j Hj. unfold upd. destruct (Nat.eqb j k); auto. Qed.

(** ** Sums over labellings *)
Lemma overl_ext K C ks : forall c F G, in_range K C c -> (forall b, in_range K C b -> F b = G b) -> over_labels C ks c F = over_labels C ks c G.
Proof.
  induction ks as [|k ks IH]; intros c F G Hc H; cbn [over_labels]; [now apply H|]. apply Rsum_ext. intros x Hx. apply IH; [|exact H].
  now apply in_range_upd.
Qed.
Lemma overl_sum C ks n : forall c (F : nat -> (nat -> nat) -> R), over_labels C ks c (fun b => Rsum n (fun y => F y b)) = Rsum n (fun y => over_labels C ks c (F y)).
Proof.
  induction ks as [|k ks IH]; intros c F; cbn [over_labels]; [reflexivity|].
  rewrite (@Rsum_ext C _ (fun x => Rsum n (fun y => over_labels C ks (upd c k x) (F y)))) by (intros; apply IH). apply Rsum_swap.
Qed.
Lemma overl_upd C ks k x : ~ In k ks -> forall c F, over_labels C ks (upd c k x) F = over_labels C ks c (fun b => F (upd b k x)).
Proof.
  induction ks as [|k' ks IH]; intros Hn c F; cbn [over_labels]; [reflexivity|]. apply Rsum_ext. intros y Hy.
  rewrite <- IH by (intros E; apply Hn; now right). f_equal. apply upd_swap. intros ->. apply Hn. now left.
Qed.
(** Two functions with the same sum over one listed label have the same sum over labellings. *)
Lemma overl_one K C ks k : In k ks -> NoDup ks -> forall c F G, in_range K C c ->
  (forall b, in_range K C b -> Rsum C (fun x => F (upd b k x)) = Rsum C (fun x => G (upd b k x))) ->
  over_labels C ks c F = over_labels C ks c G.
Proof.
  induction ks as [|k' ks IH]; intros Hin Hnd c F G Hc H; [contradiction|].
  inversion Hnd as [|? ? Hni Hnd']; subst. cbn [over_labels]. destruct (in_dec Nat.eq_dec k ks) as [Hi|Hi].
  - apply Rsum_ext. intros x Hx. apply IH; auto. now apply in_range_upd.
  - assert (E : k' = k) by (destruct Hin; [auto|contradiction]). subst k'.
    rewrite (@Rsum_ext C _ (fun x => over_labels C ks c (fun b => F (upd b k x)))) by (intros; now apply overl_upd).
    rewrite (@Rsum_ext C (fun x => over_labels C ks (upd c k x) G) (fun x => over_labels C ks c (fun b => G (upd b k x)))) by (intros; now apply overl_upd).
    rewrite <- !overl_sum. apply (@overl_ext K); [exact Hc|exact H].
Qed.

(** ** Means over uniforms *)
Definition mean_dom1 (ks : list nat) (u u' : vec) : Prop := forall k, (In k ks -> 0 < u' k < 1) /\ (~ In k ks -> u' k = u k).
Lemma is_mean1_ext ks : NoDup ks -> forall G G' u v, (forall u', mean_dom1 ks u u' -> G u' = G' u') -> is_mean1 ks G u v -> is_mean1 ks G' u v.
Proof.
  induction ks as [|k ks IH]; intros Hnd G G' u v H Hm; cbn in *.
  - rewrite Hm. apply H. intros a. split; [contradiction|auto].
  - inversion Hnd as [|? ? Hni Hnd']; subst. destruct Hm as (h & Hh & Hr). exists h. split; [|exact Hr]. intros x Hx. eapply IH; [exact Hnd'| |now apply Hh].
    intros u' Hu'. apply H. intros a. destruct (Hu' a) as (H1 & H2). split.
    + intros [E|Hi]; [|now apply H1]. subst a. rewrite (H2 Hni), upd_eq. exact Hx.
    + intros Hn. rewrite H2 by (intros Hc; apply Hn; now right). apply upd_neq. intros ->. apply Hn. now left.
Qed.
Lemma is_mean1_unique ks : forall G u v v', is_mean1 ks G u v -> is_mean1 ks G u v' -> v = v'.
Proof.
  induction ks as [|k ks IH]; intros G u v v' H H'; cbn in *; [congruence|].
  destruct H as (h & Hh & Hr), H' as (h' & Hh' & Hr').
  apply (@is_RInt_unique R_CompleteNormedModule) in Hr. apply (@is_RInt_unique R_CompleteNormedModule) in Hr'. rewrite <- Hr, <- Hr'. apply RInt_ext.
  rewrite Rmin_left, Rmax_right by lra. intros x Hx. eapply IH; eauto.
Qed.
Lemma is_mean1_const ks a : forall u, is_mean1 ks (fun _ => a) u a.
Proof.
  induction ks as [|k ks IH]; intros u; cbn; [reflexivity|]. exists (fun _ => a). split; [intros; apply IH|].
  pose proof (@is_RInt_const R_CompleteNormedModule 0 1 a) as H. unfold scal in H. cbn in H. unfold mult in H. cbn in H.
  replace ((1 - 0) * a) with a in H by ring. exact H.
Qed.

(** ** The sampler *)
Definition soft (C : nat) (lp : nat -> er) (x : nat) : R := exp (fval (lp x)) / Rsum C (fun y => exp (fval (lp y))).
Lemma cumval_eq C lp x : cumval C lp x = exp (- lp_max C lp) * Rsum (S x) (fun y => exp (fval (lp y))).
Proof. unfold cumval. rewrite <- Rsum_scal. apply Rsum_ext. intros y _. unfold Rminus. rewrite exp_plus. ring. Qed.
Lemma expsum_pos n (lp : nat -> er) : (0 < n)%nat -> 0 < Rsum n (fun y => exp (fval (lp y))).
Proof. intros H. apply Rsum_pos; [exact H|]. intros; apply exp_pos. Qed.
(** The event "rand() * last > cumvals[x]". *)
Lemma above_iff C lp u x : (0 < C)%nat -> Rltb (cumval C lp x) (u * cumval C lp (C - 1)) = Rltb (Rsum (S x) (soft C lp)) u.
Proof.
  intros HC. rewrite !cumval_eq. replace (S (C - 1)) with C by lia. pose proof (expsum_pos lp HC) as HT. set (T := Rsum C _) in *.
  assert (E : Rsum (S x) (soft C lp) = Rsum (S x) (fun y => exp (fval (lp y))) / T).
  { unfold soft. fold T. unfold Rdiv. rewrite <- Rsum_scal_r. reflexivity. }
  rewrite E. set (X := Rsum (S x) _). pose proof (exp_pos (- lp_max C lp)) as HM. set (M := exp _) in *.
  destruct (Rltb (X / T) u) eqn:H.
  - apply Rltb_true in H. apply Rltb_true. replace (u * (M * T)) with (M * (u * T)) by ring. apply Rmult_lt_compat_l; [exact HM|].
    apply (Rmult_lt_compat_r T) in H; [|exact HT]. replace (X / T * T) with X in H by (field; lra). exact H.
  - apply Rltb_false in H. apply Rltb_false. replace (u * (M * T)) with (M * (u * T)) by ring. apply Rmult_le_compat_l; [lra|].
    apply (Rmult_le_compat_r T) in H; [|lra]. replace (X / T * T) with X in H by (field; lra). exact H.
Qed.
Lemma soft_pos C lp x : (0 < C)%nat -> 0 < soft C lp x.
Proof. intros HC. apply Rmult_lt_0_compat; [apply exp_pos|]. apply Rinv_0_lt_compat. now apply expsum_pos. Qed.
Lemma soft_sum C lp : (0 < C)%nat -> Rsum C (soft C lp) = 1.
Proof. intros HC. unfold soft. unfold Rdiv. rewrite Rsum_scal_r. apply Rinv_r. pose proof (expsum_pos lp HC). lra. Qed.
Lemma soft_mono C lp n n' : (0 < C)%nat -> (n <= n')%nat -> Rsum n (soft C lp) <= Rsum n' (soft C lp).
Proof. intros HC H. induction H as [|n' H IH]; [lra|]. cbn [Rsum]. pose proof (@soft_pos C lp n' HC). lra. Qed.
(** The number drawn is x when the uniform lies between the x-th and the (x+1)-th partial sum of the probabilities. *)
Lemma sample_between C lp u x : (0 < C)%nat -> (x < C)%nat -> Rsum x (soft C lp) < u -> u < Rsum (S x) (soft C lp) -> sample_from_log C u lp = x.
Proof.
  intros HC Hx H1 H2. unfold sample_from_log.
  assert (E : filter (fun y => Rltb (cumval C lp y) (u * cumval C lp (C - 1))) (seq 0 C) = seq 0 x).
  { assert (ES : seq 0 C = seq 0 x ++ seq x (C - x)) by (replace C with (x + (C - x))%nat at 1 by lia; apply seq_app). rewrite ES, filter_app.
    assert (E1 : forall l, (forall y, In y l -> (y < x)%nat) -> filter (fun y => Rltb (cumval C lp y) (u * cumval C lp (C - 1))) l = l).
    { induction l as [|y l IH]; intros H; cbn [filter]; [reflexivity|]. rewrite above_iff by exact HC.
      assert (Hy : (y < x)%nat) by (apply H; now left).
      replace (Rltb (Rsum (S y) (soft C lp)) u) with true. { f_equal. apply IH. intros z Hz. apply H. now right. }
      symmetry. apply Rltb_true. apply Rle_lt_trans with (Rsum x (soft C lp)); [apply soft_mono; [exact HC|lia]|exact H1]. }
    assert (E2 : forall l, (forall y, In y l -> (x <= y)%nat) -> filter (fun y => Rltb (cumval C lp y) (u * cumval C lp (C - 1))) l = []).
    { induction l as [|y l IH]; intros H; cbn [filter]; [reflexivity|]. rewrite above_iff by exact HC.
      assert (Hy : (x <= y)%nat) by (apply H; now left).
      replace (Rltb (Rsum (S y) (soft C lp)) u) with false. { apply IH. intros z Hz. apply H. now right. }
      symmetry. apply Rltb_false. apply Rle_trans with (Rsum (S x) (soft C lp)); [lra|apply soft_mono; [exact HC|lia]]. }
    rewrite E1 by (intros y Hy; apply in_seq in Hy; lia). rewrite E2 by (intros y Hy; apply in_seq in Hy; lia). apply app_nil_r. }
  rewrite E. apply seq_length.
Qed.
Lemma sample_range C lp u : (0 < C)%nat -> u < 1 -> (sample_from_log C u lp < C)%nat.
Proof.
  intros HC Hu. unfold sample_from_log. assert (ES : seq 0 C = seq 0 (C - 1) ++ [(C - 1)%nat]) by (replace C with ((C - 1) + 1)%nat at 1 by lia; apply seq_app). rewrite ES, filter_app, app_length.
  cbn [filter]. rewrite above_iff by exact HC. replace (S (C - 1)) with C by lia. rewrite soft_sum by exact HC.
  replace (Rltb 1 u) with false by (symmetry; apply Rltb_false; lra). cbn [length].
  assert (forall (f : nat -> bool) l, (length (filter f l) <= length l)%nat).
  { intros f l. induction l as [|a l IH]; cbn; [lia|]. destruct (f a); cbn; lia. }
  pose proof (H (fun x => Rltb (cumval C lp x) (u * cumval C lp (C - 1))) (seq 0 (C - 1))) as H'. rewrite seq_length in H'. lia.
Qed.
Lemma sample_mean C lp (G : nat -> R) : (0 < C)%nat -> is_RInt (fun u => G (sample_from_log C u lp)) 0 1 (Rsum C (fun x => soft C lp x * G x)).
Proof.
  intros HC. rewrite <- (soft_sum lp HC).
  assert (H : forall n, (n <= C)%nat -> is_RInt (fun u => G (sample_from_log C u lp)) 0 (Rsum n (soft C lp)) (Rsum n (fun x => soft C lp x * G x))).
  { induction n as [|n IH]; intros Hn.
    - cbn [Rsum]. apply @is_RInt_point.
    - cbn [Rsum]. apply (is_RInt_Chasles (fun u => G (sample_from_log C u lp)) 0 (Rsum n (soft C lp)) _ (Rsum n (fun x => soft C lp x * G x)) (soft C lp n * G n)).
      + apply IH. lia.
      + pose proof (@soft_pos C lp n HC) as Hp. set (a := Rsum n (soft C lp)) in *. set (p := soft C lp n) in *.
        apply is_RInt_ext with (fun _ => G n).
        * rewrite Rmin_left, Rmax_right by lra. intros u Hu. symmetry. f_equal. apply sample_between; [exact HC|lia| |]; cbn [Rsum]; fold a; fold p; lra.
        * replace (p * G n) with (scal (a + p - a) (G n)) by (unfold scal; cbn; unfold mult; cbn; ring). apply @is_RInt_const. }
  apply H. lia.
Qed.

(** ** A scan of label updates *)
Definition lscan (C : nat) (req : (nat -> nat) -> nat -> nat -> er) (ks : list nat) (u : vec) (c : nat -> nat) : nat -> nat :=
  fold_left (fun b k => upd b k (sample_from_log C (u k) (req b k))) ks c.
Fixpoint lkern (C : nat) (req : (nat -> nat) -> nat -> nat -> er) (ks : list nat) (F : (nat -> nat) -> R) (c : nat -> nat) : R :=
  match ks with
  | [] => F c
  | k :: ks' => Rsum C (fun x => soft C (req c k) x * lkern C req ks' F (upd c k x))
  end.
Lemma lscan_mean C req ks F : (0 < C)%nat -> NoDup ks -> forall c u, is_mean1 ks (fun u => F (lscan C req ks u c)) u (lkern C req ks F c).
Proof.
  intros HC. induction ks as [|k ks IH]; intros Hnd c u; cbn [is_mean1 lkern]; [reflexivity|].
  inversion Hnd as [|? ? Hni Hnd']; subst.
  exists (fun x => lkern C req ks F (upd c k (sample_from_log C x (req c k)))). split.
  - intros x Hx. eapply is_mean1_ext; [exact Hnd'| |apply IH; exact Hnd'].
    intros u' Hu'. cbv beta. unfold lscan. cbn [fold_left]. rewrite (proj2 (Hu' k) Hni), upd_eq. reflexivity.
  - apply (@sample_mean C (req c k) (fun x => lkern C req ks F (upd c k x)) HC).
Qed.
(** If the weight of a labelling, as a function of one label, is proportional to the probabilities the update uses, a scan
    leaves the weights invariant. *)
Lemma lscan_invariant K C req ks0 (w : (nat -> nat) -> R) F c0 : (0 < C)%nat -> NoDup ks0 -> in_range K C c0 ->
  (forall k b y, In k ks0 -> (y < C)%nat -> req (upd b k y) k = req b k) ->
  (forall k b, In k ks0 -> in_range K C b -> exists r, forall x, (x < C)%nat -> w (upd b k x) = r * exp (fval (req b k x))) ->
  forall ks, (forall k, In k ks -> In k ks0) ->
  over_labels C ks0 c0 (fun c => w c * lkern C req ks F c) = over_labels C ks0 c0 (fun c => w c * F c).
Proof.
  intros HC Hnd Hc0 Hq Hb. induction ks as [|k ks IH]; intros Hin; [reflexivity|].
  rewrite <- IH by (intros; apply Hin; now right). specialize (Hin k (or_introl eq_refl)).
  apply (@overl_one K C ks0 k Hin Hnd); [exact Hc0|]. intros b Hbr. destruct (Hb k b Hin Hbr) as (r & Hr). cbn [lkern].
  rewrite (@Rsum_ext C _ (fun x => (r * exp (fval (req b k x))) * Rsum C (fun z => soft C (req b k) z * lkern C req ks F (upd b k z)))).
  2:{ intros x Hx. rewrite Hr, Hq by auto. f_equal. apply Rsum_ext. intros z Hz. now rewrite upd_same. }
  rewrite Rsum_scal_r, Rsum_scal.
  rewrite (@Rsum_ext C (fun x => w (upd b k x) * lkern C req ks F (upd b k x)) (fun x => r * exp (fval (req b k x)) * lkern C req ks F (upd b k x)))
    by (intros x Hx; now rewrite Hr).
  unfold soft. pose proof (expsum_pos (req b k) HC) as HT. set (T := Rsum C (fun y => exp (fval (req b k y)))) in *.
  rewrite <- Rsum_scal. apply Rsum_ext. intros z Hz. field. lra.
Qed.
