(** * C69: sampling an inhomogeneous Poisson process by inverting the cumulative rate. *)
From Verif Require Import Prelude Arrays ExtReal M_Utils.
From Coq Require Import Permutation Sorted.
Set Implicit Arguments.

(* ---------------- specification ---------------- *)
(** The integral of the piecewise linear rate up to grid point i. *)
Definition integral (tt lam : nat -> R) (i : nat) : R := Rsum i (fun j => (tt (S j) - tt j) * (lam j + lam (S j)) / 2).
(** s is a time at which the piecewise linear interpolation of the integral equals q. *)
Definition inverts (Nt : nat) (tt lam : nat -> R) (q s : R) : Prop :=
  exists i, (S i < Nt)%nat /\ tt i <= s <= tt (S i) /\ integral tt lam i <= q <= integral tt lam (S i) /\
    (s - tt i) * (integral tt lam (S i) - integral tt lam i) = (q - integral tt lam i) * (tt (S i) - tt i).
Definition sorted_list (l : list R) : Prop := StronglySorted Rle l.
(** np.sort *)
Definition is_sort (sort : list R -> list R) : Prop := forall l, Permutation (sort l) l /\ sorted_list (sort l).

Lemma cumlam_integral tt lam i : cumlam tt lam i = integral tt lam i.
Proof. apply Rsum_ext. intros j _. unfold trap. field. Qed.

Section Invert.
Variables (Nt : nat) (tt cum : nat -> R).
Hypothesis Htt : forall i, (S i < Nt)%nat -> tt i < tt (S i).
Hypothesis Hc0 : cum 0%nat = 0.
Hypothesis Hmono : forall i, (S i < Nt)%nat -> cum i <= cum (S i).

Lemma mono_le (f : nat -> R) : (forall i, (S i < Nt)%nat -> f i <= f (S i)) -> forall i j, (i <= j)%nat -> (j < Nt)%nat -> f i <= f j.
Proof.
  intros H i j Hij Hj. induction j as [|j IH]; [assert (i = 0%nat) as -> by lia; lra|]. destruct (Nat.eq_dec i (S j)) as [->|]; [lra|].
  specialize (IH ltac:(lia) ltac:(lia)). specialize (H j ltac:(lia)). lra.
Qed.

Lemma advance_ok fuel q off : (off < Nt)%nat -> (Nt - off <= fuel)%nat -> q <= cum (Nt - 1)%nat ->
  exists o, advance fuel cum Nt q off = Ok o /\ (off <= o)%nat /\ (o < Nt)%nat /\ q <= cum o /\ (o = off \/ cum (o - 1)%nat < q).
Proof.
  revert off. induction fuel as [|f IH]; intros off H1 H2 H3; [lia|]. cbn [advance]. destruct (Rltb (cum off) q) eqn:E.
  - apply Rltb_true in E. assert (S off < Nt)%nat. { destruct (Nat.eq_dec (S off) Nt) as [X|]; [|lia]. replace (Nt - 1)%nat with off in H3 by lia. lra. }
    replace (Nat.ltb (S off) Nt) with true by (symmetry; now apply Nat.ltb_lt). cbn [guard bindr].
    destruct (IH (S off)) as (o & Eo & A & B & C & D); [lia|lia|lra|]. exists o. split; [exact Eo|]. split; [lia|]. split; [exact B|]. split; [exact C|]. right.
    destruct D as [->|D]; [|exact D]. now replace (S off - 1)%nat with off by lia.
  - apply Rltb_false in E. exists off. split; [reflexivity|]. auto.
Qed.

Definition valid_off (q : R) (o : nat) : Prop := (o < Nt)%nat /\ q <= cum o /\ (o = 0%nat \/ cum (o - 1)%nat < q).
Definition pos (q : R) (o : nat) : R := match o with O => tt 0%nat | S i => tt i + (q - cum i) / (cum (S i) - cum i) * (tt (S i) - tt i) end.

Lemma frac_range q i : cum i < q -> q <= cum (S i) -> 0 < (q - cum i) / (cum (S i) - cum i) <= 1.
Proof.
  intros A B. split; [apply Rdiv_lt_0_compat; lra|]. apply Rmult_le_reg_r with (cum (S i) - cum i); [lra|]. unfold Rdiv. rewrite Rmult_assoc, Rinv_l by lra. lra.
Qed.
Lemma invert_ok q o : 0 <= q -> 0 < cum (Nt - 1)%nat -> valid_off q o -> invert tt cum Nt q o = Ok (pos q o).
Proof.
  intros Hq HI (Ho & Hle & Hlo). unfold invert. destruct o as [|i].
  - rewrite Hc0 in *. assert (q = 0) as -> by lra. rewrite ediv_fin by lra. replace ((0 - cum (Nt - 1)%nat) / (0 - cum (Nt - 1)%nat)) with 1 by (field; lra).
    unfold ele. rewrite !elt_fin. replace (Rltb 0 1) with true by (symmetry; apply Rltb_true; lra). cbn [orb andb eeqb].
    replace (Reqb 1 1) with true by (symmetry; now apply Reqb_true). rewrite orb_true_r. cbn [guard bindr fval pos]. f_equal. ring.
  - destruct Hlo as [|Hlo]; [discriminate|]. replace (S i - 1)%nat with i in Hlo by lia. rewrite ediv_fin by lra.
    destruct (frac_range Hlo Hle) as [A B]. unfold ele. rewrite !elt_fin. cbn [eeqb].
    replace (Rltb 0 ((q - cum i) / (cum (S i) - cum i))) with true by (symmetry; now apply Rltb_true). cbn [orb andb].
    replace (Rltb ((q - cum i) / (cum (S i) - cum i)) 1 || Reqb ((q - cum i) / (cum (S i) - cum i)) 1)%bool with true.
    2:{ symmetry. apply orb_true_iff. destruct B; [left; now apply Rltb_true|right; now apply Reqb_true]. }
    cbn [guard bindr fval pos]. reflexivity.
Qed.
Lemma pos_range q o : valid_off q o -> match o with O => pos q o = tt 0%nat | S i => tt i < pos q o <= tt (S i) end.
Proof.
  intros (Ho & Hle & Hlo). destruct o as [|i]; [reflexivity|]. destruct Hlo as [|Hlo]; [discriminate|]. replace (S i - 1)%nat with i in Hlo by lia. cbn [pos].
  destruct (frac_range Hlo Hle) as [A B]. specialize (Htt Ho). split; nra.
Qed.
Lemma tt_le i j : (i <= j)%nat -> (j < Nt)%nat -> tt i <= tt j.
Proof. apply mono_le. intros k Hk. apply Rlt_le, Htt, Hk. Qed.
Lemma pos_mono q o q' o' : valid_off q o -> valid_off q' o' -> q <= q' -> (o <= o')%nat -> pos q o <= pos q' o'.
Proof.
  intros V V' Hq Ho. pose proof (pos_range V) as P. pose proof (pos_range V') as P'. destruct V as (A & B & C), V' as (A' & B' & C').
  destruct o' as [|i']; [assert (o = 0%nat) as -> by lia; rewrite P, P'; lra|]. destruct o as [|i].
  - rewrite P. assert (tt 0%nat <= tt i') by (apply tt_le; lia). lra.
  - destruct (Nat.eq_dec i i') as [<-|Hne].
    + cbn [pos]. destruct C as [|C]; [discriminate|]. replace (S i - 1)%nat with i in C by lia. specialize (Htt A).
      apply Rplus_le_compat_l, Rmult_le_compat_r; [lra|]. apply Rmult_le_compat_r; [apply Rlt_le, Rinv_0_lt_compat; lra|lra].
    + assert (tt (S i) <= tt i') by (apply tt_le; lia). lra.
Qed.

Lemma invert_all_ok Q : 0 < cum (Nt - 1)%nat -> forall off, (off < Nt)%nat -> sorted_list Q -> (forall q, In q Q -> 0 <= q <= cum (Nt - 1)%nat /\ (off = 0%nat \/ cum (off - 1)%nat < q)) ->
  exists l, invert_all tt cum Nt Q off = Ok l /\
    Forall2 (fun q s => exists o, (off <= o)%nat /\ valid_off q o /\ s = pos q o) Q l /\ sorted_list l.
Proof.
  intros HI. induction Q as [|q Q IH]; intros off Hoff Hs Hq; [exists []; repeat constructor|]. cbn [invert_all].
  destruct (Hq q (or_introl eq_refl)) as [[Hq0 HqI] Hlo].
  destruct (@advance_ok (S Nt) q off Hoff ltac:(lia) HqI) as (o & Eo & Hoo & HoN & Hqo & Hd). rewrite Eo. cbn [bindr].
  assert (V : valid_off q o). { split; [exact HoN|]. split; [exact Hqo|]. destruct Hd as [->|]; auto. }
  rewrite (invert_ok Hq0 HI V). cbn [bindr]. inversion Hs as [|? ? Hs' Hf]; subst. rewrite Forall_forall in Hf.
  destruct (IH o HoN Hs') as (l & El & HF & Hsl).
  { intros q' Hq'. destruct (Hq q' (or_intror Hq')) as [R1 _]. split; [exact R1|]. destruct V as (_ & _ & [->|V]); [now left|right]. specialize (Hf q' Hq'). lra. }
  rewrite El. cbn [bindr]. exists (pos q o :: l). split; [reflexivity|]. split.
  - constructor; [exists o; auto|]. clear -HF Hoo. induction HF as [|q' s' Q' l' (o' & A & B) HF IH]; constructor; [exists o'; split; [lia|exact B]|exact IH].
  - constructor; [exact Hsl|]. apply Forall_forall. intros s Hs1. assert (G : exists q', In q' Q /\ exists o', (o <= o')%nat /\ valid_off q' o' /\ s = pos q' o').
    { clear -HF Hs1. induction HF as [|q' s' Q' l' H HF IH]; [destruct Hs1|]. destruct Hs1 as [<-|Hs1]; [exists q'; split; [now left|exact H]|].
      destruct (IH Hs1) as (q'' & A & B). exists q''. split; [now right|exact B]. }
    destruct G as (q' & Hin & o' & Ho' & V' & ->). apply pos_mono; auto.
Qed.
End Invert.

(** ** C69 *)
Theorem C69_inhomogeneous :
  forall pois unif sort Nt tt lam,
    (forall i, (S i < Nt)%nat -> tt i < tt (S i)) -> (forall i, (i < Nt)%nat -> 0 <= lam i) ->
    pois 0 = 0%nat -> (forall L N i, 0 <= L -> (i < N)%nat -> 0 <= unif L N i <= L) -> is_sort sort ->
    let L := integral tt lam (Nt - 1) in let N := pois L in let Q := map (unif L N) (seq 0 N) in
    exists l, sample_inhomogeneous pois unif sort Nt tt lam = Ok l /\ length l = N /\
      Forall2 (inverts Nt tt lam) (sort Q) l /\ sorted_list l /\ (forall s, In s l -> tt 0%nat <= s <= tt (Nt - 1)%nat).
Proof.
  intros pois unif sort Nt tt lam Htt Hlam Hp0 Hu Hsort L N Q. unfold sample_inhomogeneous. rewrite cumlam_integral. fold L.
  assert (Hm : forall i, (S i < Nt)%nat -> integral tt lam i <= integral tt lam (S i)).
  { intros i Hi. unfold integral. cbn [Rsum]. specialize (Htt i Hi). assert (A := Hlam i ltac:(lia)). assert (B := Hlam (S i) ltac:(lia)).
    assert (0 <= (tt (S i) - tt i) * (lam i + lam (S i)) / 2); [|lra]. apply Rmult_le_pos; [apply Rmult_le_pos|]; lra. }
  assert (HL0 : 0 <= L).
  { unfold L. destruct Nt as [|n]; [cbn; lra|]. replace 0 with (integral tt lam 0) by reflexivity. apply (@mono_le (S n) _ Hm); lia. }
  replace (Rleb 0 L) with true by (symmetry; now apply Rleb_true). cbn [guard bindr]. fold N. fold Q.
  destruct (Hsort Q) as [HP HS]. assert (HQ : forall q, In q (sort Q) -> 0 <= q <= L).
  { intros q Hq. apply (Permutation_in _ HP) in Hq. apply in_map_iff in Hq as (i & <- & Hi). apply in_seq in Hi. apply Hu; [exact HL0|lia]. }
  assert (HlQ : length (sort Q) = N) by (rewrite (Permutation_length HP); unfold Q; rewrite map_length; apply seq_length).
  destruct (Rle_lt_or_eq_dec _ _ HL0) as [HL|HL]; cycle 1.
  { assert (N = 0%nat) as HN by (unfold N; now rewrite <- HL). rewrite HN in HlQ. destruct (sort Q); [|discriminate]. exists []. rewrite HN. repeat split; try constructor; destruct H. }
  assert (HNt : (1 < Nt)%nat). { destruct Nt as [|[|n]]; [exfalso; unfold L, integral in HL; cbn in HL; lra|exfalso; unfold L, integral in HL; cbn in HL; lra|lia]. }
  assert (Ecum : forall i, cumlam tt lam i = integral tt lam i) by (intros; apply cumlam_integral).
  destruct (@invert_all_ok Nt tt (cumlam tt lam) Htt eq_refl) with (Q := sort Q) (off := 0%nat) as (l & El & HF & Hsl).
  { rewrite Ecum. exact HL. } { lia. } { exact HS. } { intros q Hq. rewrite Ecum. auto. }
  exists l. split; [exact El|]. split; [rewrite <- HlQ; symmetry; clear -HF; induction HF; cbn; congruence|].
  assert (Hinv : Forall2 (inverts Nt tt lam) (sort Q) l).
  { clear -HF HQ Ecum Htt Hm HNt. set (QQ := sort Q) in *. clearbody QQ. induction HF as [|q s Q' l' (o & _ & V & ->) HF IH]; constructor; [|apply IH; intros; apply HQ; now right].
    assert (Hq := HQ q (or_introl eq_refl)). pose proof (@pos_range Nt tt _ Htt _ _ V) as P. destruct V as (Ho & Hle & Hlo). destruct o as [|i].
    - rewrite Ecum in Hle. assert (Z0 : integral tt lam 0 = 0) by reflexivity. assert (q = 0) as -> by lra. exists 0%nat. rewrite P, Z0.
      specialize (Htt 0%nat ltac:(lia)). specialize (Hm 0%nat ltac:(lia)). rewrite Z0 in Hm. split; [lia|]. split; [lra|]. split; [lra|]. ring.
    - destruct Hlo as [|Hlo]; [discriminate|]. replace (S i - 1)%nat with i in Hlo by lia. exists i. split; [exact Ho|]. split; [lra|]. rewrite !Ecum in *. split; [lra|].
      unfold pos. rewrite !Ecum. field. lra. }
  split; [exact Hinv|]. split; [exact Hsl|]. intros s Hs.
  clear -Hinv Hs Htt. revert Hinv. generalize (sort Q). intros QQ HF. induction HF as [|q s' Q' l' H HF IH]; [destruct Hs|]. destruct Hs as [<-|Hs]; [|auto].
  destruct H as (i & Hi & Hr & _). assert (Hle : forall a b, (a <= b)%nat -> (b < Nt)%nat -> tt a <= tt b) by (apply mono_le; intros; apply Rlt_le; auto).
  assert (tt 0%nat <= tt i) by (apply Hle; lia). assert (tt (S i) <= tt (Nt - 1)%nat) by (apply Hle; lia). lra.
Qed.
(** Non-vacuity: unit rate on [0, 1], two draws. *)
Example C69_nonvacuous : exists pois unif, pois 0 = 0%nat /\ (forall L N i, 0 <= L -> (i < N)%nat -> 0 <= unif L N i <= L) /\
  pois (integral INR (fun _ => 1) 1) = 2%nat /\ forall i, (S i < 2)%nat -> INR i < INR (S i).
Proof.
  exists (fun L => if Rlt_dec 0 L then 2%nat else 0%nat), (fun L _ _ => L / 2). repeat split.
  - destruct (Rlt_dec 0 0); [lra|reflexivity].
  - lra.
  - lra.
  - unfold integral. cbn [Rsum INR]. destruct (Rlt_dec 0 (0 + (1 - 0) * (1 + 1) / 2)); [reflexivity|lra].
  - intros i _. apply lt_INR. lia.
Qed.
Print Assumptions C69_inhomogeneous.
