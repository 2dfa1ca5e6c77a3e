(** * C66 (discrete / continuous conversion). *)
From Verif Require Import Prelude Arrays ExtReal M_Utils.
From Coq Require Import Permutation.
Set Implicit Arguments.

(* ---------------- specification ---------------- *)
(** argsort returns a permutation of the positions that sorts the values. *)
Definition is_argsort (argsort : list R -> list nat) : Prop := forall l,
  Permutation (argsort l) (seq 0 (length l)) /\
  forall i j, (i <= j)%nat -> (j < length l)%nat -> nth (nth i (argsort l) 0%nat) l 0 <= nth (nth j (argsort l) 0%nat) l 0.

(** The number of events (time, process) of process k with time in [a, b), or in [a, b] when [closed]. *)
Definition in_bin (closed : bool) (a b x : R) : bool := (Rleb a x && (if closed then Rleb x b else Rltb x b))%bool.
Definition events_in {A} (eqA : A -> A -> bool) (closed : bool) (a b : R) (k : A) (S_ : list R) (C_ : list A) : Z :=
  Z.of_nat (length (filter (fun sc => eqA (snd sc) k && in_bin closed a b (fst sc))%bool (combine S_ C_))).

(* ---------------- lemmas ---------------- *)
Lemma length_filter_sum {A} (p : A -> bool) l : Z.of_nat (length (filter p l)) = lsumZ (map (fun x => b2Z (p x)) l).
Proof. induction l as [|a l IH]; [reflexivity|]. cbn [filter map lsumZ]. destruct (p a); cbn [length b2Z]; lia. Qed.

Lemma Zsum_lsumZ {A} n (f : nat -> A -> Z) l : Zsum n (fun t => lsumZ (map (f t) l)) = lsumZ (map (fun x => Zsum n (fun t => f t x)) l).
Proof.
  induction l as [|a l IH]; cbn [map lsumZ]; [now apply Zsum_0|]. now rewrite Zsum_plus, IH.
Qed.

Lemma lsumZ01 {A} (f : A -> Z) l : (forall x, In x l -> (0 <= f x <= 1)%Z) ->
  (lsumZ (map f l) <= Z.of_nat (length l))%Z /\ (lsumZ (map f l) = Z.of_nat (length l) -> forall x, In x l -> f x = 1%Z).
Proof.
  induction l as [|a l IH]; intros H; [split; [cbn; lia|intros _ x []]|]. cbn [map lsumZ length].
  destruct IH as [H1 H2]; [intros x Hx; apply H; now right|]. assert (Ha := H a (or_introl eq_refl)).
  split; [lia|]. intros E x [<-|Hx]; [lia|apply H2; [lia|exact Hx]].
Qed.
Lemma lsumZ_ones {A} (f : A -> Z) l : (forall x, In x l -> f x = 1%Z) -> lsumZ (map f l) = Z.of_nat (length l).
Proof. induction l as [|a l IH]; intros H; [reflexivity|]. cbn [map lsumZ length]. rewrite IH by (intros; apply H; now right). rewrite H by now left. lia. Qed.

Lemma halfopen_sum n e x : (forall i, (i < n)%nat -> e i <= e (S i)) ->
  Zsum n (fun t => b2Z (in_bin false (e t) (e (S t)) x)) = b2Z (in_bin false (e 0%nat) (e n) x).
Proof.
  intros H. induction n as [|n IH].
  - cbn [Zsum]. unfold in_bin. destruct (Rleb (e 0%nat) x) eqn:A; [|reflexivity]. destruct (Rltb x (e 0%nat)) eqn:B; [|reflexivity].
    apply Rleb_true in A. apply Rltb_true in B. lra.
  - cbn [Zsum]. rewrite IH by (intros; apply H; lia). assert (Hn := H n ltac:(lia)).
    assert (H0 : e 0%nat <= e n).
    { clear IH. assert (forall m, (m <= n)%nat -> e 0%nat <= e m); [|auto]. intros m. induction m; intros Hm; [lra|]. specialize (IHm ltac:(lia)). specialize (H m ltac:(lia)). lra. }
    unfold in_bin. destruct (Rleb (e 0%nat) x) eqn:A; destruct (Rltb x (e n)) eqn:B; destruct (Rleb (e n) x) eqn:C; destruct (Rltb x (e (S n))) eqn:D; cbn [andb b2Z]; try reflexivity; exfalso;
      rewrite ?Rleb_true, ?Rltb_true, ?Rleb_false, ?Rltb_false in *; lra.
Qed.

Lemma bins_sum N e x : (0 < N)%nat -> (forall i, (i < N)%nat -> e i <= e (S i)) ->
  Zsum N (fun t => b2Z (in_bin (Nat.eqb (S t) N) (e t) (e (S t)) x)) = b2Z (in_bin true (e 0%nat) (e N) x).
Proof.
  intros HN He. destruct N as [|n]; [lia|]. cbn [Zsum].
  rewrite (@Zsum_ext n _ (fun t => b2Z (in_bin false (e t) (e (S t)) x))).
  2:{ intros i Hi. now replace (S i =? S n)%nat with false by (symmetry; apply Nat.eqb_neq; lia). }
  rewrite halfopen_sum by (intros; apply He; lia). rewrite Nat.eqb_refl.
  assert (Hn := He n ltac:(lia)).
  assert (H0 : e 0%nat <= e n).
  { assert (forall m, (m <= n)%nat -> e 0%nat <= e m); [|auto]. intros m. induction m; intros Hm; [lra|]. specialize (IHm ltac:(lia)). specialize (He m ltac:(lia)). lra. }
  unfold in_bin. destruct (Rleb (e 0%nat) x) eqn:A; destruct (Rltb x (e n)) eqn:B; destruct (Rleb (e n) x) eqn:C; destruct (Rleb x (e (S n))) eqn:D; cbn [andb b2Z]; try reflexivity; exfalso;
      rewrite ?Rleb_true, ?Rltb_true, ?Rleb_false, ?Rltb_false in *; lra.
Qed.

Lemma histogram_bin x N e i : (i < N)%nat -> (forall i, (i < N)%nat -> e i <= e (S i)) ->
  histogram x N e i = Z.of_nat (length (filter (in_bin (Nat.eqb (S i) N) (e i) (e (S i))) x)).
Proof.
  intros Hi He. unfold histogram. f_equal. f_equal. apply filter_ext. intros v. unfold in_bin.
  destruct (Nat.eqb_spec (S i) N) as [<-|]; [|now rewrite orb_false_r].
  specialize (He i Hi). destruct (Rleb (e i) v) eqn:A; destruct (Rltb v (e (S i))) eqn:B; destruct (Reqb v (e (S i))) eqn:C; destruct (Rleb v (e (S i))) eqn:D; cbn [andb orb]; try reflexivity; exfalso;
      rewrite ?Rleb_true, ?Rltb_true, ?Rleb_false, ?Rltb_false, ?Reqb_true, ?Reqb_false in *; lra.
Qed.

Lemma select_filter S_ C_ k p :
  Z.of_nat (length (filter p (select S_ C_ k))) = Z.of_nat (length (filter (fun sc => (snd sc =? k)%Z && p (fst sc))%bool (combine S_ C_))).
Proof.
  unfold select. f_equal. induction (combine S_ C_) as [|[s c] l IH]; [reflexivity|]. cbn [filter snd]. destruct (c =? k)%Z; cbn [map filter fst andb]; [|exact IH].
  destruct (p s); cbn [length]; congruence.
Qed.

Lemma zmax_spec C_ : C_ <> [] -> In (zmax C_) C_ /\ forall c, In c C_ -> (c <= zmax C_)%Z.
Proof.
  unfold zmax. intros Hne. assert (G : forall d l, (In (fold_right Z.max d l) l \/ fold_right Z.max d l = d) /\ (forall c, In c l -> (c <= fold_right Z.max d l)%Z)).
  { intros d l. induction l as [|a l [IH1 IH2]]; [split; [now right|intros c []]|]. cbn [fold_right]. split.
    - destruct (Z.max_spec a (fold_right Z.max d l)) as [[? ->]|[? ->]]; [destruct IH1; [left; now right|now right]|left; now left].
    - intros c [<-|Hc]; [lia|]. specialize (IH2 c Hc). lia. }
  destruct C_ as [|a l]; [easy|]. cbn [hd]. destruct (G a (a :: l)) as [[H|H] H2]; split; auto. rewrite H. now left.
Qed.

(** The bins: [Tmin + i dt] for i < n, then Tmax, where n is the number of grid points below Tmax. *)
Lemma arange_grid Tmin Tmax dt : 0 < dt -> let n := arange_len (Tmax - Tmin) dt in
  (Tmin < Tmax -> (0 < n)%nat /\ Tmin + INR (n - 1) * dt < Tmax <= Tmin + INR n * dt) /\ (Tmax <= Tmin -> n = 0%nat).
Proof.
  intros Hdt n. unfold n, arange_len. pose proof (ceilZ_spec ((Tmax - Tmin) / dt)) as [H1 H2]. set (z := ceilZ ((Tmax - Tmin) / dt)) in *. split; intros H.
  - assert (Hq : 0 < (Tmax - Tmin) / dt) by (apply Rdiv_lt_0_compat; lra).
    assert (Hz : (0 < z)%Z) by (apply lt_IZR; lra). split; [lia|]. rewrite minus_INR by lia. rewrite INR_IZR_INZ, Z2Nat.id by lia. cbn [INR].
    apply Rmult_lt_compat_r with (r := dt) in H1; [|exact Hdt]. apply Rmult_le_compat_r with (r := dt) in H2; [|lra].
    unfold Rdiv in H1, H2. rewrite Rmult_assoc, Rinv_l, Rmult_1_r in H1, H2 by lra. lra.
  - assert (Hq : (Tmax - Tmin) / dt <= 0). { unfold Rdiv. rewrite <- (Rmult_0_l (/ dt)). apply Rmult_le_compat_r; [apply Rlt_le, Rinv_0_lt_compat; lra|lra]. }
    assert (z < 1)%Z by (apply lt_IZR; lra). lia.
Qed.

(** ** C66: binning counts every event once, or the call raises. *)
Definition bin_edge (dt Tmin Tmax : R) (T i : nat) : R := if Nat.eqb i T then Tmax else Tmin + INR i * dt.
Theorem C66_binning :
  forall S_ C_ dt Tmin Tmax, 0 < dt -> length S_ = length C_ ->
    let valid := S_ <> [] /\ Tmin < Tmax /\ (forall s, In s S_ -> Tmin <= s <= Tmax) /\ (forall c, In c C_ -> (0 <= c)%Z) in
    (valid -> exists T K cnt, continuous_to_discrete S_ C_ dt Tmin Tmax = Ok (T, K, cnt) /\
       (0 < T)%nat /\ Tmin + INR (T - 1) * dt < Tmax <= Tmin + INR T * dt /\
       (0 < K)%nat /\ In (Z.of_nat (K - 1)) C_ /\ (forall c, In c C_ -> (c < Z.of_nat K)%Z) /\
       (forall t k, (t < T)%nat -> (k < K)%nat ->
          cnt t k = events_in Z.eqb (Nat.eqb (S t) T) (bin_edge dt Tmin Tmax T t) (bin_edge dt Tmin Tmax T (S t)) (Z.of_nat k) S_ C_) /\
       Zsum T (fun t => Zsum K (cnt t)) = Z.of_nat (length S_)) /\
    (~ valid -> exists e, continuous_to_discrete S_ C_ dt Tmin Tmax = Raise e).
Proof.
  intros S_ C_ dt Tmin Tmax Hdt Hlen valid. unfold continuous_to_discrete.
  destruct (arange_grid Tmin Tmax Hdt) as [Hpos Hneg]. set (n := arange_len (Tmax - Tmin) dt) in *. clearbody n.
  replace (Rltb 0 dt) with true by (symmetry; now apply Rltb_true). cbn [guard bindr].
  destruct (Nat.eqb_spec n 0) as [Hn0|Hn0].
  { cbn [negb guard bindr]. split; [|eauto]. intros (_ & HT & _). destruct (Hpos HT). lia. }
  cbn [negb guard bindr]. assert (HT : Tmin < Tmax). { destruct (Rlt_le_dec Tmin Tmax) as [|X]; [auto|]. specialize (Hneg X). lia. }
  destruct (Hpos HT) as [_ Hg]. replace (Reqb (Tmin + INR (n - 1) * dt) Tmax) with false by (symmetry; apply Reqb_false; lra).
  replace (S n - 1)%nat with n by lia.
  assert (EC : C_ = [] \/ C_ <> []) by (destruct C_; [now left|now right]). destruct EC as [EC|EC].
  { rewrite EC in *. cbn. split; [|eauto]. intros (Hne & _). destruct S_; [easy|discriminate]. }
  replace (Nat.eqb (length C_) 0) with false by (symmetry; apply Nat.eqb_neq; destruct C_; [easy|discriminate]). cbn [negb guard bindr].
  destruct (@zmax_spec C_ EC) as [Hmin Hmax].
  destruct (0 <=? zmax C_ + 1)%Z eqn:EK; [apply Z.leb_le in EK|].
  2:{ cbn [guard bindr]. split; [|eauto]. intros (_ & _ & _ & Hc). specialize (Hc _ Hmin). apply Z.leb_gt in EK. lia. }
  cbn [guard bindr]. rewrite Hlen, Nat.eqb_refl. cbn [orb guard bindr].
  set (edge := fun i => if Nat.ltb i n then Tmin + INR i * dt else Tmax).
  set (K := Z.to_nat (zmax C_ + 1)).
  assert (Hedge : forall i, (i <= n)%nat -> edge i = bin_edge dt Tmin Tmax n i).
  { intros i Hi. unfold edge, bin_edge. destruct (Nat.ltb_spec i n); destruct (Nat.eqb_spec i n); try lia; reflexivity. }
  assert (He : forall i, (i < n)%nat -> edge i <= edge (S i)).
  { intros i Hi. unfold edge. destruct (Nat.ltb_spec i n); [|lia]. destruct (Nat.ltb_spec (S i) n); [rewrite S_INR; lra|].
    assert (INR i <= INR (n - 1)) by (apply le_INR; lia). nra. }
  assert (Hcnt : forall t k, (t < n)%nat -> histogram (select S_ C_ (Z.of_nat k)) n edge t = events_in Z.eqb (Nat.eqb (S t) n) (edge t) (edge (S t)) (Z.of_nat k) S_ C_).
  { intros t k Ht. rewrite histogram_bin by auto. rewrite select_filter. reflexivity. }
  assert (Hsum : Zsum n (fun t => Zsum K (fun k => histogram (select S_ C_ (Z.of_nat k)) n edge t))
    = lsumZ (map (fun sc => (b2Z ((0 <=? snd sc)%Z) * b2Z (in_bin true Tmin Tmax (fst sc)))%Z) (combine S_ C_))).
  { transitivity (Zsum n (fun t => Zsum K (fun k => lsumZ (map (fun sc => b2Z ((snd sc =? Z.of_nat k)%Z && in_bin (Nat.eqb (S t) n) (edge t) (edge (S t)) (fst sc))) (combine S_ C_))))).
    { apply Zsum_ext. intros t Ht. apply Zsum_ext. intros k Hk. rewrite Hcnt by exact Ht. unfold events_in. apply length_filter_sum. }
    transitivity (Zsum n (fun t => lsumZ (map (fun sc => Zsum K (fun k => b2Z ((snd sc =? Z.of_nat k)%Z && in_bin (Nat.eqb (S t) n) (edge t) (edge (S t)) (fst sc)))) (combine S_ C_)))).
    { apply Zsum_ext. intros t Ht. now rewrite Zsum_lsumZ. }
    rewrite Zsum_lsumZ. f_equal. apply map_ext_in. intros [s c] Hin. cbn [fst snd].
    assert (Hc : (c <= zmax C_)%Z) by (apply Hmax; exact (in_combine_r _ _ _ _ Hin)).
    rewrite (@Zsum_ext n _ (fun t => (b2Z (0 <=? c)%Z * b2Z (in_bin (Nat.eqb (S t) n) (edge t) (edge (S t)) s))%Z)).
    - assert (Gs : forall m f a, Zsum m (fun t => (a * f t)%Z) = (a * Zsum m f)%Z). { intros m f a. induction m; cbn [Zsum]; [lia|]. rewrite IHm. lia. }
      rewrite Gs, bins_sum; [|lia|exact He]. rewrite !Hedge by lia. unfold bin_edge. rewrite Nat.eqb_refl.
      replace (0 =? n)%nat with false by (symmetry; apply Nat.eqb_neq; lia). cbn [INR]. rewrite Rmult_0_l, Rplus_0_r. reflexivity.
    - intros t Ht. destruct (in_bin (Nat.eqb (S t) n) (edge t) (edge (S t)) s); cycle 1.
      { rewrite Zsum_0; [cbn; lia|]. intros k _. now rewrite andb_false_r. }
      rewrite (@Zsum_ext K _ (fun k => b2Z (c =? Z.of_nat k)%Z)) by (intros; now rewrite andb_true_r). cbn [b2Z]. rewrite Z.mul_1_r.
      destruct (0 <=? c)%Z eqn:E0.
      + apply Z.leb_le in E0. assert (HcK : (Z.to_nat c < K)%nat) by (unfold K; lia). clear -E0 HcK. revert HcK. generalize K as m. intros m. cbn [b2Z].
        induction m as [|m IH]; intros Hm; [lia|]. cbn [Zsum]. destruct (Z.eqb_spec c (Z.of_nat m)) as [->|Hne].
        * rewrite Zsum_0; [reflexivity|]. intros i Hi. destruct (Z.eqb_spec (Z.of_nat m) (Z.of_nat i)); [lia|reflexivity].
        * rewrite IH by lia. reflexivity.
      + apply Z.leb_gt in E0. apply Zsum_0. intros k _. destruct (Z.eqb_spec c (Z.of_nat k)); [lia|reflexivity]. }
  fold edge. set (cnt := fun t k => histogram (select S_ C_ (Z.of_nat k)) n edge t) in *. fold K.
  assert (H01 : forall sc, In sc (combine S_ C_) -> (0 <= b2Z (0 <=? snd sc)%Z * b2Z (in_bin true Tmin Tmax (fst sc)) <= 1)%Z).
  { intros sc _. destruct (0 <=? snd sc)%Z, (in_bin true Tmin Tmax (fst sc)); cbn; lia. }
  assert (Hcl : length (combine S_ C_) = length S_) by (rewrite combine_length; lia).
  rewrite Hsum. split.
  - intros (Hne & _ & Hs & Hc).
    assert (Hall : lsumZ (map (fun sc => (b2Z (0 <=? snd sc)%Z * b2Z (in_bin true Tmin Tmax (fst sc)))%Z) (combine S_ C_)) = Z.of_nat (length S_)).
    { rewrite <- Hcl. apply lsumZ_ones. intros [s c] Hin. cbn [fst snd]. specialize (Hs s (in_combine_l _ _ _ _ Hin)). specialize (Hc c (in_combine_r _ _ _ _ Hin)).
      replace (0 <=? c)%Z with true by (symmetry; now apply Z.leb_le). unfold in_bin.
      replace (Rleb Tmin s) with true by (symmetry; apply Rleb_true; lra). replace (Rleb s Tmax) with true by (symmetry; apply Rleb_true; lra). reflexivity. }
    assert (Hz : (0 <= zmax C_)%Z) by (apply Hc; exact Hmin).
    exists n, K, cnt. rewrite <- Hlen, Hall, Z.eqb_refl. cbn [guard bindr]. split; [reflexivity|]. split; [lia|]. split; [exact Hg|]. split; [unfold K; lia|].
    split; [replace (Z.of_nat (K - 1)) with (zmax C_) by (unfold K; lia); exact Hmin|]. split; [intros c Hin; specialize (Hmax c Hin); unfold K; lia|].
    split; [intros t k Ht Hk; unfold cnt; rewrite Hcnt by exact Ht; now rewrite !Hedge by lia|]. rewrite Hall in Hsum. exact Hsum.
  - intros Hnv. rewrite <- Hlen.
    destruct (Z.eqb_spec (lsumZ (map (fun sc => (b2Z (0 <=? snd sc)%Z * b2Z (in_bin true Tmin Tmax (fst sc)))%Z) (combine S_ C_))) (Z.of_nat (length S_))) as [E|]; [|cbn; eauto].
    exfalso. apply Hnv. rewrite <- Hcl in E. pose proof (proj2 (lsumZ01 _ _ H01) E) as Hone.
    assert (Hpt : forall i, (i < length S_)%nat -> Tmin <= nth i S_ 0 <= Tmax /\ (0 <= nth i C_ 0)%Z).
    { intros i Hi. assert (Hin : In (nth i S_ 0, nth i C_ 0%Z) (combine S_ C_)) by (rewrite <- combine_nth by exact Hlen; apply nth_In; lia).
      specialize (Hone _ Hin). cbn [fst snd] in Hone. destruct (0 <=? nth i C_ 0)%Z eqn:A; [|discriminate]. unfold in_bin in Hone.
      destruct (Rleb Tmin (nth i S_ 0)) eqn:B; [|discriminate]. destruct (Rleb (nth i S_ 0) Tmax) eqn:D; [|discriminate].
      apply Rleb_true in B, D. apply Z.leb_le in A. lra || (split; [lra|exact A]). }
    split; [intros ->; destruct C_; [now apply EC|discriminate Hlen]|]. split; [exact HT|]. split.
    + intros s Hs. apply In_nth with (d := 0) in Hs as (i & Hi & <-). now apply Hpt.
    + intros c Hc. apply In_nth with (d := 0%Z) in Hc as (i & Hi & <-). apply Hpt. lia.
Qed.

(* ---------------- round trip ---------------- *)
Definition raw (T K : nat) (S_ : imat) : list (nat * nat) :=
  concat (map (fun k => map (fun t => (t, k)) (ibincount T (fun t => S_ t k))) (seq 0 K)).

Lemma map_nth_seq_u {A} (l : list A) d : map (fun i => nth i l d) (seq 0 (length l)) = l.
Proof.
  apply nth_ext with d d; [now rewrite map_length, seq_length|]. intros i Hi. rewrite map_length, seq_length in Hi.
  rewrite (@nth_indep _ _ i d (nth 0 l d)) by (rewrite map_length, seq_length; exact Hi).
  rewrite (map_nth (fun i => nth i l d)). rewrite seq_nth by exact Hi. reflexivity.
Qed.
Lemma combine_map2 {A B C} (f : A -> B) (g : A -> C) l : combine (map f l) (map g l) = map (fun x => (f x, g x)) l.
Proof. induction l; cbn; [reflexivity|]. now rewrite IHl. Qed.
Lemma repeat_const {A B} (k : B) (l : list A) : map (fun _ => k) l = repeat k (length l).
Proof. induction l; cbn; congruence. Qed.
Lemma length_repeat_concat T (f : nat -> Z) : (forall t, (t < T)%nat -> (0 <= f t)%Z) -> Z.of_nat (length (ibincount T f)) = Zsum T f.
Proof.
  intros H. unfold ibincount. induction T as [|T IH]; [reflexivity|]. rewrite seq_S, map_app, concat_app, app_length, Nat2Z.inj_add, IH by (intros; apply H; lia).
  cbn [Zsum map concat]. rewrite app_nil_r, repeat_length. cbn [plus]. specialize (H T ltac:(lia)). lia.
Qed.
Lemma raw_fst T K S_ : map fst (raw T K S_) = concat (map (fun k => ibincount T (fun t => S_ t k)) (seq 0 K)).
Proof.
  unfold raw. rewrite concat_map, map_map. f_equal. apply map_ext. intros k. rewrite map_map. cbn [fst]. apply map_id.
Qed.
Lemma raw_snd T K S_ : (forall t k, (t < T)%nat -> (k < K)%nat -> (0 <= S_ t k)%Z) ->
  map snd (raw T K S_) = concat (map (fun k => repeat k (Z.to_nat (Zsum T (fun t => S_ t k)))) (seq 0 K)).
Proof.
  intros H. unfold raw. rewrite concat_map, map_map. f_equal. apply map_ext_in. intros k Hk. apply in_seq in Hk. rewrite map_map. cbn [snd].
  rewrite repeat_const. f_equal. rewrite <- length_repeat_concat by (intros; apply H; lia). lia.
Qed.
Lemma in_ibincount T f t : In t (ibincount T f) -> (t < T)%nat /\ (0 < f t)%Z.
Proof.
  intros H. apply in_concat in H as (l & Hl & Ht). apply in_map_iff in Hl as (t' & <- & Ht'). apply in_seq in Ht'.
  destruct (Z.to_nat (f t')) eqn:E; [destruct Ht|]. apply repeat_spec in Ht as ->. lia.
Qed.
Lemma in_raw T K S_ t k : In (t, k) (raw T K S_) -> (t < T)%nat /\ (k < K)%nat /\ (0 < S_ t k)%Z.
Proof.
  intros H. apply in_concat in H as (l & Hl & Ht). apply in_map_iff in Hl as (k' & <- & Hk'). apply in_seq in Hk'.
  apply in_map_iff in Ht as (t' & [= <- <-] & Ht). apply in_ibincount in Ht. lia || (destruct Ht; split; [auto|split; [lia|auto]]).
Qed.
Lemma raw_in T K S_ t k : (t < T)%nat -> (k < K)%nat -> (0 < S_ t k)%Z -> In (t, k) (raw T K S_).
Proof.
  intros Ht Hk Hs. apply in_concat. exists (map (fun t => (t, k)) (ibincount T (fun t => S_ t k))). split.
  - apply in_map_iff. exists k. split; [reflexivity|]. apply in_seq. lia.
  - apply in_map_iff. exists t. split; [reflexivity|]. apply in_concat. exists (repeat t (Z.to_nat (S_ t k))). split.
    + apply in_map_iff. exists t. split; [reflexivity|]. apply in_seq; lia.
    + destruct (Z.to_nat (S_ t k)) eqn:E; [lia|]. now left.
Qed.
Lemma lsumZ_const {A} (l : list A) (z : Z) : lsumZ (map (fun _ => z) l) = (Z.of_nat (length l) * z)%Z.
Proof. induction l as [|a l IH]; [reflexivity|]. cbn [map lsumZ length]. rewrite IH. lia. Qed.
Lemma lsumZ_concat_map_u {A} (f : A -> Z) ll : lsumZ (map f (concat ll)) = lsumZ (map (fun l => lsumZ (map f l)) ll).
Proof. induction ll as [|l ll IH]; [reflexivity|]. cbn [concat map lsumZ]. now rewrite map_app, lsumZ_app, IH. Qed.
Lemma Zsum_pick n i (f : nat -> Z) : (i < n)%nat -> (forall j, (j < n)%nat -> j <> i -> f j = 0%Z) -> Zsum n f = f i.
Proof.
  induction n as [|n IH]; intros Hi H; [lia|]. cbn [Zsum]. destruct (Nat.eq_dec i n) as [->|Hne].
  - rewrite Zsum_0; [lia|]. intros j Hj. apply H; lia.
  - rewrite IH; [rewrite (H n) by lia; lia|lia|]. intros j Hj Hji. apply H; lia.
Qed.
Lemma raw_count T K S_ t k : (t < T)%nat -> (k < K)%nat -> (0 <= S_ t k)%Z ->
  lsumZ (map (fun r => b2Z (Nat.eqb (snd r) k && Nat.eqb (fst r) t)) (raw T K S_)) = S_ t k.
Proof.
  intros Ht Hk H. unfold raw. rewrite lsumZ_concat_map_u, map_map, lsumZ_map_seq. rewrite (@Zsum_pick K k) by (try exact Hk;
    intros j Hj Hne; rewrite map_map; cbn [fst snd]; replace (j =? k)%nat with false by (symmetry; now apply Nat.eqb_neq); cbn [andb b2Z]; rewrite lsumZ_const; lia).
  rewrite map_map. cbn [fst snd]. rewrite Nat.eqb_refl. cbn [andb]. unfold ibincount. rewrite lsumZ_concat_map_u, map_map, lsumZ_map_seq.
  rewrite (@Zsum_pick T t).
  - assert (forall n, map (fun x => b2Z (x =? t)%nat) (repeat t n) = map (fun _ => 1%Z) (repeat t n)) as E.
    { intros n. apply map_ext_in. intros x Hx. apply repeat_spec in Hx as ->. now rewrite Nat.eqb_refl. }
    rewrite E, lsumZ_const, repeat_length. lia.
  - exact Ht.
  - intros j Hj Hne. assert (E : map (fun x => b2Z (x =? t)%nat) (repeat j (Z.to_nat (S_ j k))) = map (fun _ => 0%Z) (repeat j (Z.to_nat (S_ j k)))).
    { apply map_ext_in. intros x Hx. apply repeat_spec in Hx as ->. now replace (j =? t)%nat with false by (symmetry; now apply Nat.eqb_neq). }
    rewrite E, lsumZ_const. lia.
Qed.

Definition raw_events (dt : R) (rand : nat -> R) (l : list (nat * nat)) : list (R * nat) :=
  map (fun i => (dt * (INR (fst (nth i l (0%nat, 0%nat))) + rand i), snd (nth i l (0%nat, 0%nat)))) (seq 0 (length l)).

Lemma d2c_events rand argsort T K S_ dt :
  (0 < K)%nat -> 0 < dt -> (forall t k, (t < T)%nat -> (k < K)%nat -> (0 <= S_ t k)%Z) -> (forall i, 0 <= rand i < 1) -> is_argsort argsort ->
  exists S' C', discrete_to_continuous rand argsort T K S_ dt = Ok (S', C', INR T * dt) /\ length S' = length C' /\
    Permutation (combine S' C') (raw_events dt rand (raw T K S_)) /\
    (forall i j, (i <= j)%nat -> (j < length S')%nat -> nth i S' 0 <= nth j S' 0).
Proof.
  intros HK Hdt Hnn Hr Ha. unfold discrete_to_continuous.
  replace (K =? 0)%nat with false by (symmetry; apply Nat.eqb_neq; lia). cbn [negb guard bindr].
  assert (G1 : forall_lt T (fun t => forall_lt K (fun k => (0 <=? S_ t k)%Z)) = true).
  { apply forall_lt_true. intros t Ht. apply forall_lt_true. intros k Hk. apply Z.leb_le. auto. }
  rewrite G1. cbn [guard bindr]. rewrite <- raw_fst, <- raw_snd by exact Hnn. rewrite map_length.
  pose proof (@in_raw T K S_) as Hin. set (l := raw T K S_) in *. clearbody l. unfold raw_events.
  set (ev := fun i => (dt * (INR (fst (nth i l (0%nat, 0%nat))) + rand i), snd (nth i l (0%nat, 0%nat)))).
  assert (ES : map (fun i => dt * INR (nth i (map fst l) 0%nat) + dt * rand i) (seq 0 (length l)) = map fst (map ev (seq 0 (length l)))).
  { rewrite map_map. apply map_ext. intros i. unfold ev. cbn [fst]. pose proof (map_nth fst l (0%nat, 0%nat) i) as X. cbn [fst] in X. rewrite X. ring. }
  assert (EC : map snd l = map snd (map ev (seq 0 (length l)))).
  { rewrite map_map. unfold ev. cbn [snd]. rewrite <- (map_nth_seq_u l (0%nat, 0%nat)) at 1. now rewrite map_map. }
  rewrite ES, EC. assert (Hlen : length (map ev (seq 0 (length l))) = length l) by now rewrite map_length, seq_length.
  assert (Hrng : forall i, (i < length l)%nat -> fst (ev i) < INR T * dt).
  { intros i Hi. unfold ev. cbn [fst]. assert (X := nth_In l (0%nat, 0%nat) Hi). destruct (nth i l (0%nat, 0%nat)) as [t k]. apply Hin in X as (Ht & _). cbn [fst].
    assert (INR (t + 1) <= INR T) by (apply le_INR; lia). rewrite plus_INR in H. cbn [INR] in H. specialize (Hr i). nra. }
  set (es := map ev (seq 0 (length l))) in *.
  replace (forallb (fun s => Rltb s (INR T * dt)) (map fst es)) with true.
  2:{ symmetry. apply forallb_forall. intros s Hs. apply Rltb_true. unfold es in Hs. rewrite map_map in Hs. apply in_map_iff in Hs as (i & <- & Hi). apply in_seq in Hi. apply Hrng. lia. }
  cbn [guard bindr]. clearbody es. destruct (Ha (map fst es)) as [Hp Hs]. set (perm := argsort (map fst es)) in *. rewrite map_length in Hp, Hs.
  eexists. eexists. split; [reflexivity|]. split; [now rewrite !map_length|].
  assert (Lp : length perm = length es) by (rewrite (Permutation_length Hp), seq_length; reflexivity). split.
  - rewrite combine_map2. etransitivity; [apply Permutation_map, Hp|].
    assert (Em : map (fun i => (nth i (map fst es) 0, nth i (map snd es) 0%nat)) (seq 0 (length es)) = es).
    { transitivity (map (fun i => nth i es (0, 0%nat)) (seq 0 (length es))); [|apply map_nth_seq_u]. apply map_ext. intros i. pose proof (map_nth fst es (0, 0%nat) i) as X1. pose proof (map_nth snd es (0, 0%nat) i) as X2.
      cbn [fst snd] in X1, X2. rewrite X1, X2. symmetry. apply surjective_pairing. }
    rewrite Em. reflexivity.
  - intros i j Hij Hj. rewrite map_length, Lp in Hj. specialize (Hs i j Hij Hj).
    assert (En : forall i, (i < length es)%nat -> nth i (map (fun i => nth i (map fst es) 0) perm) 0 = nth (nth i perm 0%nat) (map fst es) 0).
    { intros i' Hi'. rewrite (@nth_indep _ _ i' 0 ((fun i => nth i (map fst es) 0) 0%nat)) by (rewrite map_length, Lp; exact Hi').
      now rewrite (map_nth (fun i => nth i (map fst es) 0)). }
    rewrite !En by lia. exact Hs.
Qed.

Lemma in_split_combine {A B} (S' : list A) (C' : list B) s : length S' = length C' -> In s S' -> exists c, In (s, c) (combine S' C').
Proof. revert C'. induction S' as [|a S' IH]; intros [|b C'] HL H; try easy. destruct H as [<-|H]; [exists b; now left|]. destruct (IH C' ltac:(cbn in HL; lia) H) as (c & Hc). exists c. now right. Qed.
Lemma in_split_combine_r {A B} (S' : list A) (C' : list B) c : length S' = length C' -> In c C' -> exists s, In (s, c) (combine S' C').
Proof. revert C'. induction S' as [|a S' IH]; intros [|b C'] HL H; try easy. destruct H as [<-|H]; [exists a; now left|]. destruct (IH C' ltac:(cbn in HL; lia) H) as (s & Hc). exists s. now right. Qed.

(** ** C66: events obtained from counts are sorted, in range, and binning them gives the counts back - for the processes up to the
    last one that has an event; with no event at all the way back raises. *)
Theorem C66_round_trip_partial :
  forall rand argsort T K S_ dt,
    (0 < K)%nat -> 0 < dt -> (forall t k, (t < T)%nat -> (k < K)%nat -> (0 <= S_ t k)%Z) -> (forall i, 0 <= rand i < 1) -> is_argsort argsort ->
    exists S' C', discrete_to_continuous rand argsort T K S_ dt = Ok (S', C', INR T * dt) /\
      length S' = length C' /\ (forall s, In s S' -> 0 <= s < INR T * dt) /\ (forall c, In c C' -> (c < K)%nat) /\
      (forall i j, (i <= j)%nat -> (j < length S')%nat -> nth i S' 0 <= nth j S' 0) /\
      ((exists t k, (t < T)%nat /\ (k < K)%nat /\ (0 < S_ t k)%Z) ->
         exists K' cnt, continuous_to_discrete S' (map Z.of_nat C') dt 0 (INR T * dt) = Ok (T, K', cnt) /\
           (K' <= K)%nat /\ (forall t k, (t < T)%nat -> (k < K')%nat -> cnt t k = S_ t k) /\
           (forall t k, (t < T)%nat -> (K' <= k)%nat -> (k < K)%nat -> S_ t k = 0%Z) /\
           (K' = K <-> exists t, (t < T)%nat /\ (0 < S_ t (K - 1)%nat)%Z)) /\
      ((forall t k, (t < T)%nat -> (k < K)%nat -> S_ t k = 0%Z) ->
         S' = [] /\ exists e, continuous_to_discrete S' (map Z.of_nat C') dt 0 (INR T * dt) = Raise e).
Proof.
  intros rand argsort T K S_ dt HK Hdt Hnn Hr Ha. destruct (@d2c_events rand argsort T K S_ dt HK Hdt Hnn Hr Ha) as (S' & C' & E & HL & HP & Hsrt).
  assert (Hpair : forall s c, In (s, c) (combine S' C') <-> exists i t, (i < length (raw T K S_))%nat /\ nth i (raw T K S_) (0%nat, 0%nat) = (t, c) /\ s = dt * (INR t + rand i)).
  { intros s c. split.
    - intros H. apply (Permutation_in _ HP) in H. unfold raw_events in H. apply in_map_iff in H as (i & Hi & Hin). apply in_seq in Hin.
      destruct (nth i (raw T K S_) (0%nat, 0%nat)) as [t c'] eqn:En. cbn [fst snd] in Hi. injection Hi as <- <-. exists i, t. split; [lia|]. auto.
    - intros (i & t & Hi & En & ->). apply (Permutation_in _ (Permutation_sym HP)). unfold raw_events. apply in_map_iff. exists i. rewrite En. cbn [fst snd]. split; [reflexivity|]. apply in_seq. lia. }
  assert (Hin : forall s c, In (s, c) (combine S' C') -> 0 <= s < INR T * dt /\ (c < K)%nat).
  { intros s c H. apply Hpair in H as (i & t & Hi & En & ->). assert (X := nth_In (raw T K S_) (0%nat, 0%nat) Hi). rewrite En in X. apply in_raw in X as (Ht & Hc & _).
    split; [|exact Hc]. assert (INR (t + 1) <= INR T) by (apply le_INR; lia). rewrite plus_INR in H. cbn [INR] in H. specialize (Hr i). assert (0 <= INR t) by apply pos_INR. nra. }
  exists S', C'. split; [exact E|]. split; [exact HL|].
  assert (HS : forall s, In s S' -> 0 <= s < INR T * dt). { intros s Hs. destruct (@in_split_combine _ _ S' C' s HL Hs) as (c & Hc). now apply Hin in Hc. }
  assert (HC : forall c, In c C' -> (c < K)%nat). { intros c Hc. destruct (@in_split_combine_r _ _ S' C' c HL Hc) as (s & Hs). now apply Hin in Hs. }
  split; [exact HS|]. split; [exact HC|]. split; [exact Hsrt|].
  assert (HL2 : length S' = length (map Z.of_nat C')) by now rewrite map_length.
  destruct (@C66_binning S' (map Z.of_nat C') dt 0 (INR T * dt) Hdt HL2) as [Hok Hbad].
  assert (HexC : forall c, In c C' -> exists t, (t < T)%nat /\ (0 < S_ t c)%Z).
  { intros c Hc. destruct (@in_split_combine_r _ _ S' C' c HL Hc) as (s & Hs). apply Hpair in Hs as (i & t & Hi & En & _). assert (X := nth_In (raw T K S_) (0%nat, 0%nat) Hi). rewrite En in X.
    apply in_raw in X as (Ht & _ & Hp). exists t. auto. }
  assert (HCin : forall t c, (t < T)%nat -> (c < K)%nat -> (0 < S_ t c)%Z -> In c C').
  { intros t c Ht Hc Hp. assert (X := raw_in _ Ht Hc Hp). apply In_nth with (d := (0%nat, 0%nat)) in X as (i & Hi & En).
    apply (in_combine_r S' C' (dt * (INR t + rand i))). apply Hpair. exists i, t. auto. }
  split.
  - intros (t0 & k0 & Ht0 & Hk0 & Hp0).
    assert (HneC := HCin _ _ Ht0 Hk0 Hp0).
    destruct Hok as (T' & K' & cnt & Ec & HT' & Hg & HK' & Hlast & Hlt & Hcnt & _).
    { split; [intros ->; destruct C'; [destruct HneC|discriminate HL]|]. split; [apply Rmult_lt_0_compat; [apply (lt_INR 0)|exact Hdt]; lia|].
      split; [intros s Hs; specialize (HS s Hs); lra|]. intros c Hc. apply in_map_iff in Hc as (n & <- & _). lia. }
    assert (T' = T) as ->.
    { destruct Hg as [A B]. rewrite Rplus_0_l in A, B. apply Rmult_lt_reg_r in A; [|exact Hdt]. apply Rmult_le_reg_r in B; [|exact Hdt]. apply INR_lt in A. apply INR_le in B. lia. }
    assert (HK'K : (K' <= K)%nat). { apply in_map_iff in Hlast as (c & Ec' & Hc). specialize (HC c Hc). lia. }
    exists K', cnt. split; [exact Ec|]. split; [exact HK'K|]. split; [|split].
    + intros t k Ht Hk. rewrite Hcnt by auto. unfold events_in. rewrite length_filter_sum.
      assert (Ecm : combine S' (map Z.of_nat C') = map (fun sc => (fst sc, Z.of_nat (snd sc))) (combine S' C')).
      { clear. revert C'. induction S' as [|a S' IH]; intros [|b C']; cbn; try reflexivity. now rewrite IH. }
      rewrite Ecm, map_map. cbn [fst snd].
      rewrite (lsumZ_perm (Permutation_map (fun x => b2Z ((Z.of_nat (snd x) =? Z.of_nat k)%Z && in_bin (S t =? T)%nat (bin_edge dt 0 (INR T * dt) T t) (bin_edge dt 0 (INR T * dt) T (S t)) (fst x))) HP)).
      unfold raw_events. rewrite map_map. cbn [fst snd].
      rewrite <- (@raw_count T K S_ t k Ht ltac:(lia) ltac:(apply Hnn; lia)).
      transitivity (lsumZ (map (fun r => b2Z (Nat.eqb (snd r) k && Nat.eqb (fst r) t)) (map (fun i => nth i (raw T K S_) (0%nat, 0%nat)) (seq 0 (length (raw T K S_)))))); [|now rewrite map_nth_seq_u].
      rewrite map_map. f_equal. apply map_ext_in. intros i Hi. apply in_seq in Hi.
      assert (X := @nth_In _ i (raw T K S_) (0%nat, 0%nat) ltac:(lia)). destruct (nth i (raw T K S_) (0%nat, 0%nat)) as [ti ki]. apply in_raw in X as (Hti & Hki & _). cbn [fst snd].
      f_equal. f_equal.
      * destruct (Z.eqb_spec (Z.of_nat ki) (Z.of_nat k)); destruct (Nat.eqb_spec ki k); try reflexivity; lia.
      * assert (Eb1 : bin_edge dt 0 (INR T * dt) T t = INR t * dt). { unfold bin_edge. destruct (Nat.eqb_spec t T); [lia|ring]. }
        assert (Eb2 : bin_edge dt 0 (INR T * dt) T (S t) = INR (S t) * dt). { unfold bin_edge. destruct (Nat.eqb_spec (S t) T) as [<-|]; [reflexivity|ring]. }
        rewrite Eb1, Eb2. specialize (Hr i). destruct (Nat.eqb_spec ti t) as [->|Hne].
        -- unfold in_bin. replace (Rleb (INR t * dt) (dt * (INR t + rand i))) with true by (symmetry; apply Rleb_true; nra).
           rewrite S_INR. destruct (S t =? T)%nat; cbn [andb]; [apply Rleb_true|apply Rltb_true]; nra.
        -- unfold in_bin. destruct (Nat.lt_ge_cases ti t) as [Hlt'|Hge].
           ++ assert (INR (ti + 1) <= INR t) by (apply le_INR; lia). rewrite plus_INR in H. cbn [INR] in H.
              replace (Rleb (INR t * dt) (dt * (INR ti + rand i))) with false by (symmetry; apply Rleb_false; nra). reflexivity.
           ++ assert (INR (t + 1) <= INR ti) by (apply le_INR; lia). rewrite plus_INR in H. cbn [INR] in H.
              replace (S t =? T)%nat with false by (symmetry; apply Nat.eqb_neq; lia).
              replace (Rltb (dt * (INR ti + rand i)) (INR (S t) * dt)) with false by (symmetry; apply Rltb_false; rewrite S_INR; nra). apply andb_false_r.
    + intros t k Ht Hk1 Hk2. destruct (Z.eq_dec (S_ t k) 0) as [|Hne]; [auto|]. exfalso. assert (In k C') by (apply (HCin t); auto; specialize (Hnn t k Ht Hk2); lia).
      specialize (Hlt (Z.of_nat k) (in_map _ _ _ H)). lia.
    + split.
      * intros ->. apply in_map_iff in Hlast as (c & Ec' & Hc). assert (c = (K - 1)%nat) as -> by lia. auto.
      * intros (t & Ht & Hp). assert (In (K - 1)%nat C') by (apply (HCin t); auto; lia). specialize (Hlt _ (in_map _ _ _ H)). lia.
  - intros Hz. assert (Hr0 : raw T K S_ = []).
    { destruct (raw T K S_) as [|[t k] l] eqn:Er; [reflexivity|]. assert (X : In (t, k) (raw T K S_)) by (rewrite Er; now left). apply in_raw in X as (A & B & D). rewrite Hz in D by auto. lia. }
    rewrite Hr0 in HP. cbn in HP. apply Permutation_sym, Permutation_nil in HP. assert (S' = []) as -> by (destruct S', C'; try easy).
    split; [reflexivity|]. apply Hbad. intros (X & _). now apply X.
Qed.

(** Two processes, the second silent: the way back has one column. *)
Theorem C66_round_trip_refuted :
  exists rand argsort S_ S' C' T' K' cnt, (forall t k, (t < 1)%nat -> (k < 2)%nat -> (0 <= S_ t k)%Z) /\ (forall i, 0 <= rand i < 1) /\
    discrete_to_continuous rand argsort 1 2 S_ 1 = Ok (S', C', INR 1 * 1) /\
    continuous_to_discrete S' (map Z.of_nat C') 1 0 (INR 1 * 1) = Ok (T', K', cnt) /\ K' = 1%nat.
Proof.
  exists (fun _ => 0), (fun l => seq 0 (length l)), (fun _ k => if Nat.eqb k 0 then 1%Z else 0%Z), [1 * 0 + 1 * 0], [0%nat].
  destruct (@C66_binning [1 * 0 + 1 * 0] (map Z.of_nat [0%nat]) 1 0 (INR 1 * 1) ltac:(lra) eq_refl) as [Hok _].
  destruct Hok as (T' & K' & cnt & E & _ & _ & HK' & Hl & _).
  { cbn. split; [discriminate|]. split; [lra|]. split; [intros s [<-|[]]; lra|]. intros c [<-|[]]. lia. }
  exists T', K', cnt. split; [intros t k _ _; destruct (k =? 0)%nat; lia|]. split; [intros; lra|]. split; [|split; [exact E|]].
  - unfold discrete_to_continuous. cbn. change (Pos.to_nat 1) with 1%nat. cbn. replace (Rltb (1 * 0 + 1 * 0) (1 * 1)) with true by (symmetry; apply Rltb_true; lra). reflexivity.
  - cbn in Hl. destruct Hl as [Hl|[]]. lia.
Qed.
(** Sorting positions exists. *)
Example C66_nonvacuous : exists S_ : imat, (forall t k, (t < 2)%nat -> (k < 2)%nat -> (0 <= S_ t k)%Z) /\ (0 < S_ 1%nat 1%nat)%Z.
Proof. exists (fun t k => Z.of_nat (t + k)). split; [intros; lia|cbn; lia]. Qed.
Print Assumptions C66_round_trip_partial.
