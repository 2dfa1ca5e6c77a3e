(** * C70 (cross-correlation baseline) and C80 (smoothed firing rate). *)
From Verif Require Import Prelude Arrays ExtReal M_Utils Props_Utils.
Set Implicit Arguments.

(* ---------------- specification ---------------- *)
Definition avg (n : nat) (x : nat -> R) : R := Rsum n x / INR n.
(** centred sum of products *)
Definition csp (n : nat) (x y : nat -> R) : R := Rsum n (fun i => (x i - avg n x) * (y i - avg n y)).
(** Pearson correlation of n paired observations; undefined (NaN) with fewer than two observations or a constant series. *)
Definition pearson (n : nat) (x y : nat -> R) : er :=
  if (Nat.leb 2 n && Rltb 0 (csp n x x) && Rltb 0 (csp n y y))%bool then Fin (csp n x y / sqrt (csp n x x * csp n y y)) else NaN.

(* ---------------- Cauchy-Schwarz ---------------- *)
Lemma sq0 a : 0 <= a * a. Proof. exact (Rle_0_sqr a). Qed.
Lemma sq_eq0 a : a * a = 0 -> a = 0. Proof. apply Rsqr_0_uniq. Qed.
Lemma csp_nonneg n x : 0 <= csp n x x.
Proof. apply Rsum_nonneg. intros i _. apply sq0. Qed.
Lemma cauchy_schwarz n (x y : nat -> R) :
  Rsum n (fun i => x i * y i) * Rsum n (fun i => x i * y i) <= Rsum n (fun i => x i * x i) * Rsum n (fun i => y i * y i).
Proof.
  set (B := Rsum n (fun i => y i * y i)). set (A := Rsum n (fun i => x i * x i)). set (D := Rsum n (fun i => x i * y i)).
  assert (HB : 0 <= B) by (apply Rsum_nonneg; intros; apply sq0).
  assert (HT : forall t, 0 <= A - 2 * t * D + t * t * B).
  { intros t. unfold A, B, D. rewrite <- !Rsum_scal, <- Rsum_minus, <- Rsum_plus. apply Rsum_nonneg. intros i _.
    replace (x i * x i - 2 * t * (x i * y i) + t * t * (y i * y i)) with ((x i - t * y i) * (x i - t * y i)) by ring. apply sq0. }
  destruct (Rle_lt_or_eq_dec _ _ HB) as [H|H].
  - specialize (HT (D / B)). assert (E : A - 2 * (D / B) * D + D / B * (D / B) * B = A - D * D / B) by (field; lra). rewrite E in HT.
    apply Rmult_le_reg_r with (/ B); [now apply Rinv_0_lt_compat|]. rewrite (Rmult_assoc A), Rinv_r, Rmult_1_r by lra. unfold Rdiv in HT. lra.
  - assert (Hy : forall i, (i < n)%nat -> y i * y i = 0).
    { intros i Hi. apply (@Rsum_nonneg_zero n (fun i => y i * y i)); auto. intros; apply sq0. }
    assert (D = 0). { unfold D. apply Rsum_0. intros i Hi. specialize (Hy i Hi). apply sq_eq0 in Hy. rewrite Hy. ring. }
    rewrite H0, <- H. lra.
Qed.
Lemma csp_zero n x y : csp n x x = 0 -> csp n x y = 0 /\ csp n y x = 0.
Proof.
  intros H. assert (Hx : forall i, (i < n)%nat -> (x i - avg n x) = 0).
  { intros i Hi. assert ((x i - avg n x) * (x i - avg n x) = 0); [|now apply sq_eq0]. apply (@Rsum_nonneg_zero n (fun i => (x i - avg n x) * (x i - avg n x))); auto. intros; apply sq0. }
  split; apply Rsum_0; intros i Hi; rewrite Hx by exact Hi; ring.
Qed.

Lemma corrcoef_pearson n x y : corrcoef n x y = pearson n x y.
Proof.
  unfold corrcoef, cov, pearson. change (mean n) with (avg n). fold (csp n x y). fold (csp n x x). fold (csp n y y).
  destruct (Nat.leb_spec n 1) as [Hn|Hn].
  { replace (Nat.leb 2 n) with false by (symmetry; apply Nat.leb_gt; lia). reflexivity. }
  replace (Nat.leb 2 n) with true by (symmetry; apply Nat.leb_le; lia). cbn [andb].
  assert (Hc : 0 < 1 / INR (n - 1)) by (apply Rdiv_lt_0_compat; [lra|apply (lt_INR 0); lia]). set (c := 1 / INR (n - 1)) in *. clearbody c.
  assert (Hx := csp_nonneg n x). assert (Hy := csp_nonneg n y). unfold esqrt.
  replace (Rltb (csp n x x * c) 0) with false by (symmetry; apply Rltb_false; nra). replace (Rltb (csp n y y * c) 0) with false by (symmetry; apply Rltb_false; nra).
  destruct (Rltb 0 (csp n x x)) eqn:Ex; cbn [andb].
  2:{ apply Rltb_false in Ex. assert (Z : csp n x x = 0) by lra. rewrite Z, (proj1 (@csp_zero n x y Z)), Rmult_0_l, sqrt_0, ediv_0_0. reflexivity. }
  apply Rltb_true in Ex. assert (S1 : 0 < sqrt (csp n x x * c)) by (apply sqrt_lt_R0; nra). rewrite ediv_fin by lra.
  destruct (Rltb 0 (csp n y y)) eqn:Ey.
  2:{ apply Rltb_false in Ey. assert (Z : csp n y y = 0) by lra. rewrite Z, (proj2 (@csp_zero n y x Z)), Rmult_0_l. unfold Rdiv. rewrite ?Rmult_0_l, sqrt_0, ediv_0_0. reflexivity. }
  apply Rltb_true in Ey. assert (S2 : 0 < sqrt (csp n y y * c)) by (apply sqrt_lt_R0; nra). rewrite ediv_fin by lra. cbn [eclip1]. f_equal.
  assert (S3 : 0 < sqrt (csp n x x * csp n y y)) by (apply sqrt_lt_R0; nra).
  assert (Ev : csp n x y * c / sqrt (csp n x x * c) / sqrt (csp n y y * c) = csp n x y / sqrt (csp n x x * csp n y y)).
  { assert (Em : sqrt (csp n x x * c) * sqrt (csp n y y * c) = c * sqrt (csp n x x * csp n y y)).
    { rewrite <- sqrt_mult by nra. replace (csp n x x * c * (csp n y y * c)) with (c * c * (csp n x x * csp n y y)) by ring. rewrite sqrt_mult by nra. now rewrite sqrt_square by lra. }
    unfold Rdiv. rewrite Rmult_assoc, <- Rinv_mult, Em. field. lra. }
  rewrite Ev. assert (CS := cauchy_schwarz n (fun i => x i - avg n x) (fun i => y i - avg n y)). cbv beta in CS. fold (csp n x y) in CS. fold (csp n x x) in CS. fold (csp n y y) in CS.
  set (s := sqrt (csp n x x * csp n y y)) in *. assert (Es : s * s = csp n x x * csp n y y) by (apply sqrt_sqrt; nra).
  assert (-1 <= csp n x y / s <= 1).
  { split; apply Rmult_le_reg_r with s; try exact S3; unfold Rdiv; rewrite Rmult_assoc, Rinv_l by lra; nra. }
  unfold clip. rewrite Rmax_left, Rmin_left by lra. reflexivity.
Qed.

(* ---------------- tiling ---------------- *)
Section Tiling.
Variables (N T dt : nat) (S_ : mat).
Definition target (i j : nat) : er := corrcoef (T - dt) (fun t => S_ t i) (fun t => S_ (dt + t)%nat j).
Lemma write_block_spec n1 n2 H i j :
  write_block N T dt S_ n1 n2 H i j =
  if (Nat.leb n1 i && Nat.ltb i (Nat.min (n1 + 16) N) && Nat.leb n2 j && Nat.ltb j (Nat.min (n2 + 16) N))%bool then target i j else H i j.
Proof.
  unfold write_block. set (n1c := Nat.min (n1 + 16) N). set (n2c := Nat.min (n2 + 16) N).
  destruct (Nat.leb_spec n1 i); cbn [andb]; [|reflexivity]. destruct (Nat.ltb_spec i n1c); cbn [andb]; [|reflexivity].
  destruct (Nat.leb_spec n2 j); cbn [andb]; [|reflexivity]. destruct (Nat.ltb_spec j n2c); [|reflexivity].
  replace (Nat.ltb (i - n1) (n1c - n1)) with true by (symmetry; apply Nat.ltb_lt; lia).
  replace (Nat.ltb (n1c - n1 + (j - n2)) (n1c - n1)) with false by (symmetry; apply Nat.ltb_ge; lia).
  replace (n1 + (i - n1))%nat with i by lia. replace (n2 + (n1c - n1 + (j - n2) - (n1c - n1)))%nat with j by lia. reflexivity.
Qed.
Lemma inner_fold n1 l H i j : (fold_left (fun H n2 => write_block N T dt S_ n1 n2 H) l H i j = target i j \/
    fold_left (fun H n2 => write_block N T dt S_ n1 n2 H) l H i j = H i j) /\
  (H i j = target i j \/ ((n1 <= i)%nat /\ (i < Nat.min (n1 + 16) N)%nat /\ exists n2, In n2 l /\ (n2 <= j)%nat /\ (j < Nat.min (n2 + 16) N)%nat) ->
   fold_left (fun H n2 => write_block N T dt S_ n1 n2 H) l H i j = target i j).
Proof.
  revert H. induction l as [|n2 l IH]; intros H; cbn [fold_left]; [split; [now right|]; intros [X|(_ & _ & n2 & [] & _)]; exact X|].
  destruct (IH (write_block N T dt S_ n1 n2 H)) as [A B]. pose proof (write_block_spec n1 n2 H i j) as W. split.
  - destruct A as [A|A]; [now left|]. rewrite A, W. match goal with |- context [if ?b then _ else _] => destruct b end; auto.
  - intros X. apply B. rewrite W. match goal with |- context [if ?b then _ else _] => destruct b eqn:E end; [now left|].
    destruct X as [X|(H1 & H2 & n2' & [<-|Hin] & H3 & H4)]; [now left| |right; split; [exact H1|]; split; [exact H2|]; exists n2'; auto].
    exfalso. apply Bool.andb_false_iff in E as [E|E]; [apply Bool.andb_false_iff in E as [E|E]; [apply Bool.andb_false_iff in E as [E|E]|]|];
      rewrite ?Nat.leb_gt, ?Nat.ltb_ge in E; lia.
Qed.
Lemma outer_fold ls l H i j :
  (H i j = target i j \/ exists n1, In n1 l /\ (n1 <= i)%nat /\ (i < Nat.min (n1 + 16) N)%nat /\ exists n2, In n2 ls /\ (n2 <= j)%nat /\ (j < Nat.min (n2 + 16) N)%nat) ->
  fold_left (fun H n1 => fold_left (fun H n2 => write_block N T dt S_ n1 n2 H) ls H) l H i j = target i j.
Proof.
  revert H. induction l as [|n1 l IH]; intros H X; cbn [fold_left]; [destruct X as [X|(n1 & [] & _)]; exact X|].
  destruct (inner_fold n1 ls H i j) as [A B]. apply IH. destruct X as [X|(n1' & [<-|Hin] & H1 & H2 & H3)].
  - left. apply B. now left.
  - left. apply B. right. auto.
  - right. exists n1'. auto.
Qed.
Lemma start_of i : (i < N)%nat -> In (16 * (i / 16))%nat (starts N) /\ (16 * (i / 16) <= i)%nat /\ (i < Nat.min (16 * (i / 16) + 16) N)%nat.
Proof.
  intros Hi. assert (E := Nat.div_mod i 16 ltac:(lia)). assert (M := Nat.mod_upper_bound i 16 ltac:(lia)). split; [|lia].
  unfold starts. apply in_map_iff. exists (i / 16)%nat. split; [reflexivity|]. apply in_seq. split; [lia|]. cbn [plus].
  apply Nat.div_lt_upper_bound; [lia|]. assert (E' := Nat.div_mod (N + 15) 16 ltac:(lia)). assert (M' := Nat.mod_upper_bound (N + 15) 16 ltac:(lia)). lia.
Qed.
End Tiling.

(** ** C70: every pair and lag is the correlation of the earlier series i with the series j shifted by the lag. *)
Theorem C70_cross_correlation :
  forall N T dtmax S_, (dtmax <= S T)%nat ->
    exists H, xcorr N T dtmax S_ = Ok H /\
      forall i j d, (i < N)%nat -> (j < N)%nat -> (d < dtmax)%nat ->
        let r := pearson (T - d) (fun t => S_ t i) (fun t => S_ (t + d)%nat j) in
        H i j d = if (Nat.eqb d 0 && Nat.eqb i j)%bool then esub r r else r.
Proof.
  intros N T dtmax S_ Hd. unfold xcorr.
  assert (G : forall_lt dtmax (fun dt => slices_match T dt || Nat.eqb N 0)%bool = true).
  { apply forall_lt_true. intros d Hdd. unfold slices_match. replace (Nat.leb d T) with true by (symmetry; apply Nat.leb_le; lia). reflexivity. }
  rewrite G. cbn [guard bindr]. eexists. split; [reflexivity|]. intros i j d Hi Hj Hdd. set (r := pearson (T - d) (fun t => S_ t i) (fun t => S_ (t + d)%nat j)). cbv beta. unfold xcorr_lag.
  assert (E : forall i j, (i < N)%nat -> (j < N)%nat -> fold_left (fun H n1 => fold_left (fun H n2 => write_block N T d S_ n1 n2 H) (starts N) H) (starts N) (fun _ _ => Fin 0) i j
     = pearson (T - d) (fun t => S_ t i) (fun t => S_ (t + d)%nat j)).
  { intros a b Ha Hb. rewrite outer_fold.
    - unfold target. rewrite corrcoef_pearson. f_equal. apply FunctionalExtensionality.functional_extensionality. intros t. now rewrite Nat.add_comm.
    - right. destruct (@start_of N a Ha) as (A1 & A2 & A3). destruct (@start_of N b Hb) as (B1 & B2 & B3). exists (16 * (a / 16))%nat. split; [exact A1|]. split; [exact A2|]. split; [exact A3|].
      exists (16 * (b / 16))%nat. auto. }
  destruct (Nat.eqb_spec d 0) as [->|Hne]; cbn [andb]; [|apply E; auto].
  rewrite !E by auto. fold r. destruct (Nat.eqb_spec i j) as [<-|]; [reflexivity|]. unfold r. destruct (pearson (T - 0) _ _); cbn; auto. now rewrite Ropp_0, Rplus_0_r.
Qed.
(** Zero on the diagonal at lag zero exactly for series that are not constant; for a constant (e.g. silent) process it is NaN, and so is its
    whole row and column, also in the summed scores. *)
Theorem C70_zero_lag_diagonal :
  forall N T dtmax S_ H i, (0 < dtmax <= S T)%nat -> xcorr N T dtmax S_ = Ok H -> (i < N)%nat -> (2 <= T)%nat ->
    (H i i 0%nat = Fin 0 <-> 0 < csp T (fun t => S_ t i) (fun t => S_ t i)) /\
    ((forall t, (t < T)%nat -> S_ t i = S_ 0%nat i) -> forall j d, (j < N)%nat -> (d < dtmax)%nat -> H i j d = NaN).
Proof.
  intros N T dtmax S_ H i [Hd1 Hd2] EH Hi HT. destruct (C70_cross_correlation N S_ Hd2) as (H' & EH' & Hspec). rewrite EH in EH'. injection EH' as <-.
  assert (E0 : (fun t => S_ (t + 0)%nat i) = (fun t => S_ t i)) by (apply FunctionalExtensionality.functional_extensionality; intros t; now rewrite Nat.add_0_r).
  split.
  - rewrite (Hspec i i 0%nat Hi Hi Hd1). rewrite !Nat.eqb_refl. cbn [andb]. rewrite E0, Nat.sub_0_r. unfold pearson. replace (Nat.leb 2 T) with true by (symmetry; apply Nat.leb_le; lia).
    destruct (Rltb 0 (csp T (fun t => S_ t i) (fun t => S_ t i))) eqn:E; cbn [andb].
    + apply Rltb_true in E. split; [intros _; exact E|]. intros _. rewrite esub_fin. f_equal. lra.
    + apply Rltb_false in E. split; [discriminate|]. intros; lra.
  - intros Hc j d Hj Hdd. rewrite (Hspec i j d Hi Hj Hdd). unfold pearson.
    destruct (Nat.leb 2 (T - d)) eqn:El; cbn [andb]; [|destruct (_ && _)%bool; reflexivity]. apply Nat.leb_le in El.
    assert (Z : csp (T - d) (fun t => S_ t i) (fun t => S_ t i) = 0).
    { assert (A : avg (T - d) (fun t => S_ t i) = S_ 0%nat i).
      { unfold avg. rewrite (@Rsum_ext _ _ (fun _ => S_ 0%nat i)) by (intros; apply Hc; lia). rewrite Rsum_const. field. apply not_0_INR. lia. }
      apply Rsum_0. intros t Ht. rewrite A, Hc by lia. ring. }
    rewrite Z. replace (Rltb 0 0) with false by (symmetry; apply Rltb_false; lra). cbn [andb]. destruct (_ && _)%bool; reflexivity.
Qed.
(** The score of a pair is the sum over lags of the absolute correlations, after smoothing if asked for. *)
Theorem C70_scores :
  forall N T dtmax S_, (dtmax <= S T)%nat -> exists H F, xcorr N T dtmax S_ = Ok H /\ infer_net_from_xcorr N T dtmax S_ None = Ok F /\
    (forall i j r, (forall d, (d < dtmax)%nat -> H i j d = Fin (r d)) -> F i j = Fin (Rsum dtmax (fun d => Rabs (r d)))).
Proof.
  intros N T dtmax S_ Hd. destruct (C70_cross_correlation N S_ Hd) as (H & EH & _). exists H. unfold infer_net_from_xcorr. rewrite EH. cbn [bindr].
  eexists. split; [reflexivity|]. split; [reflexivity|]. intros i j r Hr. cbv beta. apply esum_fin. intros d Hdd. now rewrite Hr.
Qed.
Theorem C70_moving_average :
  forall T window a i, (1 <= window)%nat -> (i + window <= T)%nat -> moving_average T window a i = Rsum window (fun j => a (i + j)%nat) / INR window.
Proof.
  intros T w a i Hw Hi. unfold moving_average. f_equal. destruct i as [|i].
  - replace (w - 1 + 0)%nat with (w - 1)%nat by lia. replace (Nat.leb w (w - 1)) with false by (symmetry; apply Nat.leb_gt; lia). now replace (S (w - 1)) with w by lia.
  - replace (Nat.leb w (w - 1 + S i)) with true by (symmetry; apply Nat.leb_le; lia). replace (S (w - 1 + S i)) with (S i + w)%nat by lia.
    replace (S (w - 1 + S i - w)) with (S i) by lia. rewrite Rsum_app. ring.
Qed.
Lemma avg_ext n x x' : (forall i, (i < n)%nat -> x i = x' i) -> avg n x = avg n x'.
Proof. intros H. unfold avg. now rewrite (@Rsum_ext n x x') by exact H. Qed.
Lemma csp_ext n x x' y y' : (forall i, (i < n)%nat -> x i = x' i /\ y i = y' i) -> csp n x y = csp n x' y'.
Proof.
  intros H. unfold csp. rewrite (@avg_ext n x x') by (intros; now apply H). rewrite (@avg_ext n y y') by (intros; now apply H).
  apply Rsum_ext; intros i Hi. destruct (H i Hi) as [-> ->]. reflexivity.
Qed.
Lemma pearson_ext n x x' y y' : (forall i, (i < n)%nat -> x i = x' i /\ y i = y' i) -> pearson n x y = pearson n x' y'.
Proof.
  intros H. unfold pearson. rewrite (@csp_ext n x x' x x') by (intros i Hi; split; now apply H).
  rewrite (@csp_ext n y y' y y') by (intros i Hi; split; now apply H). now rewrite (@csp_ext n x x' y y') by exact H.
Qed.
(** With a smoothing window the scores are those of the window means: series of length T - window + 1. *)
Theorem C70_smoothed_scores :
  forall N T dtmax S_ w, (1 <= w <= T)%nat -> (dtmax <= S (T + 1 - w))%nat ->
  let M := fun t k => Rsum w (fun j => S_ (t + j)%nat k) / INR w in
  exists F, infer_net_from_xcorr N T dtmax S_ (Some w) = Ok F /\
    forall i j r, (i < N)%nat -> (j < N)%nat -> i <> j ->
      (forall d, (d < dtmax)%nat -> pearson (T + 1 - w - d) (fun t => M t i) (fun t => M (t + d)%nat j) = Fin (r d)) ->
      F i j = Fin (Rsum dtmax (fun d => Rabs (r d))).
Proof.
  intros N T dtmax S_ w Hw Hd M.
  destruct (@C70_cross_correlation N (T + 1 - w) dtmax (fun t k => moving_average T w (fun t => S_ t k) t) Hd) as (H & EH & Hs).
  unfold infer_net_from_xcorr. rewrite EH. cbn [bindr]. eexists. split; [reflexivity|].
  intros i j r Hi Hj Hij Hr. cbv beta. apply esum_fin. intros d Hdd. rewrite (Hs i j d Hi Hj Hdd).
  replace (Nat.eqb i j) with false by (symmetry; now apply Nat.eqb_neq). rewrite andb_false_r.
  rewrite (@pearson_ext _ _ (fun t => M t i) _ (fun t => M (t + d)%nat j)).
  - now rewrite Hr.
  - intros t Ht. unfold M. rewrite !C70_moving_average by lia. split; reflexivity.
Qed.
Print Assumptions C70_smoothed_scores.
Example C70_nonvacuous : exists S_ : mat, 0 < csp 2 (fun t => S_ t 0%nat) (fun t => S_ t 0%nat).
Proof. exists (fun t _ => INR t). unfold csp, avg. cbn. lra. Qed.

(* ---------------- C80 ---------------- *)
Lemma kernel_pos bw j : 0 < kernel bw j.
Proof. unfold kernel. apply Rdiv_lt_0_compat; [apply exp_pos|]. cbn [Rsum]. unfold kernel_raw. repeat apply Rplus_le_lt_0_compat; try apply exp_pos; try lra; repeat (apply Rplus_le_le_0_compat; [|apply Rlt_le, exp_pos]); lra. Qed.
Lemma kernel_sum bw : Rsum 9 (kernel bw) = 1.
Proof.
  unfold kernel. rewrite Rsum_div. apply Rinv_r. assert (0 < Rsum 9 (kernel_raw bw)); [|lra]. apply Rsum_pos; [lia|]. intros i _. apply exp_pos.
Qed.
Lemma avg_bounds n (f : nat -> R) lo hi : (0 < n)%nat -> (forall i, (i < n)%nat -> lo <= f i <= hi) -> lo <= Rsum n f / INR n <= hi.
Proof.
  intros Hn H. assert (HI : 0 < INR n) by (apply (lt_INR 0); lia).
  assert (A : INR n * lo <= Rsum n f) by (rewrite <- Rsum_const; apply Rsum_le; intros; now apply H).
  assert (B : Rsum n f <= INR n * hi) by (rewrite <- Rsum_const; apply Rsum_le; intros; now apply H).
  split; apply Rmult_le_reg_r with (INR n); try exact HI; unfold Rdiv; rewrite Rmult_assoc, Rinv_l by lra; lra.
Qed.
(** ** C80: the estimate is a weighted average of the binned rates: it stays between their extremes (so it is non-negative, and a constant
    rate is returned unchanged), and a binned rate is the number of events in the bin divided by its width. *)
Theorem C80_smoothed_rate :
  forall S_ T0 T1 Nb, (0 < Nb)%nat -> T0 < T1 ->
    exists r, approximate_firing_rate S_ T0 T1 Nb = Ok r /\
      (forall lo hi, (forall i, (i < Nb)%nat -> lo <= binned_rate S_ T0 T1 Nb i <= hi) -> forall i, (i < Nb)%nat -> lo <= r i <= hi) /\
      (forall i, (i < Nb)%nat -> 0 <= r i) /\
      (forall i, (4 <= i)%nat -> (i + 4 < Nb)%nat ->
         exists w, (forall j, (j < 9)%nat -> 0 < w j /\ w j = w (8 - j)%nat) /\ Rsum 9 w = 1 /\ r i = Rsum 9 (fun j => w j * binned_rate S_ T0 T1 Nb (i + 4 - j))).
Proof.
  intros S_ T0 T1 Nb HN HT. unfold approximate_firing_rate. replace (Nat.ltb 0 Nb) with true by (symmetry; now apply Nat.ltb_lt).
  replace (Rltb T0 T1) with true by (symmetry; now apply Rltb_true). cbn [andb guard bindr]. eexists. split; [reflexivity|]. cbv beta zeta.
  set (fr := binned_rate S_ T0 T1 Nb). set (m := Nat.min 9 Nb). set (bw := (T1 - T0) / INR Nb).
  set (pad := fun n => if Nat.ltb n 9 then Rsum m fr / INR m else if Nat.ltb n (9 + Nb) then fr (n - 9)%nat else Rsum m (fun i => fr (Nb - m + i)%nat) / INR m).
  assert (Hm : (0 < m <= Nb)%nat) by (unfold m; lia).
  assert (Ec : forall i, (i < Nb)%nat -> convolve_same9 (Nb + 18) pad (kernel bw) (i + 9) = Rsum 9 (fun j => kernel bw j * pad (i + 13 - j)%nat)).
  { intros i Hi. unfold convolve_same9. apply Rsum_ext. intros j Hj. replace (Nat.leb j (i + 9 + 4)) with true by (symmetry; apply Nat.leb_le; lia).
    replace (Nat.ltb (i + 9 + 4 - j) (Nb + 18)) with true by (symmetry; apply Nat.ltb_lt; lia). cbn [andb]. now replace (i + 9 + 4 - j)%nat with (i + 13 - j)%nat by lia. }
  assert (Hb : forall lo hi, (forall i, (i < Nb)%nat -> lo <= fr i <= hi) -> forall i, (i < Nb)%nat -> lo <= convolve_same9 (Nb + 18) pad (kernel bw) (i + 9) <= hi).
  { intros lo hi Hfr i Hi. rewrite Ec by exact Hi.
    assert (Hp : forall n, lo <= pad n <= hi).
    { intros n. unfold pad. destruct (Nat.ltb_spec n 9); [apply avg_bounds; [lia|intros; apply Hfr; lia]|]. destruct (Nat.ltb_spec n (9 + Nb)); [apply Hfr; lia|].
      apply avg_bounds; [lia|intros; apply Hfr; lia]. }
    assert (E1 : lo = Rsum 9 (fun j => kernel bw j * lo)) by (rewrite Rsum_scal_r, kernel_sum; ring).
    assert (E2 : hi = Rsum 9 (fun j => kernel bw j * hi)) by (rewrite Rsum_scal_r, kernel_sum; ring).
    split; [rewrite E1|rewrite E2]; apply Rsum_le; intros j Hj; apply Rmult_le_compat_l; try (apply Rlt_le, kernel_pos); apply Hp. }
  split; [exact Hb|]. split.
  - intros i Hi. assert (Hbw : 0 < bw) by (apply Rdiv_lt_0_compat; [lra|apply (lt_INR 0); lia]).
    assert (Hnn : forall i, 0 <= fr i).
    { intros k. unfold fr, binned_rate. apply Rmult_le_pos; [apply IZR_le; unfold histogram; lia|apply Rlt_le, Rinv_0_lt_compat; exact Hbw]. }
    apply (Hb 0 (Rsum Nb fr)); [|exact Hi]. intros k Hk. split; [apply Hnn|]. apply Rsum_term_le; auto.
  - intros i Hi1 Hi2. exists (kernel bw). split; [|split; [apply kernel_sum|]].
    + intros j Hj. split; [apply kernel_pos|]. unfold kernel. f_equal. unfold kernel_raw. f_equal. rewrite minus_INR by lia. cbn [INR]. ring.
    + rewrite Ec by lia. apply Rsum_ext. intros j Hj. f_equal. unfold pad. replace (Nat.ltb (i + 13 - j) 9) with false by (symmetry; apply Nat.ltb_ge; lia).
      replace (Nat.ltb (i + 13 - j) (9 + Nb)) with true by (symmetry; apply Nat.ltb_lt; lia). f_equal. lia.
Qed.
(** The binned rate counts the events of the bin. *)
Theorem C80_binned_rate :
  forall S_ T0 T1 Nb i, (i < Nb)%nat -> T0 < T1 ->
    let w := (T1 - T0) / INR Nb in
    binned_rate S_ T0 T1 Nb i * w = IZR (Z.of_nat (length (filter (in_bin (Nat.eqb (S i) Nb) (T0 + INR i * w) (T0 + INR (S i) * w)) S_))).
Proof.
  intros S_ T0 T1 Nb i Hi HT w. unfold binned_rate. cbv zeta. fold w.
  assert (HN : 0 < INR Nb) by (apply (lt_INR 0); lia). assert (Hw : 0 < w) by (apply Rdiv_lt_0_compat; lra).
  assert (Ew : T0 + INR Nb * w = T1) by (unfold w; field; lra).
  set (edge := fun i => if Nat.eqb i Nb then T1 else T0 + INR i * w).
  assert (Ee : forall k, (k <= Nb)%nat -> edge k = T0 + INR k * w) by (intros k _; unfold edge; destruct (Nat.eqb_spec k Nb) as [->|]; auto).
  unfold Rdiv. rewrite Rmult_assoc, Rinv_l, Rmult_1_r by lra. f_equal. rewrite histogram_bin; [|exact Hi|].
  - now rewrite !Ee by lia.
  - intros k Hk. rewrite !Ee by lia. rewrite S_INR. lra.
Qed.
Print Assumptions C70_cross_correlation.
Print Assumptions C80_smoothed_rate.
