(** * L_Perron: a non-negative matrix without real eigenvalue >= 1 (with non-negative eigenvector) contracts some positive vector. *)
From Verif Require Import Prelude Arrays.
From Coq Require Import ConstructiveEpsilon Classical.
From Coquelicot Require Import Coquelicot.
Set Implicit Arguments.
Open Scope R_scope.

(** ** Convergent subsequences of bounded sequences of vectors *)
Lemma cluster_1 (x : nat -> R) M : (forall n, Rabs (x n) <= M) ->
  exists l, forall eps N, 0 < eps -> exists p, (N < p)%nat /\ Rabs (x p - l) < eps.
Proof.
  intros H. destruct (Bolzano_Weierstrass x (fun c => - M <= c <= M)) as (l & Hl).
  - apply compact_P3.
  - intros n. specialize (H n). unfold Rabs in H. destruct (Rcase_abs (x n)); lra.
  - exists l. intros eps N He.
    destruct (Hl (disc l (mkposreal eps He)) (S N)) as (p & Hp & Hd).
    + exists (mkposreal eps He). intros y Hy. exact Hy.
    + exists p. split; [lia|exact Hd].
Qed.

Lemma subseq_1 (x : nat -> R) M : (forall n, Rabs (x n) <= M) ->
  exists (phi : nat -> nat) (l : R), (forall n, (phi n < phi (S n))%nat) /\ is_lim_seq (fun n => x (phi n)) l.
Proof.
  intros H. destruct (cluster_1 x H) as (l & Hl).
  assert (Hpick : forall N n, { p | (N < p)%nat /\ Rabs (x p - l) < / INR (S n) }).
  { intros N n. apply constructive_indefinite_ground_description_nat.
    - intros p. destruct (lt_dec N p); [|right; tauto]. destruct (Rlt_dec (Rabs (x p - l)) (/ INR (S n))); [left; auto|right; tauto].
    - apply Hl. apply Rinv_0_lt_compat, lt_0_INR. lia. }
  set (phi := fix phi n := match n with O => proj1_sig (Hpick O O) | S k => proj1_sig (Hpick (phi k) (S k)) end).
  assert (Hphi : forall n, Rabs (x (phi n) - l) < / INR (S n)).
  { intros [|n]; unfold phi; [destruct (Hpick O O) as (p & Hp & Hq); exact Hq|]. fold phi.
    destruct (Hpick (phi n) (S n)) as (p & Hp & Hq). exact Hq. }
  exists phi, l. split.
  - intros n. unfold phi at 2. fold phi. destruct (Hpick (phi n) (S n)) as (p & Hp & Hq). exact Hp.
  - apply is_lim_seq_spec. intros eps. destruct (archimed_cor1 eps (cond_pos eps)) as (N & HN & HN0).
    exists N. intros n Hn. eapply Rlt_trans; [apply Hphi|]. eapply Rle_lt_trans; [|exact HN].
    apply Rinv_le_contravar; [now apply lt_0_INR|]. apply le_INR. lia.
Qed.

Lemma phi_grows (phi : nat -> nat) : (forall n, (phi n < phi (S n))%nat) -> forall n, (n <= phi n)%nat.
Proof. intros H. induction n as [|n IH]; [lia|]. specialize (H n). lia. Qed.

Lemma phi_filter (phi : nat -> nat) : (forall n, (phi n < phi (S n))%nat) -> filterlim phi eventually eventually.
Proof. intros H. apply eventually_subseq, H. Qed.

Lemma subseq_n d (x : nat -> nat -> R) M : (forall n k, (k < d)%nat -> Rabs (x n k) <= M) ->
  exists (phi : nat -> nat) (l : nat -> R), (forall n, (phi n < phi (S n))%nat) /\
  forall k, (k < d)%nat -> is_lim_seq (fun n => x (phi n) k) (l k).
Proof.
  induction d as [|d IH]; intros H.
  - exists (fun n => n), (fun _ => 0). split; [intros; lia|intros; lia].
  - destruct IH as (phi & l & Hphi & Hl); [intros; apply H; lia|].
    destruct (@subseq_1 (fun n => x (phi n) d) M) as (psi & l1 & Hpsi & Hl1); [intros; apply H; lia|].
    exists (fun n => phi (psi n)), (fun k => if Nat.eqb k d then l1 else l k). split.
    + intros n. specialize (Hpsi n). assert (Hm : forall a b, (a < b)%nat -> (phi a < phi b)%nat).
      { intros a b Hab. induction Hab as [|b Hab IHb]; [apply Hphi|]. specialize (Hphi b). lia. }
      now apply Hm.
    + intros k Hk. destruct (Nat.eqb_spec k d) as [->|Hn]; [exact Hl1|].
      apply (is_lim_seq_subseq (fun n => x (phi n) k) (l k) psi); [now apply phi_filter|]. apply Hl. lia.
Qed.

Lemma is_lim_Rsum n (f : nat -> nat -> R) (l : nat -> R) :
  (forall k, (k < n)%nat -> is_lim_seq (fun p => f p k) (l k)) -> is_lim_seq (fun p => Rsum n (f p)) (Rsum n l).
Proof.
  induction n as [|n IH]; intros H; cbn; [apply is_lim_seq_const|].
  apply (is_lim_seq_plus' (fun p => Rsum n (f p)) (fun p => f p n)); [apply IH; intros; apply H; lia|apply H; lia].
Qed.

(** ** Matrices *)
Definition mv (K : nat) (W : nat -> nat -> R) (x : nat -> R) (i : nat) : R := Rsum K (fun j => W i j * x j).
Definition nonneg (K : nat) (W : nat -> nat -> R) : Prop := forall i j, (i < K)%nat -> (j < K)%nat -> 0 <= W i j.

Lemma mv_le K W x y i : nonneg K W -> (i < K)%nat -> (forall j, (j < K)%nat -> x j <= y j) -> mv K W x i <= mv K W y i.
Proof. intros HW Hi H. apply Rsum_le. intros j Hj. apply Rmult_le_compat_l; auto. Qed.
Lemma mv_nonneg K W x i : nonneg K W -> (i < K)%nat -> (forall j, (j < K)%nat -> 0 <= x j) -> 0 <= mv K W x i.
Proof. intros HW Hi H. apply Rsum_nonneg. intros j Hj. apply Rmult_le_pos; auto. Qed.
Lemma mv_scal K W x c i : mv K W (fun j => c * x j) i = c * mv K W x i.
Proof. unfold mv. rewrite <- Rsum_scal. apply Rsum_ext. intros. ring. Qed.
Lemma mv_lim K W x (l : nat -> R) i : (forall j, (j < K)%nat -> is_lim_seq (fun p => x p j) (l j)) ->
  is_lim_seq (fun p => mv K W (x p) i) (mv K W l i).
Proof.
  intros H. unfold mv. apply (@is_lim_Rsum K (fun p j => W i j * x p j) (fun j => W i j * l j)). intros j Hj.
  apply (is_lim_seq_scal_l (fun p => x p j) (W i j) (l j)), H, Hj.
Qed.

(** Neumann iteration: a bounded one converges to a solution of u = b + A u. *)
Fixpoint neu (K : nat) (A : nat -> nat -> R) (b : nat -> R) (n : nat) : nat -> R :=
  match n with O => fun _ => 0 | S p => fun i => b i + mv K A (neu K A b p) i end.
Definition neu_lim (K : nat) (A : nat -> nat -> R) (b : nat -> R) (i : nat) : R := real (Lim_seq (fun n => neu K A b n i)).
Lemma neumann K A b M : nonneg K A -> (forall i, (i < K)%nat -> 0 <= b i) ->
  (forall n i, (i < K)%nat -> neu K A b n i <= M i) ->
  (forall i, (i < K)%nat -> b i <= neu_lim K A b i <= M i) /\
  (forall i, (i < K)%nat -> neu_lim K A b i = b i + mv K A (neu_lim K A b) i).
Proof.
  intros HA Hb. set (it := neu K A b). intros HM. unfold neu_lim. fold it.
  assert (Hmon : forall n i, (i < K)%nat -> it n i <= it (S n) i).
  { induction n as [|n IH]; intros i Hi.
    - cbn. specialize (Hb i Hi). unfold mv; rewrite (@Rsum_0 K); [lra|intros; ring].
    - change (it (S (S n)) i) with (b i + mv K A (it (S n)) i). change (it (S n) i) with (b i + mv K A (it n) i) at 1.
      apply Rplus_le_compat_l, mv_le; auto. }
  assert (Hcv : forall i, (i < K)%nat -> is_lim_seq (fun n => it n i) (real (Lim_seq (fun n => it n i)))).
  { intros i Hi. apply Lim_seq_correct'. apply (ex_finite_lim_seq_incr _ (M i)); [intros n; now apply Hmon|intros n; now apply HM]. }
  assert (Heq : forall i, (i < K)%nat -> real (Lim_seq (fun n => it n i)) = b i + mv K A (fun j => real (Lim_seq (fun n => it n j))) i).
  { intros i Hi. pose proof (Hcv i Hi) as H1. apply is_lim_seq_incr_1 in H1.
    assert (H2 : is_lim_seq (fun n => it (S n) i) (b i + mv K A (fun j => real (Lim_seq (fun n => it n j))) i)).
    { change (is_lim_seq (fun n => b i + mv K A (it n) i) (b i + mv K A (fun j => real (Lim_seq (fun n => it n j))) i)).
      apply is_lim_seq_plus'; [apply is_lim_seq_const|]. now apply mv_lim. }
    apply is_lim_seq_unique in H1. apply is_lim_seq_unique in H2. rewrite H1 in H2. now injection H2. }
  assert (Hge : forall n i, (i < K)%nat -> 0 <= it n i).
  { induction n as [|n IH]; intros i Hi; [cbn; lra|]. change (0 <= b i + mv K A (it n) i).
    specialize (Hb i Hi). pose proof (@mv_nonneg K A (it n) i HA Hi IH). lra. }
  split; [|exact Heq].
  intros i Hi. split.
  - change (Rbar_le (b i) (real (Lim_seq (fun n => it n i)))).
    apply (is_lim_seq_le_loc (fun _ => b i) (fun n => it n i)); [|apply is_lim_seq_const|now apply Hcv].
    exists 1%nat. intros n Hn. destruct n as [|n]; [lia|]. change (b i <= b i + mv K A (it n) i).
    pose proof (@mv_nonneg K A (it n) i HA Hi ltac:(auto)). lra.
  - change (Rbar_le (real (Lim_seq (fun n => it n i))) (M i)).
    apply (is_lim_seq_le (fun n => it n i) (fun _ => M i)); [|now apply Hcv|apply is_lim_seq_const].
    intros n. now apply HM.
Qed.

(** A positive vector that W maps strictly below lam times itself. *)
Definition contracts (K : nat) (W : nat -> nat -> R) (lam : R) : Prop :=
  exists x, (forall i, (i < K)%nat -> 0 < x i) /\ (forall i, (i < K)%nat -> mv K W x i < lam * x i).

Lemma contracts_up K W a b : contracts K W a -> a <= b -> contracts K W b.
Proof.
  intros (x & Hx & H) Hab. exists x. split; [auto|]. intros i Hi. specialize (H i Hi). specialize (Hx i Hi). nra.
Qed.
(** Finitely many strict inequalities have a common slack. *)
Lemma common_slack K (s : nat -> R) : (forall i, (i < K)%nat -> 0 < s i) -> exists e, 0 < e /\ forall i, (i < K)%nat -> e <= s i.
Proof.
  induction K as [|K IH]; intros H; [exists 1; split; [lra|intros; lia]|].
  destruct IH as (e & He & H1); [intros; apply H; lia|]. exists (Rmin e (s K)). split.
  - apply Rmin_pos; [auto|apply H; lia].
  - intros i Hi. destruct (Nat.eq_dec i K) as [->|Hn]; [apply Rmin_r|]. eapply Rle_trans; [apply Rmin_l|]. apply H1. lia.
Qed.
Lemma common_bound K (s : nat -> R) : exists B, 0 < B /\ forall i, (i < K)%nat -> s i <= B.
Proof.
  induction K as [|K (B & HB & H)]; [exists 1; split; [lra|intros; lia]|].
  exists (Rmax B (s K)). split; [eapply Rlt_le_trans; [exact HB|apply Rmax_l]|].
  intros i Hi. destruct (Nat.eq_dec i K) as [->|Hn]; [apply Rmax_r|]. eapply Rle_trans; [|apply Rmax_l]. apply H. lia.
Qed.
Lemma contracts_open K W a : contracts K W a -> exists e, 0 < e /\ contracts K W (a - e).
Proof.
  intros (x & Hx & H). destruct (@common_slack K (fun i => (a * x i - mv K W x i) / x i)) as (e & He & Hs).
  { intros i Hi. apply Rdiv_lt_0_compat; [specialize (H i Hi); lra|auto]. }
  exists (e / 2). split; [lra|]. exists x. split; [auto|]. intros i Hi. specialize (Hs i Hi). specialize (Hx i Hi). specialize (H i Hi).
  assert (e * x i <= a * x i - mv K W x i).
  { apply (Rmult_le_compat_r (x i)) in Hs; [|lra]. unfold Rdiv in Hs. rewrite Rmult_assoc, Rinv_l, Rmult_1_r in Hs by lra. exact Hs. }
  nra.
Qed.

(** Resolvent: if W contracts at lam > 0, then lam u = b + W u has a non-negative solution. *)
Lemma resolvent K W lam : nonneg K W -> 0 < lam -> contracts K W lam ->
  let u := neu_lim K (fun i j => W i j / lam) (fun _ => / lam) in
  (forall i, (i < K)%nat -> / lam <= u i) /\ (forall i, (i < K)%nat -> lam * u i = 1 + mv K W u i).
Proof.
  intros HW Hl (x & Hx & H).
  destruct (@common_slack K (fun i => lam * x i - mv K W x i)) as (e & He & Hs).
  { intros i Hi. specialize (H i Hi). lra. }
  set (A := fun i j => W i j / lam). intros u. assert (HA : nonneg K A).
  { intros i j Hi Hj. unfold A. apply Rmult_le_pos; [auto|]. left. now apply Rinv_0_lt_compat. }
  assert (EA : forall v i, mv K A v i = mv K W v i / lam).
  { intros v i. unfold mv, A. unfold Rdiv. rewrite <- Rsum_scal_r. apply Rsum_ext. intros. ring. }
  assert (Hil : 0 < / lam) by now apply Rinv_0_lt_compat.
  destruct (@neumann K A (fun _ => / lam) (fun i => x i / e) HA) as (Hb & Hu).
  - intros; lra.
  - induction n as [|n IH]; intros i Hi.
    + specialize (Hx i Hi). left. now apply Rdiv_lt_0_compat.
    + eapply Rle_trans. { apply Rplus_le_compat_l. apply (@mv_le K A _ (fun i => / e * x i) i HA Hi). intros j Hj. rewrite Rmult_comm. now apply IH. }
      rewrite mv_scal, EA. specialize (Hs i Hi).
      apply (Rmult_le_reg_l (lam * e)); [nra|].
      replace (lam * e * (/ lam + / e * (mv K W x i / lam))) with (e + mv K W x i) by (field; lra).
      replace (lam * e * (x i / e)) with (lam * x i) by (field; lra). lra.
  - fold u in Hb, Hu. split; [intros i Hi; apply Hb, Hi|]. intros i Hi. rewrite (Hu i Hi) at 1. rewrite EA. field. lra.
Qed.

Theorem perron K W : nonneg K W ->
  (forall lam v, 1 <= lam -> (forall i, (i < K)%nat -> 0 <= v i) -> (exists i, (i < K)%nat /\ 0 < v i) ->
     (forall i, (i < K)%nat -> mv K W v i = lam * v i) -> False) ->
  contracts K W 1.
Proof.
  intros HW Hno. destruct (Nat.eq_dec K 0) as [HK|HK].
  { subst K. exists (fun _ => 1). split; intros; lia. }
  destruct (classic (contracts K W 1)) as [Hc|Hn]; [exact Hc|exfalso].
  set (E := fun l => 1 <= l /\ ~ contracts K W l).
  assert (Hbig : contracts K W (1 + Rsum K (fun i => Rsum K (W i)))).
  { exists (fun _ => 1). split; [intros; lra|]. intros i Hi. unfold mv. rewrite (@Rsum_ext K _ (W i)) by (intros; ring).
    pose proof (@Rsum_term_le K (fun i => Rsum K (W i)) i) as Ht. cbv beta in Ht.
    assert (Rsum K (W i) <= Rsum K (fun i => Rsum K (W i))).
    { apply Ht; [|exact Hi]. intros j Hj. apply Rsum_nonneg. intros; auto. }
    lra. }
  assert (HEb : bound E).
  { exists (1 + Rsum K (fun i => Rsum K (W i))). intros l (_ & Hl). apply Rnot_lt_le. intros Hlt. apply Hl.
    eapply contracts_up; [exact Hbig|lra]. }
  destruct (completeness E HEb) as (L & Hub & Hlub); [exists 1; split; [lra|exact Hn]|].
  assert (HL1 : 1 <= L) by (apply Hub; split; [lra|exact Hn]).
  assert (Habove : forall l, L < l -> contracts K W l).
  { intros l Hl. destruct (classic (contracts K W l)) as [Hc|Hc]; [exact Hc|exfalso].
    assert (l <= L) by (apply Hub; split; [lra|exact Hc]). lra. }
  assert (HnL : ~ contracts K W L).
  { intros Hc. destruct (contracts_open Hc) as (e & He & Hc').
    assert (L <= L - e); [|lra]. apply Hlub. intros l (Hl1 & Hl). apply Rnot_lt_le. intros Hlt. apply Hl.
    eapply contracts_up; [exact Hc'|lra]. }
  set (ln_ := fun n => L + / INR (S n)).
  assert (Hpos : forall n, 0 < / INR (S n)) by (intros n; apply Rinv_0_lt_compat, lt_0_INR; lia).
  assert (Hle1 : forall n, / INR (S n) <= 1).
  { intros n. rewrite <- Rinv_1. apply Rinv_le_contravar; [lra|]. change 1 with (INR 1). apply le_INR. lia. }
  set (uu := fun n => neu_lim K (fun i j => W i j / ln_ n) (fun _ => / ln_ n)).
  set (z := fun n i => if Nat.eqb i K then / Rsum K (uu n) else / Rsum K (uu n) * uu n i).
  assert (Hz : forall n,
     (forall i, (i <= K)%nat -> 0 <= z n i) /\ (forall i, (i <= K)%nat -> z n i <= L + 1) /\ Rsum K (z n) = 1 /\
     forall i, (i < K)%nat -> ln_ n * z n i = z n K + mv K W (z n) i).
  { intros n. specialize (Hpos n). specialize (Hle1 n). assert (Hln : L < ln_ n) by (unfold ln_; lra).
    destruct (@resolvent K W (ln_ n) HW) as (Hu & Eu); [lra|now apply Habove|].
    unfold z. change (neu_lim K (fun i j => W i j / ln_ n) (fun _ => / ln_ n)) with (uu n) in Hu, Eu. set (u := uu n) in *.
    assert (Hup : forall i, (i < K)%nat -> 0 < u i).
    { intros i Hi. eapply Rlt_le_trans; [|apply Hu, Hi]. apply Rinv_0_lt_compat. lra. }
    set (s := Rsum K u).
    assert (Hs : / ln_ n <= s).
    { eapply Rle_trans; [apply (Hu O); lia|]. apply Rsum_term_le; [intros i Hi; left; auto|lia]. }
    assert (Hs0 : 0 < s) by (eapply Rlt_le_trans; [|exact Hs]; apply Rinv_0_lt_compat; lra).
    fold s.
    assert (Ez : forall i, (i < K)%nat -> (if Nat.eqb i K then / s else / s * u i) = / s * u i).
    { intros i Hi. destruct (Nat.eqb_spec i K); [lia|reflexivity]. }
    assert (His : 0 < / s) by now apply Rinv_0_lt_compat.
    repeat split.
    - intros i Hi. destruct (Nat.eqb_spec i K); [lra|]. assert (0 < u i) by (apply Hup; lia). nra.
    - intros i Hi. destruct (Nat.eqb_spec i K).
      + assert (/ s <= / / ln_ n). { apply Rinv_le_contravar; [|exact Hs]. apply Rinv_0_lt_compat. lra. }
        rewrite Rinv_inv in H. unfold ln_ in H. lra.
      + assert (u i <= s). { apply Rsum_term_le; [intros j Hj; left; auto|lia]. }
        assert (/ s * u i <= / s * s) by nra. rewrite Rinv_l in H0 by lra. lra.
    - rewrite (@Rsum_ext K _ (fun i => / s * u i)) by auto. rewrite Rsum_scal. fold s. apply Rinv_l. lra.
    - intros i Hi. rewrite Ez by auto. rewrite Nat.eqb_refl.
      transitivity (/ s * (ln_ n * u i)); [ring|]. rewrite Eu by auto.
      replace (mv K W (fun i0 => if Nat.eqb i0 K then / s else / s * u i0) i) with (/ s * mv K W u i); [ring|].
      rewrite <- mv_scal. apply Rsum_ext. intros j Hj. now rewrite Ez. }
  destruct (@subseq_n (S K) z (L + 1)) as (phi & l & Hphi & Hl).
  { intros n k Hk. destruct (Hz n) as (H0 & H1 & _). rewrite Rabs_pos_eq by (apply H0; lia). apply H1. lia. }
  assert (Hge : forall i, (i <= K)%nat -> 0 <= l i).
  { intros i Hi. change (Rbar_le 0 (l i)). apply (is_lim_seq_le (fun _ => 0) (fun n => z (phi n) i)); [|apply is_lim_seq_const|apply Hl; lia].
    intros n. apply Hz, Hi. }
  assert (Hsum : Rsum K l = 1).
  { assert (H1 : is_lim_seq (fun n => Rsum K (z (phi n))) (Rsum K l)).
    { apply (@is_lim_Rsum K (fun p => z (phi p)) l). intros k Hk. apply Hl. lia. }
    apply (is_lim_seq_ext _ (fun _ => 1)) in H1; [|intros n; apply Hz].
    apply is_lim_seq_unique in H1. rewrite Lim_seq_const in H1. injection H1 as H1. now symmetry. }
  assert (Hln : is_lim_seq (fun n => ln_ (phi n)) L).
  { assert (H0 : is_lim_seq ln_ L).
    { unfold ln_. replace (Finite L) with (Finite (L + 0)) by (f_equal; ring). apply is_lim_seq_plus'; [apply is_lim_seq_const|].
      apply (is_lim_seq_incr_1 (fun n => / INR n)). apply (is_lim_seq_inv INR p_infty is_lim_seq_INR). discriminate. }
    apply (is_lim_seq_subseq ln_ L phi); [now apply phi_filter|exact H0]. }
  assert (Heq : forall i, (i < K)%nat -> L * l i = l K + mv K W l i).
  { intros i Hi. assert (H1 : is_lim_seq (fun n => ln_ (phi n) * z (phi n) i) (L * l i)).
    { apply is_lim_seq_mult'; [exact Hln|]. apply Hl. lia. }
    assert (H2 : is_lim_seq (fun n => ln_ (phi n) * z (phi n) i) (l K + mv K W l i)).
    { apply (is_lim_seq_ext (fun n => z (phi n) K + mv K W (z (phi n)) i)).
      - intros n. symmetry. apply Hz, Hi.
      - apply is_lim_seq_plus'; [apply Hl; lia|]. apply mv_lim. intros j Hj. apply Hl. lia. }
    apply is_lim_seq_unique in H1. apply is_lim_seq_unique in H2. rewrite H1 in H2. now injection H2. }
  destruct (Req_dec (l K) 0) as [Hr|Hr].
  - apply (Hno L l HL1).
    + intros i Hi. apply Hge. lia.
    + apply NNPP. intros Hnone. assert (Rsum K l = 0); [|lra]. apply Rsum_0. intros i Hi.
      destruct (Rle_lt_or_eq_dec 0 (l i)) as [Hlt|He]; [apply Hge; lia| |auto]. exfalso. apply Hnone. eauto.
    + intros i Hi. rewrite (Heq i Hi), Hr. ring.
  - assert (Hr0 : 0 < l K) by (specialize (Hge K (le_n K)); lra).
    apply HnL. exists l. split.
    + intros i Hi. pose proof (Heq i Hi) as H1. pose proof (@mv_nonneg K W l i HW Hi) as H2.
      assert (0 <= mv K W l i) by (apply H2; intros; apply Hge; lia).
      assert (0 < L * l i) by lra. assert (0 <= l i) by (apply Hge; lia). destruct (Req_dec (l i) 0) as [E0|E0]; [rewrite E0 in *; lra|lra].
    + intros i Hi. specialize (Heq i Hi). lra.
Qed.
