(** * L_Stability: eigenvalues of a non-negative weight matrix and growth of its powers. *)
From Verif Require Import Prelude Arrays L_Perron Spec_Stability.
From Coq Require Import Classical.
From Coquelicot Require Import Coquelicot.
Set Implicit Arguments.
Open Scope R_scope.

Definition transp (W : nat -> nat -> R) : nat -> nat -> R := fun i j => W j i.

Lemma dot_transp K W x y : Rsum K (fun i => x i * mv K (transp W) y i) = Rsum K (fun j => mv K W x j * y j).
Proof.
  unfold mv, transp.
  transitivity (Rsum K (fun i => Rsum K (fun j => W j i * x i * y j))).
  - apply Rsum_ext. intros i Hi. rewrite <- Rsum_scal. apply Rsum_ext. intros. ring.
  - rewrite Rsum_swap. apply Rsum_ext. intros j Hj. rewrite <- Rsum_scal_r. reflexivity.
Qed.

(** If W contracts a positive vector then so does its transpose. *)
Lemma contracts_transp K W : nonneg K W -> contracts K W 1 -> contracts K (transp W) 1.
Proof.
  intros HW Hc. destruct (contracts_open Hc) as (e & He & x & Hx & H).
  set (th := 1 - e) in *. set (sx := Rsum K x).
  assert (HA : nonneg K (transp W)) by (intros i j Hi Hj; now apply HW).
  assert (Hge : forall n i, (i < K)%nat -> 0 <= neu K (transp W) (fun _ => 1) n i).
  { induction n as [|n IH]; intros i Hi; [cbn; lra|]. cbn [neu].
    pose proof (@mv_nonneg K (transp W) _ i HA Hi IH). lra. }
  assert (Hsx : 0 <= sx) by (apply Rsum_nonneg; intros i Hi; left; auto).
  assert (Hdot : forall n, Rsum K (fun i => x i * neu K (transp W) (fun _ => 1) n i) <= sx / e).
  { induction n as [|n IH].
    - cbn [neu]. rewrite Rsum_0 by (intros; ring). apply Rmult_le_pos; [auto|left; now apply Rinv_0_lt_compat].
    - cbn [neu]. rewrite (@Rsum_ext K _ (fun i => x i + x i * mv K (transp W) (neu K (transp W) (fun _ => 1) n) i)) by (intros; ring).
      rewrite Rsum_plus. fold sx. rewrite dot_transp.
      assert (Hle : Rsum K (fun j => mv K W x j * neu K (transp W) (fun _ => 1) n j)
                    <= th * Rsum K (fun i => x i * neu K (transp W) (fun _ => 1) n i)).
      { rewrite <- Rsum_scal. apply Rsum_le. intros i Hi. specialize (H i Hi). specialize (Hge n i Hi). nra. }
      destruct (Rle_or_lt 0 th) as [Hth|Hth].
      + assert (th * Rsum K (fun i => x i * neu K (transp W) (fun _ => 1) n i) <= th * (sx / e)) by now apply Rmult_le_compat_l.
        replace (sx / e) with (sx + th * (sx / e)); [lra|]. unfold th. field. lra.
      + assert (0 <= Rsum K (fun i => x i * neu K (transp W) (fun _ => 1) n i)).
        { apply Rsum_nonneg. intros i Hi. apply Rmult_le_pos; [left; auto|auto]. }
        assert (sx <= sx / e -> sx + Rsum K (fun j => mv K W x j * neu K (transp W) (fun _ => 1) n j) <= sx / e) by nra.
        (* th < 0 cannot happen unless every row is zero; then W x < 0 contradicts non-negativity *)
        destruct (Nat.eq_dec K 0) as [HK|HK].
        * subst K. cbn in *. unfold sx. cbn. unfold Rdiv. rewrite Rmult_0_l. lra.
        * exfalso. assert (HK0 : (0 < K)%nat) by lia. specialize (H O HK0). pose proof (Hx O HK0) as Hx0.
          assert (0 <= mv K W x 0). { apply mv_nonneg; auto. intros j Hj. left. auto. }
          clear - H H2 Hx0 Hth. nra. }
  destruct (@neumann K (transp W) (fun _ => 1) (fun i => sx / e / x i) HA) as (Hb & Hu).
  - intros; lra.
  - intros n i Hi. specialize (Hdot n). pose proof (@Rsum_term_le K (fun i => x i * neu K (transp W) (fun _ => 1) n i) i) as Ht.
    cbv beta in Ht. specialize (Hx i Hi) as Hxi.
    assert (x i * neu K (transp W) (fun _ => 1) n i <= sx / e).
    { eapply Rle_trans; [apply Ht|exact Hdot]; [|exact Hi]. intros j Hj. apply Rmult_le_pos; [left; auto|auto]. }
    apply (Rmult_le_reg_l (x i)); [auto|]. replace (x i * (sx / e / x i)) with (sx / e) by (field; lra). exact H0.
  - exists (neu_lim K (transp W) (fun _ => 1)). split.
    + intros i Hi. specialize (Hb i Hi). lra.
    + intros i Hi. specialize (Hu i Hi). lra.
Qed.

(** ** Eigenvalues *)

Lemma Cmod_Csum n f : Cmod (Csum n f) <= Rsum n (fun i => Cmod (f i)).
Proof.
  induction n as [|n IH]; cbn [Rsum].
  - unfold Csum. cbn. change (0, 0) with (RtoC 0). rewrite Cmod_0. lra.
  - change (Csum (S n) f) with (Cplus (Csum n f) (f n)). eapply Rle_trans; [apply Cmod_triangle|]. lra.
Qed.

(** The moduli of an eigenvector of a non-negative matrix. *)
Lemma eigen_moduli K W z : nonneg K W -> eigenvalue K W z ->
  exists u, (forall i, (i < K)%nat -> 0 <= u i) /\ (exists i, (i < K)%nat /\ 0 < u i) /\
  forall i, (i < K)%nat -> Cmod z * u i <= mv K W u i.
Proof.
  intros HW (x & (i0 & Hi0 & Hx0) & Hx). exists (fun i => Cmod (x i)). split; [intros; apply Cmod_ge_0|]. split.
  - exists i0. split; [exact Hi0|]. now apply Cmod_gt_0.
  - intros i Hi. rewrite <- Cmod_mult, <- (Hx i Hi). eapply Rle_trans; [apply Cmod_Csum|]. apply Rsum_le. intros j Hj.
    rewrite Cmod_mult, Cmod_R, Rabs_pos_eq by auto. lra.
Qed.

Lemma real_eigen K W lam v : (exists i, (i < K)%nat /\ 0 < v i) ->
  (forall i, (i < K)%nat -> mv K W v i = lam * v i) -> eigenvalue K W (RtoC lam).
Proof.
  intros (i0 & Hi0 & Hv) H. exists (fun i => RtoC (v i)). split.
  - exists i0. split; [exact Hi0|]. intros E. apply RtoC_inj in E. lra.
  - intros i Hi. rewrite <- RtoC_mult, <- (H i Hi). unfold Csum, RtoC, mv. cbn [fst snd Cmult]. f_equal.
    + apply Rsum_ext. intros. ring.
    + apply Rsum_0. intros. ring.
Qed.

Lemma Re_le_Cmod (z : C) : fst z <= Cmod z.
Proof. destruct z as [a b]. eapply Rle_trans; [apply Rle_abs|]. pose proof (Rmax_Cmod (a, b)). cbn in *. eapply Rle_trans; [apply Rmax_l|eassumption]. Qed.

Lemma Rsum_lt_one n f g i : (forall j, (j < n)%nat -> f j <= g j) -> (i < n)%nat -> f i < g i -> Rsum n f < Rsum n g.
Proof.
  induction n as [|n IH]; intros H Hi Hlt; [lia|]. cbn. destruct (Nat.eq_dec i n) as [->|Hn].
  - assert (Rsum n f <= Rsum n g) by (apply Rsum_le; intros; apply H; lia). lra.
  - assert (Rsum n f < Rsum n g) by (apply IH; [intros; apply H; lia|lia|auto]). specialize (H n ltac:(lia)). lra.
Qed.
(** A vector that does not shrink excludes contraction. *)
Lemma no_shrink K W u : nonneg K W -> (forall i, (i < K)%nat -> 0 <= u i) -> (exists i, (i < K)%nat /\ 0 < u i) ->
  (forall i, (i < K)%nat -> u i <= mv K W u i) -> ~ contracts K W 1.
Proof.
  intros HW Hu (i0 & Hi0 & H0) Hle Hc.
  assert (HA : nonneg K (transp W)) by (intros i j Hi Hj; now apply HW).
  destruct (contracts_transp HW Hc) as (y & Hy & H).
  assert (E : Rsum K (fun i => u i * mv K (transp W) y i) = Rsum K (fun j => mv K W u j * y j)) by apply dot_transp.
  assert (H1 : Rsum K (fun i => u i * mv K (transp W) y i) < Rsum K (fun i => u i * y i)).
  { apply (@Rsum_lt_one K _ _ i0); [|exact Hi0|].
    - intros i Hi. specialize (H i Hi). specialize (Hu i Hi). nra.
    - specialize (H i0 Hi0). nra. }
  assert (H2 : Rsum K (fun i => u i * y i) <= Rsum K (fun j => mv K W u j * y j)).
  { apply Rsum_le. intros i Hi. specialize (Hle i Hi). specialize (Hy i Hi). nra. }
  lra.
Qed.
