(** * L_Network: lemmas about the network models. *)
From Coq Require Import FunctionalExtensionality.
From Verif Require Import Prelude ExtReal Arrays Spec_Gibbs M_Gibbs M_Dist Props_Dist Spec_Network M_Network L_Discrete.
Set Implicit Arguments.
Open Scope R_scope.

(* ---------------- double sums ---------------- *)
Lemma Rsum2_plus n (f g : nat -> nat -> R) :
  Rsum n (fun i => Rsum n (fun j => f i j + g i j))
  = Rsum n (fun i => Rsum n (f i)) + Rsum n (fun i => Rsum n (g i)).
Proof. rewrite <- Rsum_plus. apply Rsum_ext. intros. apply Rsum_plus. Qed.
Lemma Rsum2_scal_r n c (f : nat -> nat -> R) :
  Rsum n (fun i => Rsum n (fun j => f i j * c)) = Rsum n (fun i => Rsum n (f i)) * c.
Proof. rewrite <- Rsum_scal_r. apply Rsum_ext. intros. apply Rsum_scal_r. Qed.
Lemma Rsum2_ext n (f g : nat -> nat -> R) :
  (forall i j, (i < n)%nat -> (j < n)%nat -> f i j = g i j) ->
  Rsum n (fun i => Rsum n (f i)) = Rsum n (fun i => Rsum n (g i)).
Proof. intros H. apply Rsum_ext. intros. apply Rsum_ext. intros. auto. Qed.
Lemma Rsum2_nonneg n (f : nat -> nat -> R) :
  (forall i j, (i < n)%nat -> (j < n)%nat -> 0 <= f i j) -> 0 <= Rsum n (fun i => Rsum n (f i)).
Proof. intros H. apply Rsum_nonneg. intros. apply Rsum_nonneg. auto. Qed.

(** Pairs touching k: row k plus column k, the corner counted once. *)
Lemma Rsum_touching n k (f : nat -> nat -> R) : (k < n)%nat ->
  Rsum n (fun i => Rsum n (fun j => if touches k i j then f i j else 0))
  = Rsum n (fun j => f k j) + Rsum n (fun i => f i k) - f k k.
Proof.
  intros Hk.
  rewrite (@Rsum_ext n _ (fun i => (if (i =? k)%nat then Rsum n (fun j => f k j) else 0)
     + (f i k - (if (i =? k)%nat then f k k else 0)))).
  - rewrite Rsum_plus, Rsum_minus, (Rsum_ind n k (fun _ => Rsum n (fun j => f k j))),
      (Rsum_ind n k (fun _ => f k k)). destruct (Nat.ltb_spec k n); [|lia]. lra.
  - intros i Hi. destruct (Nat.eqb_spec i k) as [->|Hne].
    + rewrite (@Rsum_ext n _ (fun j => f k j)).
      * lra.
      * intros j Hj. unfold touches. now rewrite Nat.eqb_refl.
    + rewrite (@Rsum_ext n _ (fun j => if (j =? k)%nat then f i j else 0)).
      * rewrite (Rsum_ind n k (fun j => f i j)). destruct (Nat.ltb_spec k n); [lra|lia].
      * intros j Hj. unfold touches. destruct (Nat.eqb_spec i k); [contradiction|]. reflexivity.
Qed.

Lemma block_sum_eq K c c1 c2 M :
  block_sum K c c1 c2 M = Rsum K (fun i => Rsum K (fun j => if in_block c c1 c2 i j then M i j else 0)).
Proof. reflexivity. Qed.

(* ---------------- logsumexp ---------------- *)
Lemma softmax_sum n lp : (0 < n)%nat -> Rsum n (fun c => exp (lp c - logsumexp n lp)) = 1.
Proof.
  intros Hn. unfold logsumexp. set (m := vmax n lp). set (S := Rsum n (fun i => exp (lp i - m))).
  assert (HS : 0 < S).
  { destruct n; [lia|]. unfold S. cbn [Rsum]. pose proof (exp_pos (lp n - m)).
    assert (0 <= Rsum n (fun i => exp (lp i - m))) by (apply Rsum_nonneg; intros; left; apply exp_pos). lra. }
  rewrite (@Rsum_ext n _ (fun c => exp (lp c - m) / S)).
  - rewrite Rsum_div. unfold S at 1. fold S. field. lra.
  - intros c _. replace (lp c - (ln S + m)) with ((lp c - m) + - ln S) by ring.
    rewrite exp_plus, exp_Ropp, exp_ln by auto. reflexivity.
Qed.
Lemma softmax_ratio n lp c : (0 < n)%nat ->
  exp (lp c - logsumexp n lp) = exp (lp c) / Rsum n (fun i => exp (lp i)).
Proof.
  intros Hn. unfold logsumexp. set (m := vmax n lp).
  assert (E : Rsum n (fun i => exp (lp i - m)) = Rsum n (fun i => exp (lp i)) * exp (- m)).
  { rewrite <- Rsum_scal_r. apply Rsum_ext. intros. unfold Rminus. apply exp_plus. }
  assert (HS : 0 < Rsum n (fun i => exp (lp i))).
  { destruct n; [lia|]. cbn [Rsum]. pose proof (exp_pos (lp n)).
    assert (0 <= Rsum n (fun i => exp (lp i))) by (apply Rsum_nonneg; intros; left; apply exp_pos). lra. }
  rewrite E, ln_mult, ln_exp by (auto; apply exp_pos).
  replace (lp c - (ln (Rsum n (fun i => exp (lp i))) + - m + m))
    with (lp c + - ln (Rsum n (fun i => exp (lp i)))) by ring.
  rewrite exp_plus, exp_Ropp, exp_ln by auto. reflexivity.
Qed.

Lemma mix_step_pos step a b : 0 <= step <= 1 -> 0 < a -> 0 < b -> 0 < mix_step step a b.
Proof. unfold mix_step. intros. nra. Qed.
Lemma mix_step_nonneg step a b : 0 <= step <= 1 -> 0 <= a -> 0 <= b -> 0 <= mix_step step a b.
Proof. unfold mix_step. intros. nra. Qed.
Lemma mix_step_1 a b : mix_step 1 a b = b.
Proof. unfold mix_step. ring. Qed.

(* ---------------- SBM requests ---------------- *)
Lemma bern_ll_lp p a : 0 < p < 1 -> bernoulli_lp p (b2R a) = bern_ll p a.
Proof.
  intros Hp. destruct (@C71_bernoulli_log_probability p (b2R a)) as [H _]; [lra|destruct a; cbn; auto|].
  cbn zeta in H. rewrite H; destruct a; cbn [b2R bern_ll]; unfold Reqb;
    match goal with |- context [Req_EM_T ?a ?b] => destruct (Req_EM_T a b) end; try lra; reflexivity.
Qed.

Lemma p_joint_eq lgam K allow c tau1 tau0 A c1 c2 x :
  p_joint lgam K allow c tau1 tau0 A c1 c2 x =
  let sel i j := (possible allow i j && in_block c c1 c2 i j)%bool in
  let n1 := Rsum K (fun i => Rsum K (fun j => if sel i j then b2R (A i j) else 0)) in
  let n0 := Rsum K (fun i => Rsum K (fun j => if sel i j then 1 - b2R (A i j) else 0)) in
  beta_lpdf lgam (tau1 + n1) (tau0 + n0) x
  + (lgam (tau1 + tau0) - lgam tau1 - lgam tau0
     - (lgam (tau1 + n1 + (tau0 + n0)) - lgam (tau1 + n1) - lgam (tau0 + n0))).
Proof.
  cbn zeta. unfold p_joint, edges_ll.
  rewrite (@Rsum2_ext K (fun i j => if (possible allow i j && in_block c c1 c2 i j)%bool then bern_ll x (A i j) else 0)
    (fun i j => (if (possible allow i j && in_block c c1 c2 i j)%bool then b2R (A i j) else 0) * ln x
             + (if (possible allow i j && in_block c c1 c2 i j)%bool then 1 - b2R (A i j) else 0) * ln (1 - x))).
  - rewrite Rsum2_plus, !Rsum2_scal_r. unfold beta_lpdf. ring.
  - intros i j _ _. destruct (_ && _)%bool; [|ring]. unfold bern_ll. destruct (A i j); cbn; ring.
Qed.

Lemma v_joint_eq lgam K allow c kappa alpha beta A W c1 c2 x : 0 < x ->
  v_joint lgam K allow c kappa alpha beta A W c1 c2 x =
  let sel i j := (possible allow i j && in_block c c1 c2 i j)%bool in
  let n1 := Rsum K (fun i => Rsum K (fun j => if sel i j then b2R (A i j) else 0)) in
  let w1 := Rsum K (fun i => Rsum K (fun j => if sel i j then (if A i j then W i j else 0) else 0)) in
  let c1' := Rsum K (fun i => Rsum K (fun j => if (sel i j && A i j)%bool then - lgam kappa + (kappa - 1) * ln (W i j) else 0)) in
  gamma_lpdf lgam (alpha + n1 * kappa) (beta + w1) x
  + (alpha * ln beta - lgam alpha - ((alpha + n1 * kappa) * ln (beta + w1) - lgam (alpha + n1 * kappa)) + c1').
Proof.
  intros Hx. cbn zeta. unfold v_joint, weights_ll.
  rewrite (@Rsum2_ext K (fun i j => if (possible allow i j && in_block c c1 c2 i j && A i j)%bool
             then gamma_lpdf lgam kappa x (W i j) else 0)
    (fun i j => (if (possible allow i j && in_block c c1 c2 i j)%bool then b2R (A i j) else 0) * (kappa * ln x)
       + ((if (possible allow i j && in_block c c1 c2 i j)%bool then (if A i j then W i j else 0) else 0) * (- x)
       + (if (possible allow i j && in_block c c1 c2 i j && A i j)%bool then - lgam kappa + (kappa - 1) * ln (W i j) else 0)))).
  - rewrite Rsum2_plus, Rsum2_plus, !Rsum2_scal_r. unfold gamma_lpdf. ring.
  - intros i j _ _. unfold gamma_lpdf. destruct (possible allow i j && in_block c c1 c2 i j)%bool; cbn [andb]; [|ring].
    destruct (A i j); cbn [b2R]; ring.
Qed.

(** The label request in closed form. *)
Lemma c_request_eq lgam s A W c k x :
  (k < sb_K s)%nat -> (x < sb_C s)%nat -> (forall j, (j < sb_K s)%nat -> (c j < sb_C s)%nat) ->
  0 < sb_m s x ->
  (forall a b, (a < sb_C s)%nat -> (b < sb_C s)%nat -> 0 < sb_p s a b < 1 /\ 0 < sb_v s a b) ->
  (forall i j, (i < sb_K s)%nat -> (j < sb_K s)%nat -> A i j = true -> 0 < W i j) ->
  c_request lgam s A W c k x =
  Fin (c_joint lgam (sb_K s) (sb_allow s) c (sb_m s) (sb_p s) (sb_v s) (sb_kappa s) A W k x
       + (if sb_allow s then 1 else 2) * self_ll lgam (sb_p s) (sb_v s) (sb_kappa s) A W k x).
Proof.
  intros Hk Hx Hc Hm Hpv HW. unfold c_request. cbn zeta. rewrite elog_fin by auto. rewrite eadd_fin. f_equal.
  set (c' := upd c k x). set (K := sb_K s) in *.
  assert (Hc' : forall j, (j < K)%nat -> (c' j < sb_C s)%nat).
  { intros j Hj. unfold c', upd. destruct (Nat.eqb j k); auto. }
  assert (Hck : c' k = x) by (unfold c'; apply upd_eq).
  set (f := fun i j => bern_ll (sb_p s (c' i) (c' j)) (A i j)).
  set (g := fun i j => if A i j then gamma_lpdf lgam (sb_kappa s) (sb_v s (c' i) (c' j)) (W i j) else 0).
  assert (E1 : Rsum K (fun j => bernoulli_lp (sb_p s x (c' j)) (b2R (A k j))) = Rsum K (fun j => f k j)).
  { apply Rsum_ext. intros j Hj. unfold f. rewrite Hck. apply bern_ll_lp. apply Hpv; auto. }
  assert (E2 : Rsum K (fun j => bernoulli_lp (sb_p s (c' j) x) (b2R (A j k))) = Rsum K (fun j => f j k)).
  { apply Rsum_ext. intros j Hj. unfold f. rewrite Hck. apply bern_ll_lp. apply Hpv; auto. }
  assert (E3 : Rsum K (fun j => b2R (A k j) * gamma_lp lgam (sb_kappa s) (sb_v s x (c' j)) (W k j)) = Rsum K (fun j => g k j)).
  { apply Rsum_ext. intros j Hj. unfold g. rewrite Hck. destruct (A k j) eqn:EA; cbn [b2R]; [|ring].
    rewrite C71_gamma_log_probability; [ring| apply Hpv; auto | auto]. }
  assert (E4 : Rsum K (fun j => b2R (A j k) * gamma_lp lgam (sb_kappa s) (sb_v s (c' j) x) (W j k)) = Rsum K (fun j => g j k)).
  { apply Rsum_ext. intros j Hj. unfold g. rewrite Hck. destruct (A j k) eqn:EA; cbn [b2R]; [|ring].
    rewrite C71_gamma_log_probability; [ring| apply Hpv; auto | auto]. }
  rewrite E1, E2, E3, E4.
  unfold c_joint. fold c'. unfold edges_ll, weights_ll.
  assert (Eself : self_ll lgam (sb_p s) (sb_v s) (sb_kappa s) A W k x = f k k + g k k).
  { unfold self_ll, f, g. now rewrite Hck. }
  rewrite Eself. destruct (sb_allow s) eqn:Ea.
  - assert (T : forall h : nat -> nat -> R,
      Rsum K (fun i => Rsum K (fun j => if (possible true i j && touches k i j)%bool then h i j else 0))
      = Rsum K (fun j => h k j) + Rsum K (fun i => h i k) - h k k).
    { intros h. rewrite <- Rsum_touching by auto. apply Rsum2_ext. intros i j _ _. reflexivity. }
    pose proof (T f) as Tf. unfold f at 1 in Tf. cbv beta in Tf. rewrite Tf.
    rewrite (@Rsum2_ext K (fun i j => if (possible true i j && touches k i j && A i j)%bool then _ else 0)
       (fun i j => if (possible true i j && touches k i j)%bool then g i j else 0)).
    + rewrite (T g). ring.
    + intros i j _ _. unfold g. destruct (possible true i j && touches k i j)%bool; cbn [andb]; [|reflexivity].
      destruct (A i j); reflexivity.
  - assert (T : forall h : nat -> nat -> R,
      Rsum K (fun i => Rsum K (fun j => if (possible false i j && touches k i j)%bool then h i j else 0))
      = Rsum K (fun j => h k j) + Rsum K (fun i => h i k) - 2 * h k k).
    { intros h. set (h' := fun i j => if (i =? j)%nat then 0 else h i j).
      rewrite (@Rsum2_ext K _ (fun i j => if touches k i j then h' i j else 0)).
      - rewrite Rsum_touching by auto. unfold h'. rewrite Nat.eqb_refl.
        rewrite (@Rsum_ext K (fun j => if (k =? j)%nat then 0 else h k j)
                  (fun j => h k j - (if (j =? k)%nat then h k k else 0))).
        + rewrite (@Rsum_ext K (fun i => if (i =? k)%nat then 0 else h i k)
                  (fun i => h i k - (if (i =? k)%nat then h k k else 0))).
          * rewrite !Rsum_minus, !(Rsum_ind K k (fun _ => h k k)). destruct (Nat.ltb_spec k K); [change (Rsum K (fun j : nat => h k j)) with (Rsum K (h k)); lra|lia].
          * intros i _. destruct (Nat.eqb_spec i k) as [->|]; lra.
        + intros j _. rewrite Nat.eqb_sym. destruct (Nat.eqb_spec j k) as [->|]; lra.
      - intros i j _ _. unfold h', possible, touches. cbn [orb].
        destruct (Nat.eqb_spec i j) as [->|]; cbn; [now destruct (j =? k)%nat|reflexivity]. }
    pose proof (T f) as Tf. unfold f at 1 in Tf. cbv beta in Tf. rewrite Tf.
    rewrite (@Rsum2_ext K (fun i j => if (possible false i j && touches k i j && A i j)%bool then _ else 0)
       (fun i j => if (possible false i j && touches k i j)%bool then g i j else 0)).
    + rewrite (T g). ring.
    + intros i j _ _. unfold g. destruct (possible false i j && touches k i j)%bool; cbn [andb]; [|reflexivity].
      destruct (A i j); reflexivity.
Qed.

Lemma c_request_ext lgam s A W c c' k :
  (forall j, c j = c' j) -> c_request lgam s A W c k = c_request lgam s A W c' k.
Proof. intros H. assert (c = c') by (now apply functional_extensionality). now subst. Qed.

(** Sequential sampling: node k's draw sees the new labels of nodes before k. *)
Lemma resample_c_scan lgam pick s A W : (sb_C s =? 1)%nat = false ->
  let c' := resample_c lgam pick s A W in
  (forall k, (sb_K s <= k)%nat -> c' k = sb_c s k) /\
  (forall k, (k < sb_K s)%nat ->
     c' k = pick k (c_request lgam s A W (fun i => if (i <? k)%nat then c' i else sb_c s i) k)).
Proof.
  intros HC. cbn zeta. unfold resample_c. rewrite HC.
  set (stp := fun c k => upd c k (pick k (c_request lgam s A W c k))).
  assert (G : forall n,
     let cn := fold_left stp (seq 0 n) (sb_c s) in
     (forall k, (n <= k)%nat -> cn k = sb_c s k) /\
     (forall k, (k < n)%nat -> cn k = pick k (c_request lgam s A W (fun i => if (i <? k)%nat then cn i else sb_c s i) k))).
  { induction n as [|n IH]; cbn zeta in *; [split; [reflexivity|lia]|]. rewrite fold_left_seq_S.
    destruct IH as [IH1 IH2]. set (cn := fold_left stp (seq 0 n) (sb_c s)) in *.
    assert (Es : forall j, stp cn n j = upd cn n (pick n (c_request lgam s A W cn n)) j) by reflexivity.
    split.
    - intros k Hk. rewrite Es, upd_neq by lia. apply IH1. lia.
    - intros k Hk. rewrite Es. destruct (Nat.eq_dec k n) as [->|Hne].
      + rewrite upd_eq. f_equal. apply c_request_ext. intros j. destruct (Nat.ltb_spec j n).
        * now rewrite Es, upd_neq by lia.
        * apply IH1. lia.
      + rewrite upd_neq by lia. rewrite IH2 by lia. f_equal. apply c_request_ext. intros j.
        destruct (Nat.ltb_spec j k); [|reflexivity]. now rewrite Es, upd_neq by lia. }
  exact (G (sb_K s)).
Qed.
