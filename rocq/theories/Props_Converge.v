(** * Props_Converge: repeated network updates forget where they started and converge to the posterior (C136). *)
From Coquelicot Require Import Coquelicot.
From Coq Require Import FunctionalExtensionality Permutation.
From Verif Require Import Prelude ExtReal Arrays M_Basis M_Parents M_Discrete M_Gibbs M_Dist M_Network M_Sweep M_Continuous M_LabelLaw.
From Verif Require Import Spec_Gibbs Spec_Gamma Spec_Continuous Spec_Network Spec_Invariance Spec_LabelLaw.
From Verif Require Import L_Invariance L_Euler L_LabelLaw L_Gibbs L_Sweep L_Continuous L_Network.
From Verif Require Import Props_Discrete Props_Gibbs Props_Network Props_Continuous Props_Continuous2 Props_Continuous3 Props_Continuous4 Props_Invariance
  Props_LabelLaw Props_Reach.
Set Implicit Arguments.
Open Scope R_scope.

(** ** Networks on K nodes *)
Definition trunc (K : nat) (A : bmat) : bmat := fun i j => (Nat.ltb i K && Nat.ltb j K && A i j)%bool.
Lemma trunc_in K A i j : (i < K)%nat -> (j < K)%nat -> trunc K A i j = A i j.
Proof. intros Hi Hj. unfold trunc. apply Nat.ltb_lt in Hi, Hj. now rewrite Hi, Hj. Qed.
Lemma trunc_eq K A A' : (forall i j, (i < K)%nat -> (j < K)%nat -> A i j = A' i j) -> trunc K A = trunc K A'.
Proof.
  intros H. apply functional_extensionality; intros i; apply functional_extensionality; intros j. unfold trunc.
  destruct (Nat.ltb_spec i K), (Nat.ltb_spec j K); cbn [andb]; auto.
Qed.
Lemma trunc_upd K A i j b : (i < K)%nat -> (j < K)%nat -> trunc K (upd2 A i j b) = upd2 (trunc K A) i j b.
Proof.
  intros Hi Hj. apply functional_extensionality; intros a; apply functional_extensionality; intros c. unfold trunc, upd2.
  destruct (Nat.eqb_spec a i) as [->|]; destruct (Nat.eqb_spec c j) as [->|]; cbn [andb]; try reflexivity.
  apply Nat.ltb_lt in Hi, Hj. now rewrite Hi, Hj.
Qed.
Lemma over_trunc K G cs : (forall c, In c cs -> In c (pairs K)) -> forall A, trunc K A = A ->
  over_cells cs A (fun B => G (trunc K B)) = over_cells cs A G.
Proof.
  induction cs as [|(i, j) cs IH]; intros Hin A HA; cbn [over_cells]; [now rewrite HA|].
  assert (Hc := Hin (i, j) (or_introl eq_refl)). apply in_pairs in Hc as (Hi & Hj).
  rewrite !IH; auto; try (intros; apply Hin; now right); rewrite trunc_upd by auto; now rewrite HA.
Qed.
Lemma over_networks_trunc K G : over_networks K (fun B => G (trunc K B)) = over_networks K G.
Proof.
  apply over_trunc; auto. apply functional_extensionality; intros i; apply functional_extensionality; intros j. unfold trunc. now rewrite andb_false_r.
Qed.
Lemma over_le cs : forall A F G, (forall B, F B <= G B) -> over_cells cs A F <= over_cells cs A G.
Proof. induction cs as [|(i, j) cs IH]; intros A F G H; cbn [over_cells]; [auto|]. apply Rplus_le_compat; apply IH; auto. Qed.
Lemma over_nonneg cs : forall A F, (forall B, 0 <= F B) -> 0 <= over_cells cs A F.
Proof. induction cs as [|(i, j) cs IH]; intros A F H; cbn [over_cells]; [auto|]. apply Rplus_le_le_0_compat; apply IH; auto. Qed.
Lemma over_pos cs As (w : bmat -> R) : (forall B, 0 <= w B) -> 0 < w As -> forall A, (forall i j, ~ In (i, j) cs -> A i j = As i j) -> 0 < over_cells cs A w.
Proof.
  intros Hw Hp. induction cs as [|(i, j) cs IH]; intros A HA; cbn [over_cells].
  - replace A with As; [auto|]. apply functional_extensionality; intros i; apply functional_extensionality; intros j. symmetry. apply HA. auto.
  - assert (H0 : forall b, 0 <= over_cells cs (upd2 A i j b) w) by (intros; now apply over_nonneg).
    assert (H1 : 0 < over_cells cs (upd2 A i j (As i j)) w).
    { apply IH. intros a b Hn. unfold upd2. destruct (Nat.eqb_spec a i) as [->|Na]; [destruct (Nat.eqb_spec b j) as [->|Nb]|]; cbn [andb].
      - reflexivity.
      - apply HA. intros [E|E]; [congruence|auto].
      - apply HA. intros [E|E]; [congruence|auto]. }
    pose proof (H0 true). pose proof (H0 false). destruct (As i j); lra.
Qed.
(** A positive function of finitely many networks is bounded below by a positive number. *)
Lemma min_pos cs : forall f : bmat -> R, (forall B B', (forall i j, In (i, j) cs -> B i j = B' i j) -> f B = f B') -> (forall A, 0 < f A) ->
  exists eps, 0 < eps /\ forall A, eps <= f A.
Proof.
  induction cs as [|(i, j) cs IH]; intros f Hf Hp.
  - exists (f (fun _ _ => false)). split; [auto|]. intros A. right. apply Hf. intros ? ? [].
  - assert (G : forall b, exists eps, 0 < eps /\ forall A, eps <= f (upd2 A i j b)).
    { intros b. apply (IH (fun A => f (upd2 A i j b))); [|auto]. intros B B' H. apply Hf. intros a c [E|Hin].
      - injection E as -> ->. now rewrite !upd2_eq.
      - unfold upd2. destruct (_ && _)%bool; auto. }
    destruct (G true) as (e1 & P1 & L1). destruct (G false) as (e0 & P0 & L0). exists (Rmin e1 e0). split; [now apply Rmin_glb_lt|]. intros A.
    rewrite <- (upd2_self A i j). destruct (A i j); [specialize (L1 A)|specialize (L0 A)]; [pose proof (Rmin_l e1 e0)|pose proof (Rmin_r e1 e0)]; lra.
Qed.
Lemma min_nodes K (f : bmat -> R) : on_nodes K f -> (forall A, 0 < f A) -> exists eps, 0 < eps /\ forall A, eps <= f A.
Proof.
  intros Hf Hp. apply (@min_pos (pairs K)); auto. intros B B' H. apply Hf. intros i j Hi Hj. apply H. now apply in_pairs.
Qed.
Lemma bounds_nodes K (F : bmat -> R) : on_nodes K F -> exists lo hi, forall A, lo <= F A <= hi.
Proof.
  intros HF. destruct (@min_nodes K (fun A => exp (F A))) as (e1 & P1 & L1); [intros A B H; now rewrite (HF A B H)|intros; apply exp_pos|].
  destruct (@min_nodes K (fun A => exp (- F A))) as (e0 & P0 & L0); [intros A B H; now rewrite (HF A B H)|intros; apply exp_pos|].
  exists (ln e1), (- ln e0). intros A. split.
  - rewrite <- (ln_exp (F A)). destruct (L1 A) as [H|H]; [left; now apply ln_increasing|right; now rewrite H].
  - assert (ln e0 <= - F A); [|lra]. rewrite <- (ln_exp (- F A)). destruct (L0 A) as [H|H]; [left; now apply ln_increasing|right; now rewrite H].
Qed.

(** ** The averaging operator of one scan *)
Lemma kern_nodes q K cs F : (forall c, In c cs -> In c (pairs K)) ->
  (forall i j, on_nodes K (q i j)) -> on_nodes K F -> on_nodes K (kern q cs F).
Proof.
  intros Hin Hq HF. induction cs as [|(i, j) cs IH]; intros A B H; cbn [kern]; [now apply HF|].
  rewrite (Hq i j A B H). assert (E : forall b, kern q cs F (upd2 A i j b) = kern q cs F (upd2 B i j b)).
  { intros b. apply IH; [intros; apply Hin; now right|]. intros a c Ha Hc. unfold upd2. destruct (_ && _)%bool; auto. }
  now rewrite !E.
Qed.
Lemma kern_above q cs F G a b : (forall i j B, In (i, j) cs -> 0 <= q i j B <= 1) -> (forall B, a + b * G B <= F B) ->
  forall A, a + b * kern q cs G A <= kern q cs F A.
Proof.
  induction cs as [|(i, j) cs IH]; intros Hq HF A; cbn [kern]; [auto|].
  assert (H := Hq i j A (or_introl eq_refl)).
  assert (H1 : forall x, a + b * kern q cs G (upd2 A i j x) <= kern q cs F (upd2 A i j x)) by (intros; apply IH; auto; intros; apply Hq; now right).
  pose proof (Rmult_le_compat_l (q i j A) _ _ ltac:(lra) (H1 true)). pose proof (Rmult_le_compat_l (1 - q i j A) _ _ ltac:(lra) (H1 false)). lra.
Qed.
Lemma kern_below q cs F G a b : (forall i j B, In (i, j) cs -> 0 <= q i j B <= 1) -> (forall B, F B <= a + b * G B) ->
  forall A, kern q cs F A <= a + b * kern q cs G A.
Proof.
  induction cs as [|(i, j) cs IH]; intros Hq HF A; cbn [kern]; [auto|].
  assert (H := Hq i j A (or_introl eq_refl)).
  assert (H1 : forall x, kern q cs F (upd2 A i j x) <= a + b * kern q cs G (upd2 A i j x)) by (intros; apply IH; auto; intros; apply Hq; now right).
  pose proof (Rmult_le_compat_l (q i j A) _ _ ltac:(lra) (H1 true)). pose proof (Rmult_le_compat_l (1 - q i j A) _ _ ltac:(lra) (H1 false)). lra.
Qed.
(** If every start leads to As with probability at least eps, one step shrinks the range of F by the factor 1 - eps. *)
Lemma kern_contracts q K As eps F lo hi : (forall i j B, In (i, j) (pairs K) -> 0 <= q i j B <= 1) ->
  (forall A, eps <= kern q (pairs K) (hit K As) A) -> on_nodes K F -> (forall A, lo <= F A <= hi) ->
  forall A, lo + eps * (F As - lo) <= kern q (pairs K) F A <= hi - eps * (hi - F As).
Proof.
  intros Hq He HF Hb A. pose proof (Hb As) as Hs.
  assert (Hh : forall B, (hit K As B = 1 /\ F B = F As) \/ hit K As B = 0).
  { intros B. unfold hit. destruct (agree K B As) eqn:E; [left|right; reflexivity]. split; [reflexivity|]. apply HF. now apply agree_spec. }
  pose proof (@kern_above q (pairs K) F (hit K As) lo (F As - lo) Hq) as H1.
  pose proof (@kern_below q (pairs K) F (hit K As) hi (F As - hi) Hq) as H2.
  specialize (He A). split.
  - eapply Rle_trans; [|apply H1]. + pose proof (Rmult_le_compat_l (F As - lo) _ _ ltac:(lra) He). lra.
    + intros B. destruct (Hh B) as [[-> ->]| ->]; [lra|]. pose proof (Hb B). lra.
  - eapply Rle_trans; [apply H2|]. + intros B. destruct (Hh B) as [[-> ->]| ->]; [lra|]. pose proof (Hb B). lra.
    + pose proof (Rmult_le_compat_l (hi - F As) _ _ ltac:(lra) He). lra.
Qed.
Fixpoint iterate (q : nat -> nat -> bmat -> R) (K : nat) (F : bmat -> R) (n : nat) : bmat -> R :=
  match n with O => F | S n' => kern q (pairs K) (iterate q K F n') end.
Lemma iterate_range q K As eps F lo hi : 0 <= eps -> (forall i j B, In (i, j) (pairs K) -> 0 <= q i j B <= 1) -> (forall i j, on_nodes K (q i j)) ->
  (forall A, eps <= kern q (pairs K) (hit K As) A) -> on_nodes K F -> (forall A, lo <= F A <= hi) ->
  forall n, on_nodes K (iterate q K F n) /\ exists l h, h - l = (1 - eps) ^ n * (hi - lo) /\ forall A, l <= iterate q K F n A <= h.
Proof.
  intros He Hq Hqn Hh HF Hb. induction n as [|n (IHn & l & h & E & IH)]; cbn [iterate].
  - split; [auto|]. exists lo, hi. cbn [pow]. split; [ring|auto].
  - split; [apply kern_nodes; auto|]. exists (l + eps * (iterate q K F n As - l)), (h - eps * (h - iterate q K F n As)). split.
    + cbn [pow]. rewrite Rmult_assoc, <- E. ring.
    + intros A. apply (@kern_contracts q K As eps (iterate q K F n) l h); auto.
Qed.

(** ** Convergence *)
(** e n A is the mean of F after n updates from A, each with its own K*K uniforms (first-step recursion); it approaches the
    mean of F under the density proportional to [post], geometrically, and no slower from one start than from another. *)
Definition converges_to (K : nat) (post : bmat -> R) (update : bmat -> mat -> bmat) (F : bmat -> R) : Prop :=
  0 < over_networks K post /\
  exists (e : nat -> bmat -> R) (C r : R), 0 <= r < 1 /\ (forall A, e 0%nat A = F A) /\
    (forall n A, uniform_mean K (fun u => e n (update A u)) (e (S n) A)) /\
    forall n A, Rabs (e n A - over_networks K (fun B => post B * F B) / over_networks K post) <= C * r ^ n.

Lemma edge_prior_nonneg K P A : (forall i j, (i < K)%nat -> (j < K)%nat -> 0 <= P i j <= 1) -> 0 <= edge_prior K P A.
Proof.
  intros HP. unfold edge_prior. assert (G : forall cs, (forall c, In c cs -> In c (pairs K)) ->
    0 <= fold_right Rmult 1 (map (fun c => if A (fst c) (snd c) then P (fst c) (snd c) else 1 - P (fst c) (snd c)) cs)).
  { induction cs as [|(i, j) cs IH]; intros Hin; cbn [map fold_right fst snd]; [lra|]. apply Rmult_le_pos; [|apply IH; intros; apply Hin; now right].
    assert (Hc := Hin (i, j) (or_introl eq_refl)). apply in_pairs in Hc as (Hi & Hj). specialize (HP i j Hi Hj). destruct (A i j); lra. }
  apply G. auto.
Qed.
Lemma edge_prior_pos K P A : (forall i j, (i < K)%nat -> (j < K)%nat -> 0 <= P i j <= 1) -> allowed K P A -> 0 < edge_prior K P A.
Proof.
  intros HP HA. unfold edge_prior. assert (G : forall cs, (forall c, In c cs -> In c (pairs K)) ->
    0 < fold_right Rmult 1 (map (fun c => if A (fst c) (snd c) then P (fst c) (snd c) else 1 - P (fst c) (snd c)) cs)).
  { induction cs as [|(i, j) cs IH]; intros Hin; cbn [map fold_right fst snd]; [lra|]. apply Rmult_lt_0_compat; [|apply IH; intros; apply Hin; now right].
    assert (Hc := Hin (i, j) (or_introl eq_refl)). apply in_pairs in Hc as (Hi & Hj). specialize (HP i j Hi Hj). destruct (HA i j Hi Hj) as (H0 & H1).
    destruct (A i j).
    - destruct (Req_dec (P i j) 0) as [E|E]; [specialize (H0 E); discriminate|lra].
    - destruct (Req_dec (P i j) 1) as [E|E]; [specialize (H1 E); discriminate|lra]. }
  apply G. auto.
Qed.

Lemma sequential_converges K P (L : bmat -> R) F (upd : bmat -> mat -> bmat) :
  (forall i j, (i < K)%nat -> (j < K)%nat -> 0 <= P i j <= 1) -> on_nodes K F ->
  (forall A u, (forall i j, (i < K)%nat -> (j < K)%nat -> 0 < u i j < 1) ->
     sequential K (fun i j M => edge_posterior (P i j) (L (upd2 M i j false)) (L (upd2 M i j true))) u A (upd A u)) ->
  converges_to K (fun A => exp (L A) * edge_prior K P A) upd F.
Proof.
  intros HP HF Hs.
  set (q := fun i j M => edge_posterior (P i j) (L (upd2 (trunc K M) i j false)) (L (upd2 (trunc K M) i j true))).
  set (w := fun A => exp (L (trunc K A)) * edge_prior K P (trunc K A)).
  assert (Hq : forall i j B, In (i, j) (pairs K) -> 0 <= q i j B <= 1).
  { intros i j B Hin. apply in_pairs in Hin as (Hi & Hj). apply edge_posterior_unit. auto. }
  assert (Hqn : forall i j, on_nodes K (q i j)).
  { intros i j A B H. unfold q. now rewrite (@trunc_eq K A B H). }
  assert (Hsq : forall A u, (forall i j, (i < K)%nat -> (j < K)%nat -> 0 < u i j < 1) -> sequential K q u A (upd A u)).
  { intros A u Hu k1 k2 M H1 H2 HM. unfold q. apply (Hs A u Hu k1 k2 (trunc K M) H1 H2). intros i Hi. rewrite trunc_in by auto. auto. }
  set (As := trunc K (fun i j => Reqb (P i j) 1)).
  assert (HAs : allowed K P As).
  { intros i j Hi Hj. unfold As. rewrite trunc_in by auto. split; intros E; rewrite E; [apply Bool.not_true_iff_false; rewrite Reqb_true; lra|now apply Reqb_true]. }
  assert (Hhit : forall A, 0 < kern q (pairs K) (hit K As) A).
  { intros A0. apply kern_hit; auto.
    - intros i j B Hin. apply in_pairs in Hin as (Hi & Hj). destruct (HAs i j Hi Hj) as (Ha0 & Ha1).
      destruct (@edge_posterior_open (P i j) (L (upd2 (trunc K B) i j false)) (L (upd2 (trunc K B) i j true)) (HP i j Hi Hj)) as (E1 & E2 & _). split; intros E.
      + apply E1. intros Z. specialize (Ha0 Z). congruence.
      + apply E2. intros Z. specialize (Ha1 Z). congruence.
    - intros i j Hi Hj Hn. exfalso. apply Hn. now apply in_pairs. }
  destruct (@min_nodes K (kern q (pairs K) (hit K As))) as (eps & Heps & Hle); [apply kern_nodes; auto; apply hit_nodes|exact Hhit|].
  assert (Heps1 : eps <= 1).
  { eapply Rle_trans; [apply (Hle As)|]. eapply Rle_trans; [apply (@kern_below q (pairs K) (hit K As) (fun _ => 0) 1 0 Hq)|lra].
    intros B. unfold hit. destruct (agree K B As); cbn; lra. }
  destruct (bounds_nodes HF) as (lo & hi & Hb).
  assert (Hw0 : forall B, 0 <= w B).
  { intros B. apply Rmult_le_pos; [left; apply exp_pos|now apply edge_prior_nonneg]. }
  assert (Ew : forall G, over_networks K (fun A => exp (L A) * edge_prior K P A * G A) = over_networks K (fun A => w A * G (trunc K A))).
  { intros G. rewrite <- (over_networks_trunc K (fun A => exp (L A) * edge_prior K P A * G A)). reflexivity. }
  assert (EwF : forall G, on_nodes K G -> over_networks K (fun A => exp (L A) * edge_prior K P A * G A) = over_networks K (fun A => w A * G A)).
  { intros G HG. rewrite Ew. unfold over_networks. apply over_ext. intros B. f_equal. apply HG. intros. now apply trunc_in. }
  assert (Hw1 : over_networks K (fun A => exp (L A) * edge_prior K P A) = over_networks K w).
  { transitivity (over_networks K (fun A => exp (L A) * edge_prior K P A * 1)); [unfold over_networks; apply over_ext; intros; ring|].
    rewrite (EwF (fun _ => 1)); [|intros ? ? ?; reflexivity]. unfold over_networks; apply over_ext; intros; ring. }
  assert (Hpos : 0 < over_networks K w).
  { unfold over_networks. apply (@over_pos (pairs K) As w Hw0).
    - unfold w. apply Rmult_lt_0_compat; [apply exp_pos|]. apply edge_prior_pos; auto. intros i j Hi Hj. rewrite trunc_in by auto. now apply HAs.
    - intros i j Hn. unfold As, trunc. destruct (Nat.ltb_spec i K), (Nat.ltb_spec j K); cbn [andb]; try reflexivity. exfalso. apply Hn. now apply in_pairs. }
  assert (Hinv : forall n, over_networks K (fun A => w A * iterate q K F n A) = over_networks K (fun A => w A * F A)).
  { induction n as [|n IH]; [reflexivity|]. rewrite <- IH. cbn [iterate]. unfold over_networks.
    apply (@scan_invariant q (pairs K) w (iterate q K F n) (fun _ _ => false) (pairs_NoDup K)); auto.
    - intros i j B b Hin. apply in_pairs in Hin as (Hi & Hj). unfold q. rewrite !trunc_upd by auto. now rewrite !upd2_same.
    - intros i j B Hin. assert (Hin' := Hin). apply in_pairs in Hin as (Hi & Hj). unfold w, q. rewrite !trunc_upd by auto. apply edge_balance; auto. }
  split; [now rewrite Hw1|].
  destruct (@iterate_range q K As eps F lo hi ltac:(lra) Hq Hqn Hle HF Hb 0) as (_ & _).
  exists (iterate q K F), (hi - lo), (1 - eps). split; [lra|]. split; [reflexivity|]. split.
  - intros n A u0. cbn [iterate]. eapply is_mean_ext; [apply pairs_NoDup| |apply (@scan_mean q (pairs K) (iterate q K F n) (pairs_NoDup K)); auto].
    intros u' Hu'. cbv beta. destruct (@iterate_range q K As eps F lo hi ltac:(lra) Hq Hqn Hle HF Hb n) as (Hn & _).
    apply Hn. intros i j Hi Hj. symmetry. apply sequential_scan; auto. apply Hsq. intros a b Ha Hb'. apply (proj1 (Hu' a b)). apply in_pairs. auto.
  - intros n A. destruct (@iterate_range q K As eps F lo hi ltac:(lra) Hq Hqn Hle HF Hb n) as (Hn & l & h & E & Hlh).
    rewrite Hw1, (EwF F HF), <- (Hinv n).
    assert (B1 : l * over_networks K w <= over_networks K (fun A => w A * iterate q K F n A)).
    { unfold over_networks. rewrite <- over_scal. apply over_le. intros B. rewrite Rmult_comm. apply Rmult_le_compat_l; [auto|apply Hlh]. }
    assert (B2 : over_networks K (fun A => w A * iterate q K F n A) <= h * over_networks K w).
    { unfold over_networks. rewrite <- over_scal. apply over_le. intros B. rewrite (Rmult_comm h). apply Rmult_le_compat_l; [auto|apply Hlh]. }
    set (mu := over_networks K (fun A => w A * iterate q K F n A) / over_networks K w).
    assert (Emu : over_networks K (fun A => w A * iterate q K F n A) = mu * over_networks K w) by (unfold mu; field; lra).
    rewrite Emu in B1, B2. apply Rmult_le_reg_r in B1; [|auto]. apply Rmult_le_reg_r in B2; [|auto].
    pose proof (Hlh A). rewrite Rmult_comm, <- E. apply Rabs_le. lra.
Qed.

(* ------------------------------------------------------------------ *)
(** Spike-and-slab model, serial and parallel: repeating the adjacency update (weights, rates, impulse responses and data
    fixed) from any network converges to the posterior over networks. *)
Theorem C136_networks : forall m n, dm_mix m = false -> nonneg_params m -> good_data m (dm_data m) ->
  (forall i j, (i < dm_K m)%nat -> (j < dm_K m)%nat -> 0 <= n_P n i j <= 1) ->
  exists L : bmat -> R, (forall A, log_likelihood (with_A m A) All = Ok (Fin (L A))) /\
  forall (parallel : bool) order (F : bmat -> R), Permutation order (seq 0 (dm_K m)) -> on_nodes (dm_K m) F ->
  converges_to (dm_K m) (fun A => exp (L A) * edge_prior (dm_K m) (n_P n) A)
    (fun A u => if parallel then resample_A_parallel order (with_A m A) n u (dm_data m) else resample_A_serial (with_A m A) n u (dm_data m)) F.
Proof.
  intros m n Hm Hn Hd HP.
  assert (HL : forall A, exists l, log_likelihood (with_A m A) All = Ok (Fin l)).
  { intros A. apply C13_training_finite; [exact Hn|]. intros d Hin. destruct (Hd d Hin) as (H1 & H2 & H3 & H4). auto. }
  set (L := fun A => match log_likelihood (with_A m A) All with Ok (Fin l) => l | _ => 0 end).
  assert (EL : forall A, log_likelihood (with_A m A) All = Ok (Fin (L A))) by (intros A; unfold L; destruct (HL A) as (l & ->); reflexivity).
  exists L. split; [exact EL|]. intros parallel order F Ho HF.
  apply (@sequential_converges (dm_K m) (n_P n) L F); auto.
  intros A u Hu k1 k2 M H1 H2 HM.
  destruct (@C25_edges_from_posterior parallel order (with_A m A) n u Hm Hn Hd) with (k1 := k1) (k2 := k2) (M := M) as (L0 & L1 & E0 & E1 & EA); auto.
  { intros i j Hi Hj. split; [specialize (Hu i j Hi Hj); split; lra|auto]. }
  change (with_A (with_A m A) (upd2 M k1 k2 false)) with (with_A m (upd2 M k1 k2 false)) in E0.
  change (with_A (with_A m A) (upd2 M k1 k2 true)) with (with_A m (upd2 M k1 k2 true)) in E1.
  rewrite EL in E0, E1. injection E0 as <-. injection E1 as <-. exact EA.
Qed.
(** Continuous time, with the weights held at W. *)
Theorem C136_continuous_networks : forall m W data, net_ok (cm_K m) (cm_net m) ->
  (forall k, (k < cm_K m)%nat -> 0 < cm_lam m k) -> (forall a b, (a < cm_K m)%nat -> (b < cm_K m)%nat -> 0 < cm_tau m a b) ->
  (forall i j, (i < cm_K m)%nat -> (j < cm_K m)%nat -> 0 <= W i j) -> (forall d, In d data -> data_ok (cm_K m) d) ->
  let L A := lsum (map (hawkes_loglik (ct_with_AW m A W)) data) in
  forall order norder (F : bmat -> R), Permutation order (seq 0 (cm_K m)) ->
  (forall d, In d data -> Permutation (norder d) (seq 0 (cd_N d))) -> on_nodes (cm_K m) F ->
  converges_to (cm_K m) (fun A => exp (L A) * edge_prior (cm_K m) (n_P (net_view (cm_net m))) A)
    (fun A u => cm_A (ct_weights_resample order norder (fun i j _ _ => W i j) u (ct_with_A m A) data)) F.
Proof.
  intros m W data Hnet Hlam Htau HW Hd L order norder F Ho Hno HF. set (P := n_P (net_view (cm_net m))).
  assert (HP : forall i j, (i < cm_K m)%nat -> (j < cm_K m)%nat -> 0 <= P i j <= 1).
  { intros i j Hi Hj. pose proof (@net_view_ok _ _ Hnet) as (_ & Hv). now apply Hv. }
  assert (HWr : forall nt A, ct_W_resample (fun i j _ _ => W i j) nt A data = W).
  { intros nt A. apply functional_extensionality; intros i; apply functional_extensionality; intros j. unfold ct_W_resample. now destruct (ct_W_request nt A data i j). }
  apply (@sequential_converges (cm_K m) P L F); auto.
  intros A u Hu k1 k2 M H1 H2 HM.
  destruct (@C76_edges_from_posterior order norder (fun i j _ _ => W i j) u (ct_with_A m A) data Hnet Hlam Htau) as (_ & Hp); [intros d Hin; split; auto| |exact Ho| |].
  { intros i j Hi Hj. pose proof (Hu i j Hi Hj). split; lra. }
  { intros i j Hi Hj. change (0 <= ct_W_resample (fun i j _ _ => W i j) (net_view (cm_net m)) A data i j). rewrite HWr. now apply HW. }
  destruct (Hp k1 k2 M H1 H2 HM) as (_ & EA).
  assert (EW : forall b, ct_with_A (ct_weights_resample order norder (fun i j _ _ => W i j) u (ct_with_A m A) data) (upd2 M k1 k2 b) = ct_with_AW m (upd2 M k1 k2 b) W).
  { intros b. change (ct_with_AW m (upd2 M k1 k2 b) (ct_W_resample (fun i j _ _ => W i j) (net_view (cm_net m)) A data) = ct_with_AW m (upd2 M k1 k2 b) W). now rewrite HWr. }
  rewrite !EW in EA. exact EA.
Qed.

(** Gamma-mixture model: converged after one update (C97), from any start. *)
Lemma is_mean_const cs a : forall u, is_mean cs (fun _ => a) u a.
Proof.
  induction cs as [|(i, j) cs IH]; intros u; cbn [is_mean]; [reflexivity|]. exists (fun _ => a). split; [intros; apply IH|].
  pose proof (@is_RInt_const R_NormedModule 0 1 a) as H. unfold scal in H; cbn in H. unfold mult in H; cbn in H. now rewrite Rminus_0_r, Rmult_1_l in H.
Qed.
Theorem C136_mixture_networks : forall K kappa0 nu0 n data,
  (forall i j, (i < K)%nat -> (j < K)%nat -> mix_ok kappa0 nu0 n data i j /\ 0 <= n_P n i j <= 1) ->
  exists I, mixture_integrals kappa0 nu0 n data K I /\
  forall F, on_nodes K F ->
  converges_to K (fun A => cell_product I (pairs K) A * edge_prior K (n_P n) A) (fun _ u => mix_resample_A log_gamma kappa0 nu0 n u data) F.
Proof.
  intros K kappa0 nu0 n data Hok. destruct (@C97_mixture_update_exact K kappa0 nu0 n data Hok) as (I & HI & H). exists I. split; [exact HI|].
  intros F HF. destruct (H F HF) as (Hpos & Hm). split; [exact Hpos|]. cbv zeta in Hm. set (mu := _ / _) in *.
  destruct (bounds_nodes HF) as (lo & hi & Hb).
  exists (fun n A => match n with O => F A | S _ => mu end), (Rabs lo + Rabs hi + Rabs mu), 0. split; [lra|]. split; [reflexivity|]. split.
  - intros [|k] A; [exact Hm|]. intros u0. apply is_mean_const.
  - intros [|k] A.
    + cbn [pow]. rewrite Rmult_1_r. specialize (Hb A). revert Hb. unfold Rabs. repeat destruct Rcase_abs; intros; lra.
    + rewrite Rminus_eq_0, Rabs_R0. cbn [pow]. lra.
Qed.

(* ------------------------------------------------------------------ *)
(** ** Block labels *)
Definition on_labels (K : nat) (F : (nat -> nat) -> R) : Prop := forall c c', (forall k, (k < K)%nat -> c k = c' k) -> F c = F c'.
Lemma min_upto n (f : nat -> R) : (forall x, (x < n)%nat -> 0 < f x) -> exists eps, 0 < eps /\ forall x, (x < n)%nat -> eps <= f x.
Proof.
  induction n as [|n IH]; intros H; [exists 1; split; [lra|intros; lia]|]. destruct IH as (e & He & Hl); [auto|].
  exists (Rmin e (f n)). split; [apply Rmin_glb_lt; auto|]. intros x Hx. destruct (Nat.eq_dec x n) as [->|]; [apply Rmin_r|].
  eapply Rle_trans; [apply Rmin_l|apply Hl; lia].
Qed.
Lemma choice_eps n (P : nat -> R -> Prop) : (forall x, (x < n)%nat -> exists e, 0 < e /\ P x e) -> (forall x e e', P x e -> 0 < e' <= e -> P x e') ->
  exists e, 0 < e /\ forall x, (x < n)%nat -> P x e.
Proof.
  intros H HP. induction n as [|n IH]; [exists 1; split; [lra|intros; lia]|]. destruct IH as (e & He & Hl); [auto|]. destruct (H n ltac:(lia)) as (e' & He' & Hl').
  exists (Rmin e e'). assert (0 < Rmin e e') by now apply Rmin_glb_lt. split; [auto|]. intros x Hx. destruct (Nat.eq_dec x n) as [->|].
  - apply HP with e'; auto. split; [auto|apply Rmin_r].
  - apply HP with e; [apply Hl; lia|]. split; [auto|apply Rmin_l].
Qed.
Lemma min_labels C ks : forall f : (nat -> nat) -> R, (forall c c', (forall k, In k ks -> c k = c' k) -> f c = f c') ->
  (forall c, (forall k, In k ks -> (c k < C)%nat) -> 0 < f c) -> exists eps, 0 < eps /\ forall c, (forall k, In k ks -> (c k < C)%nat) -> eps <= f c.
Proof.
  induction ks as [|k ks IH]; intros f Hf Hp.
  - exists (f (fun _ => 0%nat)). split; [apply Hp; intros ? []|]. intros c _. right. apply Hf. intros ? [].
  - destruct (@choice_eps C (fun x e => forall c, (forall j, In j ks -> (c j < C)%nat) -> e <= f (upd c k x))) as (e & He & Hl).
    + intros x Hx. apply (IH (fun c => f (upd c k x))).
      * intros c c' H. apply Hf. intros j [<-|Hj]; unfold upd; [now rewrite !Nat.eqb_refl|]. destruct (Nat.eqb j k); auto.
      * intros c Hc. apply Hp. intros j Hj. unfold upd. destruct (Nat.eqb_spec j k); [auto|]. destruct Hj as [<-|Hj]; [congruence|auto].
    + intros x e e' H He' c Hc. specialize (H c Hc). lra.
    + exists e. split; [auto|]. intros c Hc. replace (f c) with (f (upd c k (c k))).
      * apply Hl; [apply Hc; now left|intros; apply Hc; now right].
      * apply Hf. intros j _. unfold upd. destruct (Nat.eqb_spec j k) as [->|]; reflexivity.
Qed.
Lemma min_range K C (f : (nat -> nat) -> R) : on_labels K f -> (forall c, in_range K C c -> 0 < f c) -> exists eps, 0 < eps /\ forall c, in_range K C c -> eps <= f c.
Proof.
  intros Hf Hp. destruct (@min_labels C (seq 0 K) f) as (e & He & Hl).
  - intros c c' H. apply Hf. intros k Hk. apply H, in_seq. lia.
  - intros c Hc. apply Hp. intros k Hk. apply Hc, in_seq. lia.
  - exists e. split; [auto|]. intros c Hc. apply Hl. intros k Hk. apply in_seq in Hk. apply Hc. lia.
Qed.
Lemma bounds_labels K C F : on_labels K F -> exists lo hi, forall c, in_range K C c -> lo <= F c <= hi.
Proof.
  intros HF. destruct (@min_range K C (fun c => exp (F c))) as (e1 & P1 & L1); [intros A B H; now rewrite (HF A B H)|intros; apply exp_pos|].
  destruct (@min_range K C (fun c => exp (- F c))) as (e0 & P0 & L0); [intros A B H; now rewrite (HF A B H)|intros; apply exp_pos|].
  exists (ln e1), (- ln e0). intros c Hc. split.
  - rewrite <- (ln_exp (F c)). destruct (L1 c Hc) as [H|H]; [left; now apply ln_increasing|right; now rewrite H].
  - assert (ln e0 <= - F c); [|lra]. rewrite <- (ln_exp (- F c)). destruct (L0 c Hc) as [H|H]; [left; now apply ln_increasing|right; now rewrite H].
Qed.
Lemma lkern_labels K C req ks F : (forall c c' k, (k < K)%nat -> (forall j, (j < K)%nat -> c j = c' j) -> req c k = req c' k) -> (forall k, In k ks -> (k < K)%nat) ->
  on_labels K F -> on_labels K (lkern C req ks F).
Proof.
  intros Hr Hin HF. induction ks as [|k ks IH]; intros c c' H; cbn [lkern]; [now apply HF|].
  rewrite (Hr c c' k (Hin k (or_introl eq_refl)) H). apply Rsum_ext. intros x Hx. f_equal. apply IH; [intros; apply Hin; now right|].
  intros j Hj. unfold upd. destruct (Nat.eqb j k); auto.
Qed.
Lemma lkern_above K C req ks F G a b : (0 < C)%nat -> (forall c, in_range K C c -> a + b * G c <= F c) ->
  forall c, in_range K C c -> a + b * lkern C req ks G c <= lkern C req ks F c.
Proof.
  intros HC HF. induction ks as [|k ks IH]; intros c Hc; cbn [lkern]; [auto|].
  apply Rle_trans with (Rsum C (fun x => soft C (req c k) x * (a + b * lkern C req ks G (upd c k x)))).
  - right. rewrite (@Rsum_ext C (fun x => soft C (req c k) x * (a + b * lkern C req ks G (upd c k x))) (fun x => a * soft C (req c k) x + b * (soft C (req c k) x * lkern C req ks G (upd c k x)))).
    + rewrite Rsum_plus, !Rsum_scal, (soft_sum (req c k) HC). ring.
    + intros; ring.
  - apply Rsum_le. intros x Hx. apply Rmult_le_compat_l; [left; now apply soft_pos|]. apply IH. now apply in_range_upd.
Qed.
Lemma lkern_below K C req ks F G a b : (0 < C)%nat -> (forall c, in_range K C c -> F c <= a + b * G c) ->
  forall c, in_range K C c -> lkern C req ks F c <= a + b * lkern C req ks G c.
Proof.
  intros HC HF. induction ks as [|k ks IH]; intros c Hc; cbn [lkern]; [auto|].
  apply Rle_trans with (Rsum C (fun x => soft C (req c k) x * (a + b * lkern C req ks G (upd c k x)))).
  - apply Rsum_le. intros x Hx. apply Rmult_le_compat_l; [left; now apply soft_pos|]. apply IH. now apply in_range_upd.
  - right. rewrite (@Rsum_ext C (fun x => soft C (req c k) x * (a + b * lkern C req ks G (upd c k x))) (fun x => a * soft C (req c k) x + b * (soft C (req c k) x * lkern C req ks G (upd c k x)))).
    + rewrite Rsum_plus, !Rsum_scal, (soft_sum (req c k) HC). ring.
    + intros; ring.
Qed.

Lemma lkern_contracts K C req c' eps F lo hi : (0 < C)%nat -> in_range K C c' ->
  (forall c, in_range K C c -> eps <= lkern C req (seq 0 K) (fun b => b2R (agree1 K b c')) c) -> on_labels K F -> (forall c, in_range K C c -> lo <= F c <= hi) ->
  forall c, in_range K C c -> lo + eps * (F c' - lo) <= lkern C req (seq 0 K) F c <= hi - eps * (hi - F c').
Proof.
  intros HC Hc' He HF Hb c Hc. pose proof (Hb c' Hc') as Hs.
  assert (Hh : forall B, (b2R (agree1 K B c') = 1 /\ F B = F c') \/ b2R (agree1 K B c') = 0).
  { intros B. destruct (agree1 K B c') eqn:E; [left|right; reflexivity]. split; [reflexivity|]. apply HF. now apply agree1_spec. }
  specialize (He c Hc). split.
  - apply Rle_trans with (lo + (F c' - lo) * lkern C req (seq 0 K) (fun b => b2R (agree1 K b c')) c).
    + pose proof (Rmult_le_compat_l (F c' - lo) _ _ ltac:(lra) He). lra.
    + apply (@lkern_above K); auto. intros B HB. destruct (Hh B) as [[-> ->]| ->]; [lra|]. pose proof (Hb B HB). lra.
  - apply Rle_trans with (hi + (F c' - hi) * lkern C req (seq 0 K) (fun b => b2R (agree1 K b c')) c).
    + apply (@lkern_below K); auto. intros B HB. destruct (Hh B) as [[-> ->]| ->]; [lra|]. pose proof (Hb B HB). lra.
    + pose proof (Rmult_le_compat_l (hi - F c') _ _ ltac:(lra) He). lra.
Qed.
Fixpoint literate (C : nat) (req : (nat -> nat) -> nat -> nat -> er) (K : nat) (F : (nat -> nat) -> R) (n : nat) : (nat -> nat) -> R :=
  match n with O => F | S n' => lkern C req (seq 0 K) (literate C req K F n') end.
Lemma literate_range K C req c' eps F lo hi : (0 < C)%nat -> in_range K C c' ->
  (forall c b k, (k < K)%nat -> (forall j, (j < K)%nat -> c j = b j) -> req c k = req b k) ->
  (forall c, in_range K C c -> eps <= lkern C req (seq 0 K) (fun b => b2R (agree1 K b c')) c) -> on_labels K F -> (forall c, in_range K C c -> lo <= F c <= hi) ->
  forall n, on_labels K (literate C req K F n) /\ exists l h, h - l = (1 - eps) ^ n * (hi - lo) /\ forall c, in_range K C c -> l <= literate C req K F n c <= h.
Proof.
  intros HC Hc' Hr He HF Hb. induction n as [|n (IHn & l & h & E & IH)]; cbn [literate].
  - split; [auto|]. exists lo, hi. cbn [pow]. split; [ring|auto].
  - split; [apply lkern_labels; auto; intros k Hk; apply in_seq in Hk; lia|].
    exists (l + eps * (literate C req K F n c' - l)), (h - eps * (h - literate C req K F n c')). split.
    + cbn [pow]. rewrite Rmult_assoc, <- E. ring.
    + intros c Hc. apply (@lkern_contracts K C req c' eps (literate C req K F n) l h); auto.
Qed.
Lemma c_request_labels lgam s A W c c' k : (k < sb_K s)%nat -> (forall j, (j < sb_K s)%nat -> c j = c' j) ->
  c_request lgam s A W c k = c_request lgam s A W c' k.
Proof.
  intros Hk H. apply functional_extensionality. intros x. unfold c_request.
  assert (E : forall j, (j < sb_K s)%nat -> upd c k x j = upd c' k x j) by (intros j Hj; unfold upd; destruct (Nat.eqb j k); auto).
  do 2 f_equal. f_equal; [f_equal; [f_equal|]|]; apply Rsum_ext; intros j Hj; now rewrite E.
Qed.
Lemma overl_le K C ks : forall c F G, in_range K C c -> (forall b, in_range K C b -> F b <= G b) -> over_labels C ks c F <= over_labels C ks c G.
Proof.
  induction ks as [|k ks IH]; intros c F G Hc H; cbn [over_labels]; [auto|]. apply Rsum_le. intros x Hx. apply IH; auto. now apply in_range_upd.
Qed.
Lemma overl_scal C ks a : forall c F, over_labels C ks c (fun b => a * F b) = a * over_labels C ks c F.
Proof.
  induction ks as [|k ks IH]; intros c F; cbn [over_labels]; [reflexivity|]. rewrite <- Rsum_scal. apply Rsum_ext. intros x _. apply IH.
Qed.
Lemma overl_pos C ks : (0 < C)%nat -> forall c F, (forall b, 0 < F b) -> 0 < over_labels C ks c F.
Proof. intros HC. induction ks as [|k ks IH]; intros c F H; cbn [over_labels]; [auto|]. apply Rsum_pos; auto. Qed.

(** e n c is the mean of F after n sweeps from the labels c, each with its own uniforms; it approaches the mean of F under
    the density proportional to d, geometrically and uniformly over the starts. *)
Definition labels_converge_to (s : sbm) (d : (nat -> nat) -> R) (update : (nat -> nat) -> vec -> nat -> nat) (F : (nat -> nat) -> R) : Prop :=
  let sum := over_labellings (sb_K s) (sb_C s) in
  let valid c := forall k, (k < sb_K s)%nat -> (c k < sb_C s)%nat in
  0 < sum d /\
  exists (e : nat -> (nat -> nat) -> R) (M r : R), 0 <= r < 1 /\ (forall c, e 0%nat c = F c) /\
    (forall n c, valid c -> uniform_mean1 (sb_K s) (fun u => e n (update c u)) (e (S n) c)) /\
    forall n c, valid c -> Rabs (e n c - sum (fun c => d c * F c) / sum d) <= M * r ^ n.
(** The density is the one of C128: the posterior with the self pairs counted once or twice too often. *)
Theorem C136_labels : forall lgam s A W, (1 < sb_C s)%nat -> sbm_pos s -> pos_edges (sb_K s) A W ->
  forall F, on_labels (sb_K s) F ->
  labels_converge_to s (fun c => posterior lgam s A W c * extra_self lgam s A W c) (fun c u => label_sweep lgam (with_labels s c) A W u) F.
Proof.
  intros lgam s A W HC Hp HW F HF. set (K := sb_K s) in *. set (C := sb_C s) in *. assert (HC0 : (0 < C)%nat) by lia.
  set (req := fun c k => c_request lgam s A W c k). set (d := fun c => posterior lgam s A W c * extra_self lgam s A W c).
  set (c0 := fun _ : nat => 0%nat). assert (Hc0 : in_range K C c0) by (intros j _; exact HC0).
  assert (Hreq : forall c b k, (k < K)%nat -> (forall j, (j < K)%nat -> c j = b j) -> req c k = req b k) by (intros; now apply c_request_labels).
  assert (Hin : forall k, In k (seq 0 K) -> (k < K)%nat) by (intros k Hk; apply in_seq in Hk; lia).
  set (hitc := fun b => b2R (agree1 K b c0)).
  assert (Hhl : on_labels K hitc).
  { intros c b H. unfold hitc. destruct (agree1 K c c0) eqn:E1, (agree1 K b c0) eqn:E2; try reflexivity; exfalso.
    - rewrite agree1_spec in E1. assert (E : agree1 K b c0 = true) by (apply agree1_spec; intros; rewrite <- H by auto; auto). congruence.
    - rewrite agree1_spec in E2. assert (E : agree1 K c c0 = true) by (apply agree1_spec; intros; rewrite H by auto; auto). congruence. }
  destruct (@min_range K C (lkern C req (seq 0 K) hitc)) as (eps & Heps & Hle).
  { apply lkern_labels; auto. }
  { intros c _. apply lkern_hit; auto. intros k Hk Hn. exfalso. apply Hn, in_seq. lia. }
  assert (Heps1 : eps <= 1).
  { eapply Rle_trans; [apply (Hle c0 Hc0)|]. eapply Rle_trans; [apply (@lkern_below K C req (seq 0 K) hitc (fun _ => 0) 1 0 HC0)|lra].
    - intros c _. unfold hitc. destruct (agree1 K c c0); cbn; lra.
    - exact Hc0. }
  destruct (bounds_labels C HF) as (lo & hi & Hb).
  assert (Hd : forall c, 0 < d c) by (intros; apply Rmult_lt_0_compat; apply exp_pos).
  assert (Hsum : 0 < over_labellings K C d) by now apply overl_pos.
  assert (Hmean : forall n c, in_range K C c -> uniform_mean1 K (fun u => literate C req K F n (label_sweep lgam (with_labels s c) A W u)) (literate C req K F (S n) c)).
  { intros n c Hc u0. cbn [literate]. eapply is_mean1_ext; [apply seq_NoDup| |apply (@lscan_mean C req (seq 0 K) (literate C req K F n) HC0); apply seq_NoDup].
    intros u' _. cbv beta. unfold label_sweep, resample_c. cbn [with_labels sb_set sb_C sb_c sb_K]. destruct (Nat.eqb_spec (sb_C s) 1); [fold C in e; lia|]. reflexivity. }
  assert (Hinv : forall n, over_labellings K C (fun c => d c * literate C req K F n c) = over_labellings K C (fun c => d c * F c)).
  { induction n as [|n IH]; [reflexivity|]. rewrite <- IH.
    destruct (@C128_sweep_law lgam s A W HC0 Hp HW (literate C req K F n)) as (e & He & Hi). 
    assert (Hi' : over_labellings K C (fun c => d c * e c) = over_labellings K C (fun c => d c * literate C req K F n c)) by exact Hi.
    rewrite <- Hi'. unfold over_labellings. apply (@overl_ext K); [exact Hc0|]. intros c Hc. f_equal.
    apply (@is_mean1_unique _ _ _ _ _ (Hmean n c Hc (fun _ => 0)) (He c Hc (fun _ => 0))). }
  cbv zeta. fold K C. split; [exact Hsum|]. exists (literate C req K F), (hi - lo), (1 - eps). split; [lra|]. split; [reflexivity|]. split; [exact Hmean|].
  intros n c Hc. destruct (@literate_range K C req c0 eps F lo hi HC0 Hc0 Hreq Hle HF Hb n) as (Hn & l & h & E & Hlh).
  change (Rabs (literate C req K F n c - over_labellings K C (fun c => d c * F c) / over_labellings K C d) <= (hi - lo) * (1 - eps) ^ n).
  rewrite <- (Hinv n). set (S1 := over_labellings K C (fun c => d c * literate C req K F n c)).
  assert (B1 : l * over_labellings K C d <= S1).
  { unfold S1, over_labellings. rewrite <- overl_scal. apply (@overl_le K); [exact Hc0|]. intros b Hb'. rewrite Rmult_comm. apply Rmult_le_compat_l; [left; auto|apply Hlh; auto]. }
  assert (B2 : S1 <= h * over_labellings K C d).
  { unfold S1, over_labellings. rewrite <- overl_scal. apply (@overl_le K); [exact Hc0|]. intros b Hb'. rewrite (Rmult_comm h). apply Rmult_le_compat_l; [left; auto|apply Hlh; auto]. }
  set (mu := S1 / over_labellings K C d). assert (Emu : S1 = mu * over_labellings K C d) by (unfold mu; field; lra).
  rewrite Emu in B1, B2. apply Rmult_le_reg_r in B1; [|auto]. apply Rmult_le_reg_r in B2; [|auto].
  pose proof (Hlh c Hc). rewrite Rmult_comm, <- E. apply Rabs_le. lra.
Qed.

(** The hypotheses are met by the examples of C135; a statistic with different means from different starts. *)
Example C136_nonvacuous :
  (dm_mix ex_m_data = false /\ nonneg_params ex_m_data /\ good_data ex_m_data (dm_data ex_m_data) /\
   (forall i j, (i < 2)%nat -> (j < 2)%nat -> 0 <= n_P ex_net i j <= 1) /\ on_nodes 2 (fun A => b2R (A 0%nat 1%nat))) /\
  (forall i j, (i < 2)%nat -> (j < 2)%nat -> mix_ok (1/10) 10 ex_net [ex_child] i j) /\
  (net_ok (cm_K (ex_ct 1)) (cm_net (ex_ct 1)) /\ params_ok (ex_ct 1) /\ data_ok (cm_K (ex_ct 1)) (ex_rec 1)) /\
  ((1 < sb_C (ex_sbm true))%nat /\ sbm_pos (ex_sbm true) /\ pos_edges (sb_K (ex_sbm true)) ex_adj (fun _ _ => 1) /\ sb_K (ex_sbm true) = 3%nat /\
   on_labels 3 (fun c => INR (c 1%nat))).
Proof.
  destruct C97_nonvacuous as ((H1 & H2 & H3 & H4 & H5 & _) & H7 & H6). destruct C31_nonvacuous as (A1 & _ & _ & A2 & _).
  split; [auto|]. split; [exact H7|]. split; [exact H6|]. split; [cbn; lia|]. split; [auto|]. split; [auto|]. split; [reflexivity|].
  intros c c' H. now rewrite H by lia.
Qed.

Print Assumptions C136_networks.
Print Assumptions C136_continuous_networks.
Print Assumptions C136_labels.
Print Assumptions C136_mixture_networks.
