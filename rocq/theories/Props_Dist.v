(** * Props_Dist: distribution objects (C71). *)
From Coq Require Import FunctionalExtensionality.
From Verif Require Import Prelude ExtReal Arrays Spec_Gibbs M_Dist.
Set Implicit Arguments.
Open Scope R_scope.

(** ** Specification: expectations as normalised linear functionals *)
Definition expectation {X} (E : (X -> R) -> R) : Prop :=
  (forall a f b g, E (fun x => a * f x + b * g x) = a * E f + b * E g) /\ E (fun _ => 1) = 1.

Lemma E_const {X} (E : (X -> R) -> R) c : expectation E -> E (fun _ => c) = c.
Proof.
  intros [HL H1]. pose proof (HL c (fun _ => 1) 0 (fun _ => 1)) as H. cbn beta in H.
  rewrite H1 in H. replace (fun _ : X => c * 1 + 0 * 1) with (fun _ : X => c) in H; [lra|].
  apply functional_extensionality; intros; ring.
Qed.
Lemma E_ext {X} (E : (X -> R) -> R) f g : (forall x, f x = g x) -> E f = E g.
Proof. intros H. f_equal. now apply functional_extensionality. Qed.
Lemma E_plus {X} (E : (X -> R) -> R) f g : expectation E -> E (fun x => f x + g x) = E f + E g.
Proof.
  intros [HL _]. rewrite (@E_ext _ E _ (fun x => 1 * f x + 1 * g x)) by (intros; ring). rewrite HL. ring.
Qed.
Lemma E_scal {X} (E : (X -> R) -> R) c f : expectation E -> E (fun x => c * f x) = c * E f.
Proof.
  intros [HL _]. rewrite (@E_ext _ E _ (fun x => c * f x + 0 * f x)) by (intros; ring). rewrite HL. ring.
Qed.
Lemma E_Rsum {X} (E : (X -> R) -> R) n (f : nat -> X -> R) : expectation E ->
  E (fun x => Rsum n (fun b => f b x)) = Rsum n (fun b => E (f b)).
Proof.
  intros HE. induction n as [|n IH]; cbn [Rsum]; [now apply E_const|].
  rewrite E_plus by auto. now rewrite IH.
Qed.

(** ** Bernoulli *)
Lemma emul0_log p : 0 <= p -> emul (Fin 0) (elog (Fin p)) = Fin 0 \/ (p = 0 /\ emul (Fin 0) (elog (Fin p)) = NaN).
Proof.
  intros Hp. destruct (Rle_lt_or_eq_dec _ _ Hp) as [H|H].
  - left. rewrite elog_fin by auto. cbn. f_equal. ring.
  - right. split; [auto|]. subst p. rewrite elog_0. cbn. unfold einf_sign, Rltb. destruct (Rlt_dec 0 0); [lra|reflexivity].
Qed.
Lemma emul1 x : emul (Fin 1) x = x.
Proof.
  destruct x; cbn; auto; [now rewrite Rmult_1_l| |];
    unfold einf_sign, Rltb; (destruct (Rlt_dec 0 1); [reflexivity|lra]).
Qed.

(** log_probability of a 0/1 value is the log of its probability, and the most negative
    double when that probability is zero. *)
Theorem C71_bernoulli_log_probability : forall p x, 0 <= p <= 1 -> x = 0 \/ x = 1 ->
  let pr := if Reqb x 1 then p else 1 - p in
  (0 < pr -> bernoulli_lp p x = ln pr) /\ (pr = 0 -> bernoulli_lp p x = - dbl_max).
Proof.
  intros p x [H0 H1] Hx. unfold bernoulli_lp. destruct Hx as [-> | ->].
  - destruct (Reqb 0 1) eqn:E; [apply Reqb_true in E; lra|]. cbn zeta.
    replace (1 - 0) with 1 by ring. rewrite emul1.
    destruct (emul0_log H0) as [-> | [-> ->]].
    + split; intros H.
      * rewrite elog_fin by lra. cbn. ring.
      * rewrite H, elog_0. reflexivity.
    + replace (1 - 0) with 1 by ring. split; intros H; [|lra]. cbn. now rewrite ln_1.
  - destruct (Reqb 1 1) eqn:E; [|apply Reqb_false in E; lra]. cbn zeta.
    replace (1 - 1) with 0 by ring. rewrite emul1.
    assert (H2 : 0 <= 1 - p) by lra. destruct (emul0_log H2) as [-> | [Hp ->]].
    + split; intros H.
      * rewrite elog_fin by lra. cbn. ring.
      * rewrite H, elog_0. reflexivity.
    + assert (p = 1) by lra. subst p. split; intros H; [|lra].
      rewrite ln_1. rewrite elog_fin by lra. reflexivity.
Qed.
Print Assumptions C71_bernoulli_log_probability.

(** negentropy is the expected log probability for 0 < p < 1 ... *)
Theorem C71_bernoulli_negentropy : forall p, 0 < p < 1 ->
  bernoulli_negentropy p = Fin (p * bernoulli_lp p 1 + (1 - p) * bernoulli_lp p 0).
Proof.
  intros p Hp. unfold bernoulli_negentropy, bernoulli_negentropy_with, bernoulli_lp.
  rewrite !elog_fin by lra. cbn. f_equal. ring.
Qed.
(** ... and NaN for the degenerate p = 0 and p = 1, whose negative entropy is 0. *)
Theorem C71_bernoulli_negentropy_refuted : bernoulli_negentropy 0 = NaN /\ bernoulli_negentropy 1 = NaN.
Proof.
  split; unfold bernoulli_negentropy, bernoulli_negentropy_with.
  - rewrite elog_0. cbn. unfold einf_sign, Rltb. destruct (Rlt_dec 0 0); [lra|]. reflexivity.
  - replace (1 - 1) with 0 by ring. rewrite elog_0. rewrite elog_fin by lra. cbn.
    unfold einf_sign, Rltb. destruct (Rlt_dec 0 0); [lra|]. reflexivity.
Qed.
Print Assumptions C71_bernoulli_negentropy_refuted.

(** ** Gamma *)
Theorem C71_gamma_log_probability : forall lgam alpha beta x, 0 < beta -> 0 < x ->
  gamma_lp lgam alpha beta x = gamma_lpdf lgam alpha beta x.
Proof. intros. unfold gamma_lp, gamma_lpdf. rewrite !elog_fin by auto. cbn. ring. Qed.
Print Assumptions C71_gamma_log_probability.

(** For independent rate b and value x the negative entropy is the expected log density. *)
Theorem C71_gamma_negentropy : forall lgam alpha (E : (R * R -> R) -> R), expectation E ->
  E (fun p => fst p * snd p) = E fst * E snd ->
  gamma_negentropy_with lgam alpha (E (fun p => ln (snd p))) (E snd) (E fst) (E (fun p => ln (fst p)))
  = E (fun p => gamma_lpdf lgam alpha (fst p) (snd p)).
Proof.
  intros lgam alpha E HE Hind. unfold gamma_negentropy_with, gamma_lpdf.
  rewrite (@E_ext _ E (fun p => alpha * ln (fst p) - lgam alpha + (alpha - 1) * ln (snd p) - fst p * snd p) (fun p => (alpha * ln (fst p) + (- lgam alpha))
     + ((alpha - 1) * ln (snd p) + (-1) * (fst p * snd p)))) by (intros; ring).
  rewrite !E_plus, !E_scal, E_const by auto. rewrite Hind. ring.
Qed.
Print Assumptions C71_gamma_negentropy.

(** ** Discrete *)
Definition prob_vec (D : nat) (p : vec) : Prop := (forall i, (i < D)%nat -> 0 <= p i) /\ Rsum D p = 1.
Lemma onehot_zero D i : (i < D)%nat -> Zsum D (fun j => if Nat.eqb j i then 1%Z else 0%Z) = 1%Z.
Proof.
  intros Hi. apply eq_IZR. rewrite IZR_Zsum.
  rewrite (Rsum_ext _ (fun j => if Nat.eqb j i then 1 else 0)) by (intros j _; destruct (Nat.eqb j i); reflexivity).
  rewrite (Rsum_ind D i (fun _ => 1)). destruct (Nat.ltb_spec i D); [reflexivity|lia].
Qed.
Theorem C71_discrete_onehot_partial : forall D p i, (i < D)%nat ->
  (forall j, (j < D)%nat -> 0 < p j) ->
  discrete_lp D p (OneHot D (fun j => if Nat.eqb j i then 1%Z else 0%Z)) = Ok (Fin (ln (p i))).
Proof.
  intros D p i Hi Hp. unfold discrete_lp. rewrite Nat.eqb_refl, onehot_zero by auto. cbn [andb Z.eqb Pos.eqb guard bindr].
  f_equal. rewrite (@esum_fin D _ (fun j => if Nat.eqb j i then ln (p j) else 0)).
  - rewrite (Rsum_ind D i (fun j => ln (p j))). destruct (Nat.ltb_spec i D); [reflexivity|lia].
  - intros j Hj. rewrite elog_fin by auto. rewrite emul_fin. f_equal. destruct (Nat.eqb j i); ring.
Qed.
Print Assumptions C71_discrete_onehot_partial.
(** With a zero-probability category the observation of another category gives NaN,
    and the documented index form always raises. *)
Theorem C71_discrete_refuted :
  (exists D p i, prob_vec D p /\ (i < D)%nat /\ 0 < p i /\
     discrete_lp D p (OneHot D (fun j => if Nat.eqb j i then 1%Z else 0%Z)) = Ok NaN) /\
  (forall D p i, is_ok (discrete_lp D p (PyInt i)) = false /\ is_ok (discrete_lp D p (NpInt i)) = false).
Proof.
  split; [|intros; split; reflexivity].
  exists 2%nat, (fun i => match i with O => 1 | _ => 0 end), 0%nat. repeat split.
  - intros [|i] _; lra.
  - cbn. ring.
  - lia.
  - lra.
  - cbn [discrete_lp Nat.eqb Zsum Z.add Z.eqb Pos.eqb andb guard bindr esum]. f_equal.
    rewrite elog_0, elog_fin by lra. cbn. unfold einf_sign, Rltb. destruct (Rlt_dec 0 0); [lra|]. reflexivity.
Qed.
Print Assumptions C71_discrete_refuted.
Theorem C71_discrete_negentropy : forall D (p : vec),
  (forall i, (i < D)%nat -> 0 < p i) ->
  discrete_negentropy D p None None = Rsum D (fun i => p i * ln (p i)).
Proof.
  intros D p Hp. unfold discrete_negentropy. rewrite (@esum_fin D _ (fun i => p i * ln (p i))); [reflexivity|].
  intros i Hi. now rewrite elog_fin, emul_fin by auto.
Qed.

(** ** Dirichlet and Beta *)
Lemma dirichlet_lp_ok : forall lgam rows n gamma x, (0 < rows)%nat -> (0 < n)%nat ->
  (forall r b, (r < rows)%nat -> (b < n)%nat -> 0 <= x r b) -> (forall r, (r < rows)%nat -> Rsum n (x r) = 1) ->
  dirichlet_lp lgam rows n gamma x =
  Ok (fun r => eadd (Fin (lgam (Rsum rows (fun r' => Rsum n (gamma r'))) - Rsum rows (fun r' => Rsum n (fun b => lgam (gamma r' b)))))
                    (esum n (fun b => emul (Fin (gamma r b - 1)) (elog (Fin (x r b)))))).
Proof.
  intros lgam rows n gamma x Hr Hn Hx Hs. unfold dirichlet_lp.
  replace (forall_lt rows (fun r => close1 (Rsum n (x r)))) with true.
  2:{ symmetry. apply forall_lt_true. intros i Hi. rewrite Hs by exact Hi. unfold close1.
      apply Rleb_true. replace (1 - 1) with 0 by ring. rewrite Rabs_R0. lra. }
  replace (0 <? rows * n)%nat with true by (symmetry; apply Nat.ltb_lt; nia).
  replace (forall_lt rows (fun r => forall_lt n (fun b => Rleb 0 (x r b)))) with true; [reflexivity|].
  symmetry. apply forall_lt_true. intros i Hi. apply forall_lt_true. intros b Hb. apply Rleb_true. auto.
Qed.
Lemma Rsum_one_pos n (f : vec) : Rsum n f = 1 -> (0 < n)%nat.
Proof. destruct n; [cbn; lra|lia]. Qed.
Theorem C71_dirichlet_single : forall lgam n gamma x,
  (forall b, (b < n)%nat -> 0 < x 0%nat b) -> Rsum n (x 0%nat) = 1 ->
  exists lp, dirichlet_lp lgam 1 n gamma x = Ok lp /\ lp 0%nat = Fin (dirichlet_lpdf lgam n (gamma 0%nat) (x 0%nat)).
Proof.
  intros lgam n gamma x Hx Hs. pose proof (@Rsum_one_pos n _ Hs) as Hn. rewrite dirichlet_lp_ok; auto.
  - eexists. split; [reflexivity|]. cbv beta. rewrite (@esum_fin n _ (fun b => (gamma 0%nat b - 1) * ln (x 0%nat b))).
    2:{ intros b Hb. rewrite elog_fin by auto. apply emul_fin. }
    cbn [eadd Rsum]. unfold dirichlet_lpdf. change (fun b => gamma 0%nat b) with (gamma 0%nat). rewrite !Rplus_0_l. reflexivity.
  - intros r b Hr Hb. assert (r = 0%nat) as -> by lia. left. auto.
  - intros r Hr. assert (r = 0%nat) as -> by lia. exact Hs.
Qed.
Print Assumptions C71_dirichlet_single.

(** Several rows at once: each row's value is off by the difference of the normalisers. *)
Theorem C71_dirichlet_rows_partial : forall lgam rows n gamma x lp r,
  dirichlet_lp lgam rows n gamma x = Ok lp -> (r < rows)%nat -> (forall b, (b < n)%nat -> 0 < x r b) ->
  lp r = Fin (dirichlet_lpdf lgam n (gamma r) (x r)
   + (lgam (Rsum rows (fun r' => Rsum n (gamma r'))) - lgam (Rsum n (gamma r)))
   - (Rsum rows (fun r' => Rsum n (fun b => lgam (gamma r' b))) - Rsum n (fun b => lgam (gamma r b)))).
Proof.
  intros lgam rows n gamma x lp r H Hr Hx. unfold dirichlet_lp in H.
  destruct (forall_lt rows _); cbn [guard bindr] in H; [|discriminate]. destruct (0 <? rows * n)%nat; cbn [guard bindr] in H; [|discriminate].
  destruct (forall_lt rows _); cbn [guard bindr] in H; [|discriminate]. match type of H with Ok ?a = Ok ?b => assert (Q : a = b) by congruence; rewrite <- Q end. cbv beta.
  rewrite (@esum_fin n _ (fun b => (gamma r b - 1) * ln (x r b))).
  2:{ intros b Hb. rewrite elog_fin by auto. apply emul_fin. }
  cbn [eadd]. f_equal. unfold dirichlet_lpdf. change (fun b => gamma r b) with (gamma r). ring.
Qed.
(** On the boundary of the simplex -- accepted by the assertion -- the value is minus infinity where the concentration exceeds
    1, as the density says; but for concentration exactly 1, the uniform law, it is NaN instead of the constant density. *)
Theorem C71_dirichlet_boundary_refuted : forall lgam n gamma x c,
  (forall b, (b < n)%nat -> b <> c -> 0 < x 0%nat b) -> (c < n)%nat -> x 0%nat c = 0 -> Rsum n (x 0%nat) = 1 ->
  exists lp, dirichlet_lp lgam 1 n gamma x = Ok lp /\
    (1 < gamma 0%nat c -> lp 0%nat = NInf) /\ (gamma 0%nat c = 1 -> lp 0%nat = NaN).
Proof.
  intros lgam n gamma x c Hx Hc H0 Hs. rewrite dirichlet_lp_ok; [|lia|lia| |].
  2:{ intros r b Hr Hb. assert (r = 0%nat) as -> by lia. destruct (Nat.eq_dec b c) as [->|]; [lra|left; auto]. }
  2:{ intros r Hr. assert (r = 0%nat) as -> by lia. exact Hs. }
  eexists. split; [reflexivity|]. cbv beta. split.
  - intros Hg. assert (Q : forall m, (m <= n)%nat -> esum m (fun b => emul (Fin (gamma 0%nat b - 1)) (elog (Fin (x 0%nat b)))) =
       if (c <? m)%nat then NInf else Fin (Rsum m (fun b => (gamma 0%nat b - 1) * ln (x 0%nat b)))).
    { induction m as [|m IH]; intros Hm; cbn [esum]; [reflexivity|]. rewrite IH by lia.
      destruct (Nat.eq_dec m c) as [->|Hne].
      - rewrite Nat.ltb_irrefl. replace (c <? S c)%nat with true by (symmetry; apply Nat.ltb_lt; lia).
        rewrite H0, elog_0. cbn [emul]. unfold einf_sign. replace (Rltb 0 (gamma 0%nat c - 1)) with true by (symmetry; apply Rltb_true; lra). reflexivity.
      - rewrite elog_fin by (apply Hx; lia). rewrite emul_fin. destruct (Nat.ltb_spec c m), (Nat.ltb_spec c (S m)); try lia; reflexivity. }
    rewrite Q by lia. replace (c <? n)%nat with true by (symmetry; now apply Nat.ltb_lt). reflexivity.
  - intros Hg. rewrite (@esum_NaN n _ c Hc); [reflexivity|]. rewrite H0, elog_0, Hg. replace (1 - 1) with 0 by ring.
    cbn [emul]. unfold einf_sign. replace (Rltb 0 0) with false by (symmetry; apply Rltb_false; lra). reflexivity.
Qed.
Print Assumptions C71_dirichlet_boundary_refuted.
(** Means: of a Dirichlet they sum to one; of a Beta, tau1/(tau1+tau0); and the two logarithmic means are swapped by swapping
    the parameters. *)
Theorem C71_dirichlet_means : forall psi n gamma r (tau1 tau0 : vec),
  (0 < Rsum n (gamma r) -> Rsum n (dirichlet_mean n gamma r) = 1) /\
  (tau1 r + tau0 r <> 0 -> beta_mean tau1 tau0 r = tau1 r / (tau1 r + tau0 r) /\ beta_mean tau0 tau1 r = 1 - beta_mean tau1 tau0 r) /\
  beta_mean_log psi tau1 tau0 r = psi (tau1 r) - psi (tau1 r + tau0 r) /\
  beta_mean_lognot psi tau1 tau0 r = psi (tau0 r) - psi (tau1 r + tau0 r) /\
  beta_mean_lognot psi tau1 tau0 r = beta_mean_log psi tau0 tau1 r.
Proof.
  intros psi n gamma r tau1 tau0. unfold dirichlet_mean, beta_mean, beta_mean_log, beta_mean_lognot, dirichlet_mean, dirichlet_mean_log.
  cbn [Rsum pair_rows]. rewrite !Rplus_0_l. split; [|split; [|split; [|split]]]; try reflexivity.
  - intros H. rewrite Rsum_div. field. lra.
  - intros H. split; [reflexivity|]. rewrite (Rplus_comm (tau0 r)). field. exact H.
  - now rewrite (Rplus_comm (tau0 r)).
Qed.
Print Assumptions C71_dirichlet_means.
(** An expectation passed alone to Beta.negentropy is ignored. *)
Theorem C71_beta_half_override_refuted : forall lgam psi rows rowsE tau1 tau0 (E : vec),
  beta_negentropy_args lgam psi rows rowsE tau1 tau0 (Some E) None = beta_negentropy lgam psi rows tau1 tau0 /\
  beta_negentropy_args lgam psi rows rowsE tau1 tau0 None (Some E) = beta_negentropy lgam psi rows tau1 tau0 /\
  beta_negentropy_args lgam psi rows rows tau1 tau0 (Some (beta_mean_log psi tau1 tau0)) (Some (beta_mean_lognot psi tau1 tau0))
    = beta_negentropy lgam psi rows tau1 tau0.
Proof.
  intros. split; [reflexivity|]. split; [reflexivity|]. cbn [beta_negentropy_args]. unfold beta_negentropy_with, beta_negentropy, dirichlet_negentropy.
  unfold dirichlet_negentropy_with. reflexivity.
Qed.
Print Assumptions C71_beta_half_override_refuted.
(** Hence log_probability of a 2-row Beta, as used in the SBM prior with C >= 2 blocks, is not
    the log density, for any function with lgam 1 = lgam 2 = 0, lgam 4 = ln 6
    (such as the log of the gamma function: p uniform on (0,1) has log density 0). *)
Theorem C71_beta_rows_refuted : forall lgam, lgam 1 = 0 -> lgam 2 = 0 -> lgam 4 = ln 6 ->
  exists lp, beta_lp lgam 2 (fun _ => 1) (fun _ => 1) (fun _ => 1/2) = Ok lp /\
  beta_lpdf lgam 1 1 (1/2) = 0 /\ lp 0%nat = Fin (ln 6) /\ lp 0%nat <> Fin 0.
Proof.
  intros lgam H1 H2 H4. unfold beta_lp. rewrite dirichlet_lp_ok; [|lia|lia| |].
  2:{ intros r [|b] _ _; cbn; lra. }
  2:{ intros r _. cbn. lra. }
  eexists. split; [reflexivity|].
  assert (0 < ln 6) by (rewrite <- ln_1; apply ln_increasing; lra).
  assert (E : eadd (Fin (lgam (Rsum 2 (fun r' => Rsum 2 (pair_rows (fun _ => 1) (fun _ => 1) r'))) -
      Rsum 2 (fun r' => Rsum 2 (fun b => lgam (pair_rows (fun _ => 1) (fun _ => 1) r' b)))))
      (esum 2 (fun b => emul (Fin (pair_rows (fun _ => 1) (fun _ => 1) 0%nat b - 1)) (elog (Fin (pair_rows (fun _ => 1/2) (fun _ => 1 - 1/2) 0%nat b))))) = Fin (ln 6)).
  { cbn [Rsum esum pair_rows]. rewrite !elog_fin by lra. rewrite !emul_fin. cbn [eadd]. f_equal.
    replace (0 + (0 + 1 + 1) + (0 + 1 + 1)) with 4 by ring. rewrite H4, H1. ring. }
  split; [|split].
  - unfold beta_lpdf. replace (1 + 1) with 2 by ring. rewrite H1, H2. ring.
  - exact E.
  - cbv beta. rewrite E. intros [= Q]. lra.
Qed.
Print Assumptions C71_beta_rows_refuted.

(** The negative entropy of rows with their own parameters is the sum of expected log densities. *)
Theorem C71_dirichlet_negentropy : forall lgam rows n gamma (E : nat -> (vec -> R) -> R),
  (2 <= rows \/ rows = 1)%nat -> (forall r, (r < rows)%nat -> expectation (E r)) ->
  dirichlet_negentropy_with lgam rows rows n gamma (fun r b => E r (fun x => ln (x b)))
  = Rsum rows (fun r => E r (fun x => dirichlet_lpdf lgam n (gamma r) x)).
Proof.
  intros lgam rows n gamma E Hrows HE. unfold dirichlet_negentropy_with, dirichlet_lpdf.
  rewrite <- Rsum_opp, <- !Rsum_plus. apply Rsum_ext. intros r Hr.
  assert (Ei : (if (rows =? 1)%nat then 0%nat else r) = r).
  { destruct (Nat.eqb_spec rows 1); [lia|reflexivity]. }
  rewrite Ei. specialize (HE r Hr).
  rewrite (@E_ext _ (E r) _ (fun x => (lgam (Rsum n (gamma r)) + - Rsum n (fun b => lgam (gamma r b)))
            + Rsum n (fun b => (gamma r b - 1) * ln (x b)))) by (intros; ring).
  rewrite E_plus, E_const, E_Rsum by auto. f_equal. apply Rsum_ext. intros b _.
  now rewrite E_scal.
Qed.
Print Assumptions C71_dirichlet_negentropy.

(** A shared prior broadcast against several rows counts its normaliser once only: the value
    misses (rowsE - 1) copies of it. *)
Theorem C71_broadcast_negentropy_partial : forall lgam rowsE n gamma (E : nat -> (vec -> R) -> R),
  (forall r, (r < rowsE)%nat -> expectation (E r)) ->
  dirichlet_negentropy_with lgam 1 rowsE n gamma (fun r b => E r (fun x => ln (x b)))
  = Rsum rowsE (fun r => E r (fun x => dirichlet_lpdf lgam n (gamma 0%nat) x))
    + (1 - INR rowsE) * (lgam (Rsum n (gamma 0%nat)) - Rsum n (fun b => lgam (gamma 0%nat b))).
Proof.
  intros lgam rowsE n gamma E HE. unfold dirichlet_negentropy_with, dirichlet_lpdf. cbn [Rsum Nat.eqb].
  set (c := lgam (Rsum n (gamma 0%nat)) - Rsum n (fun b => lgam (gamma 0%nat b))).
  rewrite (@Rsum_ext rowsE (fun r => E r _) (fun r => c + Rsum n (fun b => (gamma 0%nat b - 1) * E r (fun x => ln (x b))))).
  - rewrite Rsum_plus, Rsum_const. change (fun b => gamma 0%nat b) with (gamma 0%nat). unfold c. ring.
  - intros r Hr. specialize (HE r Hr).
    rewrite E_plus, E_const, E_Rsum by auto. f_equal. apply Rsum_ext. intros b _. now rewrite E_scal.
Qed.
Theorem C71_broadcast_negentropy_refuted : forall lgam, lgam 1 = 0 -> lgam 3 = ln 2 ->
  exists rowsE n gamma (E : nat -> (vec -> R) -> R),
  (forall r, (r < rowsE)%nat -> expectation (E r)) /\
  dirichlet_negentropy_with lgam 1 rowsE n gamma (fun r b => E r (fun x => ln (x b)))
  <> Rsum rowsE (fun r => E r (fun x => dirichlet_lpdf lgam n (gamma 0%nat) x)).
Proof.
  intros lgam H1 H3. exists 2%nat, 3%nat, (fun _ _ => 1), (fun _ f => f (fun _ => 1/3)).
  assert (HE : forall r : nat, (r < 2)%nat -> expectation (fun f : vec -> R => f (fun _ => 1/3))).
  { intros r _. split; intros; reflexivity. }
  split; [exact HE|].
  rewrite (@C71_broadcast_negentropy_partial lgam 2 3 (fun _ _ => 1) (fun _ f => f (fun _ => 1/3)) HE).
  cbn [Rsum INR]. replace (0 + 1 + 1 + 1) with 3 by ring. rewrite H3, H1.
  assert (0 < ln 2) by (rewrite <- ln_1; apply ln_increasing; lra). lra.
Qed.
Print Assumptions C71_broadcast_negentropy_refuted.

(** ** Constructors *)
Theorem C71_valid_params : forall p D q,
  (is_ok (bernoulli_init p) = true <-> 0 <= p <= 1) /\
  (is_ok (discrete_init D q) = true <->
     (forall i, (i < D)%nat -> 0 <= q i) /\ Rabs (Rsum D q - 1) <= 1/10^8 + 1/10^5).
Proof.
  intros p D q. split.
  - unfold bernoulli_init. destruct (Rleb 0 p) eqn:E1, (Rleb p 1) eqn:E2; cbn; rewrite ?Rleb_true, ?Rleb_false in *;
      (split; [intros; try discriminate; lra|intros; try lra; auto]).
  - unfold discrete_init, close1. rewrite Rmult_1_r.
    destruct (forall_lt D (fun i => Rleb 0 (q i))) eqn:E1.
    + rewrite forall_lt_true in E1. destruct (Rleb (Rabs (Rsum D q - 1)) (1 / 10 ^ 8 + 1 / 10 ^ 5)) eqn:E2; cbn [andb guard bindr is_ok].
      * apply Rleb_true in E2. split; [|reflexivity]. intros _. split; [|exact E2]. intros i Hi. apply Rleb_true. auto.
      * apply Rleb_false in E2. split; [discriminate|]. intros [_ H]. lra.
    + apply forall_lt_false in E1 as (i & Hi & E). apply Rleb_false in E. cbn. split; [discriminate|].
      intros [H _]. specialize (H i Hi). lra.
Qed.
Print Assumptions C71_valid_params.
Lemma py_bool_ge0_true b : py_bool_ge0 b = true.
Proof. unfold py_bool_ge0. apply Rleb_true. destruct b; cbn; lra. Qed.
(** Gamma and Dirichlet accept every parameter, negative ones included. *)
Theorem C71_invalid_params_accepted_refuted : forall alpha beta rows n gamma, (1 <= n)%nat ->
  is_ok (gamma_init alpha beta) = true /\ is_ok (dirichlet_init rows n gamma) = true.
Proof.
  intros alpha beta rows n gamma Hn. unfold gamma_init, dirichlet_init. rewrite !py_bool_ge0_true.
  destruct (Nat.leb_spec 1 n); [|lia]. split; reflexivity.
Qed.
Print Assumptions C71_invalid_params_accepted_refuted.

Example C71_nonvacuous : bernoulli_lp (1/2) 1 = ln (1/2) /\ prob_vec 2 (fun _ => 1/2).
Proof.
  split.
  - destruct (@C71_bernoulli_log_probability (1/2) 1) as [H _]; [lra|auto|]. rewrite H.
    + destruct (Reqb 1 1) eqn:E; [reflexivity|apply Reqb_false in E; lra].
    + destruct (Reqb 1 1); lra.
  - split; [intros; lra|cbn; lra].
Qed.
