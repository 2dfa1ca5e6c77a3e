(** * Props_LabelBound: C103, the variational update of the block labels. *)
From Verif Require Import Prelude ExtReal Arrays Spec_Labels Spec_LabelBound Spec_Gibbs Spec_Network Spec_Gamma Spec_Moments Spec_Vlb
  M_Basis M_Parents M_Discrete M_Gibbs M_Dist M_Network M_MeanField M_Vlb
  L_Basis L_Discrete L_Parents L_Gibbs L_Network L_Vlb L_Vlb2 L_Vlb3 L_Vlb4 L_Vlb5 L_Vlb6 L_Vlb7 L_LabelBound L_Gamma L_Euler L_Moments L_Dirichlet
  Props_Discrete Props_Parents Props_Gibbs Props_Network Props_Expect Props_MeanField Props_Vlb Props_Moments.
Set Implicit Arguments.
Open Scope R_scope.

(* ------------------------------------------------------------------ *)
(** ** C103 for any functions in the place of gammaln and psi *)

Section Any.
Variables lgam psi : R -> R.

(** The label share of the evidence bound at label posterior [q]; block tables and the weights' statistics as the object
    stores them (means of logarithms written with [psi]). *)
Definition elbo_at (s : sbm) (f : mfsbm) (w : wstats) (q : mat) : R :=
  label_elbo (sb_K s) (sb_C s) (sb_allow s) (fun a => psi (mf_pi f a) - psi (Rsum (sb_C s) (mf_pi f)))
    (fun i j => pair_score lgam (sb_kappa s)
       (fun a b => psi (mf_tau1 f a b) - psi (mf_tau1 f a b + mf_tau0 f a b))
       (fun a b => psi (mf_tau0 f a b) - psi (mf_tau1 f a b + mf_tau0 f a b))
       (fun a b => mf_alpha f a b / mf_beta f a b)
       (fun a b => psi (mf_alpha f a b) - ln (mf_beta f a b))
       (ws_A w i j) (ws_W w i j) (ws_lnW w i j)) q.

Let S_of (s : sbm) (f : mfsbm) (w : wstats) (i j : nat) : nat -> nat -> R :=
  pair_score lgam (sb_kappa s)
       (fun a b => psi (mf_tau1 f a b) - psi (mf_tau1 f a b + mf_tau0 f a b))
       (fun a b => psi (mf_tau0 f a b) - psi (mf_tau1 f a b + mf_tau0 f a b))
       (fun a b => mf_alpha f a b / mf_beta f a b)
       (fun a b => psi (mf_alpha f a b) - ln (mf_beta f a b))
       (ws_A w i j) (ws_W w i j) (ws_lnW w i j).
Let pi_of (s : sbm) (f : mfsbm) (a : nat) : R := psi (mf_pi f a) - psi (Rsum (sb_C s) (mf_pi f)).

Lemma pair_avg C (m : vec) kappa (t1 t2 t3 t4 : vec) A W lnW : Rsum C m = 1 ->
  Rsum C (fun b => m b * (A * t1 b + (1 - A) * t2 b + A * (kappa * t4 b - lgam kappa + (kappa - 1) * lnW - t3 b * W)))
  = (A * Rsum C (fun b => m b * t1 b) + (1 - A) * Rsum C (fun b => m b * t2 b))
    + A * gamma_negentropy_with lgam kappa lnW W (Rsum C (fun b => m b * t3 b)) (Rsum C (fun b => m b * t4 b)).
Proof.
  intros H. unfold gamma_negentropy_with.
  rewrite (@Rsum_ext C _ (fun b => A * (m b * t1 b) + (1 - A) * (m b * t2 b) + A * kappa * (m b * t4 b) - A * W * (m b * t3 b) + A * (- lgam kappa + (kappa - 1) * lnW) * m b)) by (intros; ring).
  rewrite Rsum_plus, Rsum_minus, !Rsum_plus, !Rsum_scal, H. ring.
Qed.
Lemma lp_is_row s f w k a : (forall j, (j < sb_K s)%nat -> Rsum (sb_C s) (mf_m f j) = 1) ->
  mf_c_lp lgam psi s f w k a = row_lp (sb_K s) (sb_C s) (sb_allow s) (pi_of s f) (S_of s f w) (mf_m f) k a.
Proof.
  intros Hm. unfold mf_c_lp, row_lp. cbv zeta.
  set (L1 := fun a b => psi (mf_tau1 f a b) - psi (mf_tau1 f a b + mf_tau0 f a b)).
  set (L0 := fun a b => psi (mf_tau0 f a b) - psi (mf_tau1 f a b + mf_tau0 f a b)).
  assert (C1 : forall j a b, mf_m f j b * (psi (mf_tau1 f a b) - psi (mf_tau0 f a b + mf_tau1 f a b)) = mf_m f j b * L1 a b) by (intros; unfold L1; now rewrite (Rplus_comm (mf_tau1 f a0 b))).
  rewrite (@Rsum_not_ext (sb_K s) k (fun j => Rsum (sb_C s) (fun b => mf_m f j b * S_of s f w k j a b))
    (fun j => (ws_A w k j * Rsum (sb_C s) (fun b => mf_m f j b * L1 a b) + (1 - ws_A w k j) * Rsum (sb_C s) (fun b => mf_m f j b * L0 a b))
       + ws_A w k j * gamma_negentropy_with lgam (sb_kappa s) (ws_lnW w k j) (ws_W w k j)
            (Rsum (sb_C s) (fun b => mf_m f j b * (mf_alpha f a b / mf_beta f a b)))
            (Rsum (sb_C s) (fun b => mf_m f j b * (psi (mf_alpha f a b) - ln (mf_beta f a b)))))).
  2:{ intros j Hj _. unfold S_of, pair_score. apply (@pair_avg (sb_C s) (mf_m f j) (sb_kappa s) (L1 a) (L0 a) (fun b => mf_alpha f a b / mf_beta f a b)). now apply Hm. }
  rewrite (@Rsum_not_ext (sb_K s) k (fun j => Rsum (sb_C s) (fun b => mf_m f j b * S_of s f w j k b a))
    (fun j => (ws_A w j k * Rsum (sb_C s) (fun b => mf_m f j b * L1 b a) + (1 - ws_A w j k) * Rsum (sb_C s) (fun b => mf_m f j b * L0 b a))
       + ws_A w j k * gamma_negentropy_with lgam (sb_kappa s) (ws_lnW w j k) (ws_W w j k)
            (Rsum (sb_C s) (fun b => mf_m f j b * (mf_alpha f b a / mf_beta f b a)))
            (Rsum (sb_C s) (fun b => mf_m f j b * (psi (mf_alpha f b a) - ln (mf_beta f b a)))))).
  2:{ intros j Hj _. unfold S_of, pair_score. apply (@pair_avg (sb_C s) (mf_m f j) (sb_kappa s) (fun b => L1 b a) (fun b => L0 b a) (fun b => mf_alpha f b a / mf_beta f b a)). now apply Hm. }
  rewrite !Rsum_not_plus.
  assert (D1 : forall j a, Rsum (sb_C s) (fun cn => mf_m f j cn * (psi (mf_tau1 f a cn) - psi (mf_tau0 f a cn + mf_tau1 f a cn))) = Rsum (sb_C s) (fun b => mf_m f j b * L1 a b))
    by (intros; apply Rsum_ext; intros; unfold L1; now rewrite (Rplus_comm (mf_tau1 f a0 i))).
  assert (D0 : forall j a, Rsum (sb_C s) (fun cn => mf_m f j cn * (psi (mf_tau0 f a cn) - psi (mf_tau0 f a cn + mf_tau1 f a cn))) = Rsum (sb_C s) (fun b => mf_m f j b * L0 a b))
    by (intros; apply Rsum_ext; intros; unfold L0; now rewrite (Rplus_comm (mf_tau1 f a0 i))).
  assert (D1' : forall j a, Rsum (sb_C s) (fun cn => mf_m f j cn * (psi (mf_tau1 f cn a) - psi (mf_tau0 f cn a + mf_tau1 f cn a))) = Rsum (sb_C s) (fun b => mf_m f j b * L1 b a))
    by (intros; apply Rsum_ext; intros; unfold L1; now rewrite (Rplus_comm (mf_tau1 f i a0))).
  assert (D0' : forall j a, Rsum (sb_C s) (fun cn => mf_m f j cn * (psi (mf_tau0 f cn a) - psi (mf_tau0 f cn a + mf_tau1 f cn a))) = Rsum (sb_C s) (fun b => mf_m f j b * L0 b a))
    by (intros; apply Rsum_ext; intros; unfold L0; now rewrite (Rplus_comm (mf_tau1 f i a0))).
  rewrite <- !Rsum_not_plus.
  match goal with |- ?l1 + ?n1 + ?n2 + ?n3 + ?n4 + ?d = _ =>
    rewrite (@Rsum_not_ext (sb_K s) k (fun j => ws_A w k j * Rsum (sb_C s) (fun cn => mf_m f j cn * (psi (mf_tau1 f a cn) - psi (mf_tau0 f a cn + mf_tau1 f a cn)))
       + (1 - ws_A w k j) * Rsum (sb_C s) (fun cn => mf_m f j cn * (psi (mf_tau0 f a cn) - psi (mf_tau0 f a cn + mf_tau1 f a cn))))
      (fun j => ws_A w k j * Rsum (sb_C s) (fun b => mf_m f j b * L1 a b) + (1 - ws_A w k j) * Rsum (sb_C s) (fun b => mf_m f j b * L0 a b))) by (intros; now rewrite D1, D0) end.
  rewrite (@Rsum_not_ext (sb_K s) k (fun j => ws_A w j k * Rsum (sb_C s) (fun cn => mf_m f j cn * (psi (mf_tau1 f cn a) - psi (mf_tau0 f cn a + mf_tau1 f cn a)))
       + (1 - ws_A w j k) * Rsum (sb_C s) (fun cn => mf_m f j cn * (psi (mf_tau0 f cn a) - psi (mf_tau0 f cn a + mf_tau1 f cn a))))
      (fun j => ws_A w j k * Rsum (sb_C s) (fun b => mf_m f j b * L1 b a) + (1 - ws_A w j k) * Rsum (sb_C s) (fun b => mf_m f j b * L0 b a))) by (intros; now rewrite D1', D0').
  rewrite !Rsum_not_plus. unfold pi_of.
  assert (Ed : (if sb_allow s then ws_A w k k * (psi (mf_tau1 f a a) - psi (mf_tau0 f a a + mf_tau1 f a a)) + (1 - ws_A w k k) * (psi (mf_tau0 f a a) - psi (mf_tau0 f a a + mf_tau1 f a a))
        + ws_A w k k * gamma_negentropy_with lgam (sb_kappa s) (ws_lnW w k k) (ws_W w k k) (mf_alpha f a a / mf_beta f a a) (psi (mf_alpha f a a) - ln (mf_beta f a a)) else 0)
      = (if sb_allow s then S_of s f w k k a a else 0)).
  { destruct (sb_allow s); [|reflexivity]. unfold S_of, pair_score, gamma_negentropy_with. rewrite (Rplus_comm (mf_tau0 f a a)). ring. }
  rewrite Ed. ring.
Qed.

Lemma elbo_is_closed s f w q : (forall j, (j < sb_K s)%nat -> Rsum (sb_C s) (q j) = 1) ->
  elbo_at s f w q = closed (sb_K s) (sb_C s) (sb_allow s) (pi_of s f) (S_of s f w) q.
Proof. intros H. apply label_elbo_closed. exact H. Qed.
Lemma set_row_simplex K C (q : mat) k r : (forall j, (j < K)%nat -> simplex C (q j)) -> simplex C r -> forall j, (j < K)%nat -> simplex C (set_row q k r j).
Proof.
  intros Hq Hr j Hj. unfold set_row. destruct (j =? k)%nat; [|now apply Hq]. destruct Hr as [R1 R2]. split; [exact R1|exact R2].
Qed.

(** Setting row k from the label log probabilities: the unique maximiser over that row, whatever the other rows are. *)
Theorem C103_row_maximises : forall s f w k, (1 <= sb_C s)%nat -> (k < sb_K s)%nat ->
  (forall j, (j < sb_K s)%nat -> simplex (sb_C s) (mf_m f j)) ->
  let f' := mf_c_row lgam psi s w 1 f k in
  simplex (sb_C s) (mf_m f' k) /\
  (forall j c, j <> k -> mf_m f' j c = mf_m f j c) /\
  forall r, simplex (sb_C s) r ->
    elbo_at s f w (set_row (mf_m f) k r) <= elbo_at s f w (mf_m f') /\
    ((exists a, (a < sb_C s)%nat /\ r a <> mf_m f' k a) -> elbo_at s f w (set_row (mf_m f) k r) < elbo_at s f w (mf_m f')).
Proof.
  intros s f w k HC Hk Hm f'.
  set (lp := row_lp (sb_K s) (sb_C s) (sb_allow s) (pi_of s f) (S_of s f w) (mf_m f) k).
  assert (Hq : forall j, (j < sb_K s)%nat -> Rsum (sb_C s) (mf_m f j) = 1) by (intros; now apply Hm).
  assert (Er : forall c, mf_m f' k c = softmax (sb_C s) lp c).
  { intros c. unfold f'. rewrite C34_label_row_softmax by lia. unfold softmax. rewrite (lp_is_row s f w k c Hq).
    rewrite (@Rsum_ext (sb_C s) (fun c' => exp (mf_c_lp lgam psi s f w k c')) (fun b => exp (lp b))) by (intros; now rewrite (lp_is_row s f w k i Hq)). reflexivity. }
  assert (Hs : simplex (sb_C s) (softmax (sb_C s) lp)) by (apply softmax_simplex; lia).
  assert (Ef : elbo_at s f w (mf_m f') = closed (sb_K s) (sb_C s) (sb_allow s) (pi_of s f) (S_of s f w) (set_row (mf_m f) k (mf_m f' k))).
  { assert (EE : mf_m f' = set_row (mf_m f) k (mf_m f' k)).
    { apply FunctionalExtensionality.functional_extensionality. intros j. apply FunctionalExtensionality.functional_extensionality. intros c.
      unfold set_row. destruct (Nat.eqb_spec j k) as [->|Hne]; [reflexivity|]. unfold f', mf_c_row. cbn [with_m mf_m]. unfold set_row. destruct (Nat.eqb_spec j k); [congruence|reflexivity]. }
    rewrite EE at 1. apply elbo_is_closed. intros j Hj. apply (@set_row_simplex (sb_K s) (sb_C s) (mf_m f) k (mf_m f' k) Hm); [|exact Hj].
    destruct Hs as [S1 S2]. split; [intros b Hb; rewrite Er; now apply S1|]. rewrite <- S2. apply Rsum_ext. intros. apply Er. }
  split.
  { destruct Hs as [S1 S2]. split; [intros b Hb; rewrite Er; now apply S1|]. rewrite <- S2. apply Rsum_ext. intros. apply Er. }
  split.
  { intros j c Hj. unfold f', mf_c_row. cbn [with_m mf_m]. unfold set_row. destruct (Nat.eqb_spec j k); [congruence|reflexivity]. }
  intros r Hr. rewrite Ef, elbo_is_closed by (intros j Hj; now apply (@set_row_simplex (sb_K s) (sb_C s) (mf_m f) k r Hm Hr)).
  rewrite !closed_row by exact Hk. fold lp.
  assert (Ro : row_obj (sb_C s) lp (mf_m f' k) = row_obj (sb_C s) lp (softmax (sb_C s) lp)) by (unfold row_obj; apply Rsum_ext; intros; now rewrite Er).
  rewrite Ro. split.
  - apply Rplus_le_compat_l. apply row_max; [lia|exact Hr].
  - intros (a & Ha & Hne). apply Rplus_lt_compat_l. apply (@row_unique (sb_C s) lp r a); [lia|exact Hr|exact Ha|]. now rewrite <- Er.
Qed.

Lemma row_step s f w k step : (1 <= sb_C s)%nat -> (k < sb_K s)%nat -> 0 <= step <= 1 ->
  (forall j, (j < sb_K s)%nat -> simplex (sb_C s) (mf_m f j)) ->
  let f' := mf_c_row lgam psi s w step f k in
  (forall j, (j < sb_K s)%nat -> simplex (sb_C s) (mf_m f' j)) /\ elbo_at s f w (mf_m f) <= elbo_at s f w (mf_m f').
Proof.
  intros HC Hk Hs Hm f'. destruct (@C103_row_maximises s f w k HC Hk Hm) as (R1 & _ & RM). set (f1 := mf_c_row lgam psi s w 1 f k) in *.
  assert (Er : forall c, mf_m f' k c = mix_step step (mf_m f k c) (mf_m f1 k c)).
  { intros c. unfold f', f1, mf_c_row. cbn [with_m mf_m]. unfold set_row. rewrite Nat.eqb_refl. now rewrite mix_step_1. }
  assert (EE : mf_m f' = set_row (mf_m f) k (fun c => mix_step step (mf_m f k c) (mf_m f1 k c))).
  { apply FunctionalExtensionality.functional_extensionality. intros j. apply FunctionalExtensionality.functional_extensionality. intros c.
    unfold set_row. destruct (Nat.eqb_spec j k) as [->|Hne]; [apply Er|]. unfold f', mf_c_row. cbn [with_m mf_m]. unfold set_row. destruct (Nat.eqb_spec j k); [congruence|reflexivity]. }
  assert (HX : simplex (sb_C s) (fun c => mix_step step (mf_m f k c) (mf_m f1 k c))) by (apply mix_simplex; auto).
  assert (E0 : mf_m f = set_row (mf_m f) k (mf_m f k)).
  { apply FunctionalExtensionality.functional_extensionality. intros j. apply FunctionalExtensionality.functional_extensionality. intros c.
    unfold set_row. destruct (Nat.eqb_spec j k) as [->|Hne]; reflexivity. }
  assert (E1 : elbo_at s f w (mf_m f1) = elbo_at s f w (set_row (mf_m f) k (mf_m f1 k))).
  { f_equal. apply FunctionalExtensionality.functional_extensionality. intros j. apply FunctionalExtensionality.functional_extensionality. intros c.
    unfold set_row. destruct (Nat.eqb_spec j k) as [->|Hne]; [reflexivity|]. unfold f1, mf_c_row. cbn [with_m mf_m]. unfold set_row. destruct (Nat.eqb_spec j k); [congruence|reflexivity]. }
  split; [rewrite EE; now apply set_row_simplex|].
  destruct (RM (mf_m f k) (Hm k Hk)) as [G _]. rewrite E1 in G. rewrite EE. rewrite E0 at 1.
  assert (CL : forall r, simplex (sb_C s) r -> elbo_at s f w (set_row (mf_m f) k r) =
     other (sb_K s) (sb_C s) (sb_allow s) (pi_of s f) (S_of s f w) (mf_m f) k + row_obj (sb_C s) (row_lp (sb_K s) (sb_C s) (sb_allow s) (pi_of s f) (S_of s f w) (mf_m f) k) r).
  { intros r Hr. rewrite elbo_is_closed by (intros j Hj; now apply (@set_row_simplex (sb_K s) (sb_C s) (mf_m f) k r Hm Hr)). now apply closed_row. }
  rewrite (CL _ HX), (CL _ (Hm k Hk)). rewrite (CL _ R1), (CL _ (Hm k Hk)) in G.
  pose proof (@row_concave (sb_C s) (row_lp (sb_K s) (sb_C s) (sb_allow s) (pi_of s f) (S_of s f w) (mf_m f) k) (mf_m f k) (mf_m f1 k) step Hs (Hm k Hk) R1) as Q.
  apply Rplus_le_compat_l. apply Rplus_le_reg_l in G. nra.
Qed.

(** The whole label update, for any step size: rows stay probability vectors, everything else is kept, and the bound does
    not go down. *)
Theorem C103_never_lowers : forall s f w step, (1 <= sb_C s)%nat -> 0 <= step <= 1 ->
  (forall j, (j < sb_K s)%nat -> simplex (sb_C s) (mf_m f j)) ->
  let f' := mf_update_c lgam psi s f w step in
  (forall j, (j < sb_K s)%nat -> simplex (sb_C s) (mf_m f' j)) /\
  elbo_at s f w (mf_m f) <= elbo_at s f w (mf_m f') /\
  (forall q, elbo_at s f' w q = elbo_at s f w q).
Proof.
  intros s f w step HC Hs Hm. cbv zeta. unfold mf_update_c.
  assert (G : forall l g, (forall k, In k l -> (k < sb_K s)%nat) -> (forall j, (j < sb_K s)%nat -> simplex (sb_C s) (mf_m g j)) ->
    let g' := fold_left (fun f' k => mf_c_row lgam psi s w step f' k) l g in
    (forall j, (j < sb_K s)%nat -> simplex (sb_C s) (mf_m g' j)) /\ elbo_at s g w (mf_m g) <= elbo_at s g w (mf_m g') /\ (forall q, elbo_at s g' w q = elbo_at s g w q)).
  { induction l as [|k l IH]; intros g Hl Hg; cbn [fold_left]; [cbn; split; [exact Hg|split; [lra|reflexivity]]|].
    destruct (@row_step s g w k step HC (Hl k (or_introl eq_refl)) Hs Hg) as (R1 & R2). cbv zeta in *. set (g1 := mf_c_row lgam psi s w step g k) in *.
    destruct (IH g1 (fun i Hi => Hl i (or_intror Hi)) R1) as (I1 & I2 & I3).
    assert (T : forall q, elbo_at s g1 w q = elbo_at s g w q) by reflexivity.
    split; [exact I1|]. split; [rewrite !T in I2; lra|]. intros q. rewrite I3. apply T. }
  apply G; [|exact Hm]. intros k Hk. apply in_seq in Hk. lia.
Qed.
End Any.

(* ------------------------------------------------------------------ *)
(** ** With Euler's functions, every table is a mean under the variational posterior *)

(** lnpi, lnp, lnq, v, lnv: means under the object's Dirichlet, beta and gamma factors; A: the edge probabilities; W, lnW: means of
    the weight and its logarithm given an edge. *)
Record label_means (s : sbm) (f : mfsbm) (w : mfw) (lnpi : vec) (lnp lnq v lnv A W lnW : mat) : Prop := {
  lm_pi : forall a, (a < sb_C s)%nat -> dirichlet_law (sb_C s) (mf_pi f) (fun x => ln (x a)) (lnpi a);
  lm_block : forall a b, (a < sb_C s)%nat -> (b < sb_C s)%nat ->
     beta_law (mf_tau1 f a b) (mf_tau0 f a b) ln (lnp a b) /\
     beta_law (mf_tau1 f a b) (mf_tau0 f a b) (fun x => ln (1 - x)) (lnq a b) /\
     gamma_law (mf_alpha f a b) (mf_beta f a b) (fun x => x) (v a b) /\
     gamma_law (mf_alpha f a b) (mf_beta f a b) ln (lnv a b);
  lm_edge : forall i j, (i < sb_K s)%nat -> (j < sb_K s)%nat ->
     w_p w i j = Fin (A i j) /\
     gamma_law (w_kappa1 w i j) (w_v1 w i j) (fun x => x) (W i j) /\
     gamma_law (w_kappa1 w i j) (w_v1 w i j) ln (lnW i j) }.

Theorem C103_euler : forall s f w, prior_pos s -> mf_valid s f -> w_ok (sb_K s) w ->
  exists lnpi lnp lnq v lnv A W lnW, label_means s f w lnpi lnp lnq v lnv A W lnW /\
  let bound := label_elbo (sb_K s) (sb_C s) (sb_allow s) lnpi
                 (fun i j => pair_score log_gamma (sb_kappa s) lnp lnq v lnv (A i j) (W i j) (lnW i j)) in
  (forall k r, (k < sb_K s)%nat -> simplex (sb_C s) r ->
     bound (set_row (mf_m f) k r) <= bound (mf_m (mf_c_row log_gamma digamma s (wstats_of digamma w) 1 f k))) /\
  (forall step, 0 <= step <= 1 ->
     bound (mf_m f) <= bound (mf_m (mf_update_c log_gamma digamma s f (wstats_of digamma w) step))).
Proof.
  intros s f w (HC & _) (V1 & V2 & V3) Hw.
  exists (fun a => digamma (mf_pi f a) - digamma (Rsum (sb_C s) (mf_pi f))),
    (fun a b => digamma (mf_tau1 f a b) - digamma (mf_tau1 f a b + mf_tau0 f a b)),
    (fun a b => digamma (mf_tau0 f a b) - digamma (mf_tau1 f a b + mf_tau0 f a b)),
    (fun a b => mf_alpha f a b / mf_beta f a b), (fun a b => digamma (mf_alpha f a b) - ln (mf_beta f a b)),
    (w_A w), (expected_W_given_A w 1), (expected_log_W_given_A digamma w 1).
  split; [|cbv zeta; split].
  - constructor.
    + intros a Ha. apply dirichlet_law_log; [lia|exact V2|exact Ha].
    + intros a b Ha Hb. destruct (V3 a b Ha Hb) as (P0 & P1 & P2 & P3).
      split; [now apply beta_law_log|]. split; [now apply beta_law_log1m|]. split; [now apply gamma_law_id|now apply gamma_law_log].
    + intros i j Hi Hj. destruct (Hw i j Hi Hj) as (W1 & W2 & W3 & W4 & p & Ep & Hp). split; [unfold w_A; now rewrite Ep|].
      split; [rewrite EW1; now apply gamma_law_id|rewrite ElnW1; now apply gamma_law_log].
  - intros k r Hk Hr. destruct (@C103_row_maximises log_gamma digamma s f (wstats_of digamma w) k ltac:(lia) Hk V1) as (_ & _ & M). exact (proj1 (M r Hr)).
  - intros step Hs. destruct (@C103_never_lowers log_gamma digamma s f (wstats_of digamma w) step ltac:(lia) Hs V1) as (_ & M & _). exact M.
Qed.
Print Assumptions C103_row_maximises.
Print Assumptions C103_never_lowers.
Print Assumptions C103_euler.
Example C103_nonvacuous : prior_pos (ex_sbm true) /\ mf_valid (ex_sbm true) (mf_init (ex_sbm true) (fun _ _ => 1/2)) /\ sb_C (ex_sbm true) = 2%nat /\ sb_K (ex_sbm true) = 3%nat /\
  w_ok 3 (mfw_init (1/10) 10 {| n_P := fun _ _ => 1/2; n_V := fun _ _ => 1; n_kappa := 1 |}).
Proof.
  destruct C34_nonvacuous as (H1 & H2 & _). split; [exact H1|]. split; [exact H2|]. split; [reflexivity|]. split; [reflexivity|].
  intros i j Hi Hj. destruct (ok_w (ex_vlb_ok true) (i := 0%nat) (j := 0%nat)) as (W1 & W2 & W3 & W4 & p & Ep & Hp); cbn; try lia.
  cbn in *. split; [lra|]. split; [lra|]. split; [lra|]. split; [lra|]. exists p. auto.
Qed.

(* ------------------------------------------------------------------ *)
(** ** The bound the library reports can go down *)

Definition s103 : sbm :=
  {| sb_K := 1; sb_C := 2; sb_pi := fun _ => 1; sb_tau0 := 1; sb_tau1 := 1; sb_kappa := 1; sb_alpha := 1; sb_beta := 1;
     sb_allow := true; sb_m := fun _ => 1/2; sb_c := fun _ => 0%nat; sb_p := fun _ _ => 1/2; sb_v := fun _ _ => 1; sb_fixed := false |}.
Definition f103 : mfsbm :=
  {| mf_pi := fun _ => 1; mf_m := fun _ c => if (c =? 0)%nat then 1 else 0; mf_tau0 := fun _ _ => 1; mf_tau1 := fun _ _ => 1;
     mf_alpha := fun _ _ => 1; mf_beta := fun a b => if (a =? b)%nat then 1 else 1/16 |}.
Definition d103 : parents :=
  {| pa_T := 1; pa_K := 1; pa_B := 1; pa_dt := 1; pa_S := fun _ _ => 0%Z; pa_F := fun _ _ _ => 0; pa_Z := fun _ _ _ => 0%Z; pa_EZ := fun _ _ _ => 0 |}.
Definition m103 : mfmodel :=
  {| mm_h := {| mh_K := 1; mh_B := 1; mh_alpha := 1; mh_beta := 1; mh_gamma := fun _ => 1; mh_kappa0 := 1/10; mh_nu0 := 10 |};
     mm_bias := mfbias_init 1 1; mm_gamma := mf_gamma_init (fun _ => 1);
     mm_w := mfw_init (1/10) 10 {| n_P := fun _ _ => 1/2; n_V := fun _ _ => 1; n_kappa := 1 |};
     mm_net := MfSbm false s103 f103; mm_data := [d103]; mm_off := None |}.
Lemma f103_valid : mf_valid s103 f103.
Proof.
  split; [|split; [intros; cbn; lra|]].
  - intros k _. split; [intros b _; cbn; destruct (b =? 0)%nat; lra|cbn; lra].
  - intros a b _ _. cbn. destruct (a =? b)%nat; lra.
Qed.
Lemma s103_ok f : mf_valid s103 f -> mfnet_ok 1 (MfSbm false s103 f).
Proof.
  intros H. split; [reflexivity|]. split; [|split; [exact H|]].
  - repeat split; cbn; intros; lra || lia.
  - split; [intros k _; cbn; lia|]. split; [split; [intros; cbn; lra|cbn; lra]|]. intros a b _ _. cbn. lra.
Qed.
Lemma m103_ok : bound_ok m103.
Proof.
  split; [|split; [cbn; auto|split; [cbn; congruence|]]].
  - apply C38_initial; try lra; try (intros; cbn; lra).
    + apply s103_ok, f103_valid.
    + intros d [<-|[]]. split; [reflexivity|]. split; [reflexivity|]. split; [cbn; lia|]. split; [cbn; lra|]. split; [intros t k b _ _ _; cbn; lra|intros t k _ _; cbn; lia].
  - intros d [<-|[]] k r c _ _ _. cbn. lra.
Qed.

(** The label update with step size 1 strictly lowers the value of get_vlb, whatever stands for gammaln and psi: the
    reported bound averages a self-connection over two independent labels of the same node (C93), the update over one. *)
Theorem C103_reported_bound_drops_refuted : forall lgam psi,
  bound_ok m103 /\
  exists v v', mf_get_vlb lgam psi m103 = Ok (Fin v) /\
    mf_get_vlb lgam psi (with_net m103 (MfSbm false s103 (mf_update_c lgam psi s103 f103 (wstats_of psi (mm_w m103)) 1))) = Ok (Fin v') /\ v' < v.
Proof.
  intros lgam psi. split; [exact m103_ok|]. pose proof m103_ok as Hb. pose proof Hb as (Hm & Hg & _).
  set (w := wstats_of psi (mm_w m103)). set (f' := mf_update_c lgam psi s103 f103 w 1).
  assert (HV' : mf_valid s103 f').
  { apply update_c_valid; [|lra|exact f103_valid]. destruct (s103_ok f103_valid) as (_ & P & _). exact P. }
  assert (Hg' : net_good (MfSbm false s103 f')) by (cbn; auto).
  do 2 eexists. split; [apply get_vlb_fin; [exact (ok_w Hm)|exact (ok_net Hm)|exact Hg]|].
  split; [apply get_vlb_fin; [exact (ok_w Hm)|apply s103_ok; exact HV'|exact Hg']|].
  rewrite !vlb_R_blocks by (first [apply net_good_allow; assumption|exact (bound_dim Hb)]).
  assert (G : net_obj lgam psi (mm_h m103) (mm_w m103) (MfSbm false s103 f') < net_obj lgam psi (mm_h m103) (mm_w m103) (MfSbm false s103 f103)).
  2:{ unfold net_obj in G. cbn [with_net mm_h mm_bias mm_gamma mm_w mm_net mm_data m103] in *. lra. }
  rewrite !net_obj_sbm by reflexivity. apply Rplus_lt_compat_r. fold w.
  assert (Ef : f' = with_m f103 (mf_m f')) by reflexivity.
  assert (Em : forall c, mf_m f' 0%nat c = 1/2).
  { intros c. unfold f', mf_update_c. cbn [s103 sb_K seq fold_left]. fold s103. rewrite C34_label_row_softmax by (cbn; lia).
    assert (EL : forall a, mf_c_lp lgam psi s103 f103 w 0%nat a = mf_c_lp lgam psi s103 f103 w 0%nat 0%nat).
    { intros a. unfold mf_c_lp, Rsum_not. cbn [s103 f103 sb_C sb_K sb_allow sb_kappa mf_pi mf_tau0 mf_tau1 mf_alpha mf_beta Rsum Nat.eqb]. now rewrite !Nat.eqb_refl. }
    cbn [s103 sb_C Rsum]. fold s103. rewrite (EL c), (EL 1%nat). pose proof (exp_pos (mf_c_lp lgam psi s103 f103 w 0%nat 0%nat)). field. lra. }
  assert (E1 : sbm_obj lgam psi s103 f' w = sbm_obj lgam psi s103 (with_m f103 (fun _ _ => 1/2)) w).
  { rewrite Ef. rewrite <- (@sbm_obj_m_ext lgam psi s103 (with_m f103 (fun _ _ => 1/2)) (mf_m f') w); [reflexivity|].
    intros k c Hk _. cbn in Hk. replace k with 0%nat by lia. rewrite Em. reflexivity. }
  rewrite E1. unfold sbm_obj, sbm_vlb, block_mean.
  cbn [s103 f103 with_m sb_C sb_K sb_allow sb_kappa sb_tau0 sb_tau1 sb_alpha sb_beta sb_pi mf_m mf_pi mf_tau0 mf_tau1 mf_alpha mf_beta Rsum Nat.eqb].
  assert (HW : ws_W w 0%nat 0%nat = 1) by (unfold w, wstats_of; cbn [ws_W]; rewrite EW1; cbn; lra).
  assert (HA : ws_A w 0%nat 0%nat = 1 - / 10 ^ 3) by reflexivity. rewrite HW, HA.
  set (D := discrete_negentropy).
  assert (D1 : forall x, D 2%nat (fun c => if (c =? 0)%nat then 1 else 0) (Some (fun c => if (c =? 0)%nat then 1 else 0)) (Some (fun _ => Fin x)) = x).
  { intros x. unfold D, discrete_negentropy. cbn. ring. }
  assert (D2 : forall x, D 2%nat (fun _ => 1/2) (Some (fun _ => 1/2)) (Some (fun _ => Fin x)) = x).
  { intros x. unfold D, discrete_negentropy. cbn. field. }
  assert (D3 : D 2%nat (fun c => if (c =? 0)%nat then 1 else 0) None None = 0).
  { unfold D, discrete_negentropy. cbn [esum Nat.eqb]. rewrite elog_fin by lra.
    assert (E0 : elog (Fin 0) = NInf).
    { unfold elog. replace (Rltb 0 0) with false by (symmetry; apply Bool.not_true_iff_false; rewrite Rltb_true; lra).
      now replace (Reqb 0 0) with true by (symmetry; apply Reqb_true; lra). }
    rewrite E0. cbn [emul eadd]. unfold einf_sign. replace (Rltb 0 0) with false by (symmetry; apply Bool.not_true_iff_false; rewrite Rltb_true; lra).
    reflexivity. }
  assert (D4 : D 2%nat (fun _ => 1/2) None None = - ln 2).
  { unfold D, discrete_negentropy. cbn [esum]. rewrite elog_fin by lra. cbn. replace (1/2) with (/ 2) by lra. rewrite ln_Rinv by lra. field. }
  rewrite D1, D2, D3, D4. clear D1 D2 D3 D4.
  assert (L16 : ln (1 / 16) = - (4 * ln 2)).
  { replace (1/16) with (/ (2 ^ 4)) by (cbn; lra). rewrite ln_Rinv by (cbn; lra). rewrite ln_pow by lra. cbn. lra. }
  pose proof (@ln_le_sub1 2 ltac:(lra)) as L2. rewrite L16, ln_1.
  match goal with |- ?a < ?b => assert (Q : a - b = (1 - / 10 ^ 3) * (2 * ln 2 - 15/2) + ln 2) by field end.
  assert (N : (1 - / 10 ^ 3) * (2 * ln 2 - 15/2) + ln 2 < 0); [|lra]. lra.
Qed.
Print Assumptions C103_reported_bound_drops_refuted.

(* ------------------------------------------------------------------ *)
(** ** Fixed sparsity: the label update does not look at the given probabilities *)

Definition with_p (s : sbm) (p : mat) : sbm :=
  {| sb_K := sb_K s; sb_C := sb_C s; sb_pi := sb_pi s; sb_tau0 := sb_tau0 s; sb_tau1 := sb_tau1 s; sb_kappa := sb_kappa s; sb_alpha := sb_alpha s;
     sb_beta := sb_beta s; sb_allow := sb_allow s; sb_m := sb_m s; sb_c := sb_c s; sb_p := p; sb_v := sb_v s; sb_fixed := sb_fixed s |}.
(** The label share of the bound when the connection probabilities are the known numbers [sb_p]. *)
Definition fixed_bound (lgam psi : R -> R) (s : sbm) (f : mfsbm) (w : wstats) (q : mat) : R :=
  label_elbo (sb_K s) (sb_C s) (sb_allow s) (fun a => psi (mf_pi f a) - psi (Rsum (sb_C s) (mf_pi f)))
    (fun i j => pair_score lgam (sb_kappa s) (fun a b => ln (sb_p s a b)) (fun a b => ln (1 - sb_p s a b))
       (fun a b => mf_alpha f a b / mf_beta f a b) (fun a b => psi (mf_alpha f a b) - ln (mf_beta f a b))
       (ws_A w i j) (ws_W w i j) (ws_lnW w i j)) q.
Definition p103 : mat := fun a _ => if (a =? 0)%nat then 1/2 else / 2 ^ 10.
Definition row103 : mat := fun _ c => if (c =? 0)%nat then 1 else 0.

Theorem C103_fixed_sparsity_refuted :
  (forall lgam psi s f w step p, mf_m (mf_update_c lgam psi (with_p s p) f w step) = mf_m (mf_update_c lgam psi s f w step)) /\
  (forall lgam psi, let s := with_p s103 p103 in let f := mf_init s row103 in
     let w := {| ws_A := fun _ _ => 1/2; ws_W := fun _ _ => 1; ws_lnW := fun _ _ => 0 |} in
     mf_valid s f /\ sbm_valid s /\
     fixed_bound lgam psi s f w (mf_m (mf_update_c lgam psi s f w 1)) < fixed_bound lgam psi s f w (mf_m f)).
Proof.
  split.
  - intros lgam psi s f w step p. unfold mf_update_c. cbn [with_p sb_K]. f_equal.
  - intros lgam psi s f w. 
    assert (HV : mf_valid s f).
    { split; [|split; [intros; cbn; lra|]].
      - intros k _. split; [intros b _; cbn; unfold row103; destruct (b =? 0)%nat; lra|cbn; lra].
      - intros a b _ _. cbn. lra. }
    assert (HP : 0 < / 2 ^ 10 <= 1).
    { split; [apply Rinv_0_lt_compat, pow_lt; lra|]. rewrite <- Rinv_1. apply Rinv_le_contravar; [lra|]. apply pow_R1_Rle. lra. }
    split; [exact HV|]. split.
    { split; [intros k _; cbn; lia|]. split; [split; [intros; cbn; lra|cbn; lra]|]. intros a b _ _. cbn [s with_p sb_p sb_v s103]. unfold p103. destruct (a =? 0)%nat; lra. }
    set (f' := mf_update_c lgam psi s f w 1).
    assert (Em : forall c, mf_m f' 0%nat c = 1/2).
    { intros c. unfold f', mf_update_c. cbn [s with_p s103 sb_K seq fold_left]. fold s. rewrite C34_label_row_softmax by (cbn; lia).
      assert (EL : forall a, mf_c_lp lgam psi s f w 0%nat a = mf_c_lp lgam psi s f w 0%nat 0%nat) by reflexivity.
      cbn [s with_p s103 sb_C Rsum]. fold s. change (fun _ => 1/2) with (fun _ : nat => 1/2). rewrite (EL c), (EL 1%nat). pose proof (exp_pos (mf_c_lp lgam psi s f w 0%nat 0%nat)). field. lra. }
    unfold fixed_bound, label_elbo, label_mean, labelled, pair_score.
    cbn [s with_p s103 f mf_init row103 sb_K sb_C sb_allow sb_kappa sb_alpha sb_beta sb_p mf_m mf_pi mf_alpha mf_beta label_mean_from Rsum set_label Nat.eqb negb andb ws_A ws_W ws_lnW w].
    rewrite !Em. unfold p103, row103. cbn [Nat.eqb]. rewrite ln_1.
    pose proof (@ln_le_sub1 2 ltac:(lra)) as L2.
    assert (L2p : 0 < ln 2) by (rewrite <- ln_1; apply ln_increasing; lra).
    assert (Lh : ln (1/2) = - ln 2) by (replace (1/2) with (/2) by lra; now rewrite ln_Rinv by lra).
    assert (Lp : ln (/ 2 ^ 10) = - (10 * ln 2)).
    { rewrite ln_Rinv by (apply pow_lt; lra). rewrite ln_pow by lra. replace (INR 10) with 10 by (cbn; lra). reflexivity. }
    assert (L1 : ln (1 - / 2 ^ 10) <= 0).
    { rewrite <- ln_1. assert (/ 2 ^ 10 <= / 2). { apply Rinv_le_contravar; [lra|]. cbn. lra. } left; apply ln_increasing; lra. }
    replace (1 - 1/2) with (1/2) by lra. rewrite Lh, Lp.
    set (x := ln (1 - / 2 ^ 10)) in *. set (l := ln 2) in *. clearbody x l. lra.
Qed.
Print Assumptions C103_fixed_sparsity_refuted.
