(** * L_Invariance: a systematic scan of single-entry conditional updates leaves the target invariant. *)
From Coquelicot Require Import Coquelicot.
From Coq Require Import FunctionalExtensionality.
From Verif Require Import Prelude Arrays Spec_Gibbs Spec_Invariance.
Set Implicit Arguments.
Open Scope R_scope.

Lemma in_pairs K i j : In (i, j) (pairs K) <-> (i < K)%nat /\ (j < K)%nat.
Proof. unfold pairs. rewrite in_prod_iff, !in_seq. lia. Qed.
Lemma NoDup_prod A B (l : list A) (l' : list B) : NoDup l -> NoDup l' -> NoDup (list_prod l l').
Proof.
  intros H H'. induction H as [|x l Hx Hl IH]; cbn; [constructor|].
  assert (Hd : forall l1, NoDup l1 -> NoDup (map (fun y => (x, y)) l1 ++ list_prod l l')).
  { intros l1 H1. induction H1 as [|y l1 Hy H1 IH1]; cbn; [exact IH|]. constructor; [|exact IH1].
    rewrite in_app_iff, in_map_iff. intros [(z & E & Hz)|Hi]; [congruence|]. apply in_prod_iff in Hi as (Hi & _). contradiction. }
  now apply Hd.
Qed.
Lemma pairs_NoDup K : NoDup (pairs K).
Proof. apply NoDup_prod; apply seq_NoDup. Qed.

(** ** Updates of one entry *)
Lemma upd2_same T (A : nat -> nat -> T) i j x y : upd2 (upd2 A i j x) i j y = upd2 A i j y.
Proof. apply functional_extensionality; intros a; apply functional_extensionality; intros b. unfold upd2. now destruct (_ && _)%bool. Qed.
Lemma upd2_swap T (A : nat -> nat -> T) i j i' j' x y : (i, j) <> (i', j') -> upd2 (upd2 A i j x) i' j' y = upd2 (upd2 A i' j' y) i j x.
Proof.
  intros H. apply functional_extensionality; intros a; apply functional_extensionality; intros b. unfold upd2.
  destruct (Nat.eqb_spec a i), (Nat.eqb_spec b j), (Nat.eqb_spec a i'), (Nat.eqb_spec b j'); cbn; try reflexivity. subst. congruence.
Qed.
Lemma upd2_self T (A : nat -> nat -> T) i j : upd2 A i j (A i j) = A.
Proof.
  apply functional_extensionality; intros a; apply functional_extensionality; intros b. unfold upd2.
  destruct (Nat.eqb_spec a i), (Nat.eqb_spec b j); cbn; congruence.
Qed.

Lemma cell_dec (x y : nat * nat) : {x = y} + {x <> y}.
Proof. decide equality; apply Nat.eq_dec. Qed.

(** ** Sums over networks *)
Lemma over_ext cs : forall A F G, (forall B, F B = G B) -> over_cells cs A F = over_cells cs A G.
Proof. induction cs as [|(i, j) cs IH]; intros A F G H; cbn; [apply H|]. now rewrite (IH _ F G H), (IH (upd2 A i j true) F G H). Qed.
Lemma over_plus cs : forall A F G, over_cells cs A (fun B => F B + G B) = over_cells cs A F + over_cells cs A G.
Proof. induction cs as [|(i, j) cs IH]; intros A F G; cbn; [reflexivity|]. rewrite !IH. ring. Qed.
Lemma over_scal cs c : forall A F, over_cells cs A (fun B => c * F B) = c * over_cells cs A F.
Proof. induction cs as [|(i, j) cs IH]; intros A F; cbn; [reflexivity|]. rewrite !IH. ring. Qed.
(** An entry outside the list can be set before or after. *)
Lemma over_upd cs i j b : ~ In (i, j) cs -> forall A F, over_cells cs (upd2 A i j b) F = over_cells cs A (fun B => F (upd2 B i j b)).
Proof.
  induction cs as [|(i', j') cs IH]; intros Hn A F; cbn; [reflexivity|].
  rewrite <- !IH by (intros E; apply Hn; now right).
  assert (Hne : (i, j) <> (i', j')) by (intros E; apply Hn; left; congruence).
  now rewrite !(upd2_swap A b _ Hne).
Qed.
(** Two functions with the same sum over one listed entry have the same sum over networks. *)
Lemma over_pair cs i j : In (i, j) cs -> NoDup cs -> forall A F G,
  (forall B, F (upd2 B i j false) + F (upd2 B i j true) = G (upd2 B i j false) + G (upd2 B i j true)) ->
  over_cells cs A F = over_cells cs A G.
Proof.
  induction cs as [|(i', j') cs IH]; intros Hin Hnd A F G H; [contradiction|].
  inversion Hnd as [|? ? Hni Hnd']; subst. cbn [over_cells]. destruct (in_dec cell_dec (i, j) cs) as [Hi|Hi].
  - now rewrite (IH Hi Hnd' (upd2 A i' j' false) F G H), (IH Hi Hnd' (upd2 A i' j' true) F G H).
  - assert (E : (i', j') = (i, j)) by (destruct Hin; [auto|contradiction]). injection E as -> ->.
    rewrite !over_upd by auto. rewrite <- !over_plus. apply over_ext. exact H.
Qed.

(** ** One uniform draw *)
Lemma mean_step q a b : 0 <= q <= 1 -> is_RInt (fun x => if Rltb x q then a else b) 0 1 (q * a + (1 - q) * b).
Proof.
  intros Hq. apply (is_RInt_Chasles (fun x => if Rltb x q then a else b) 0 q 1 (q * a) ((1 - q) * b)).
  - apply is_RInt_ext with (fun _ => a).
    + rewrite Rmin_left, Rmax_right by lra. intros x Hx. now rewrite (proj2 (Rltb_true x q)) by lra.
    + replace (q * a) with (scal (q - 0) a) by (unfold scal; cbn; unfold mult; cbn; ring). apply @is_RInt_const.
  - apply is_RInt_ext with (fun _ => b).
    + rewrite Rmin_left, Rmax_right by lra. intros x Hx. now rewrite (proj2 (Rltb_false x q)) by lra.
    + replace ((1 - q) * b) with (scal (1 - q) b) by (unfold scal; cbn; unfold mult; cbn; ring). apply @is_RInt_const.
Qed.

(** Only the values of G at matrices with the listed entries in (0,1) matter. *)
Definition mean_dom (cs : list (nat * nat)) (u u' : mat) : Prop :=
  forall i j, (In (i, j) cs -> 0 < u' i j < 1) /\ (~ In (i, j) cs -> u' i j = u i j).
Lemma is_mean_ext cs : NoDup cs -> forall G G' u v, (forall u', mean_dom cs u u' -> G u' = G' u') -> is_mean cs G u v -> is_mean cs G' u v.
Proof.
  induction cs as [|(i, j) cs IH]; intros Hnd G G' u v H Hm; cbn in *.
  - rewrite Hm. apply H. intros a b. split; [contradiction|auto].
  - inversion Hnd as [|? ? Hni Hnd']; subst. destruct Hm as (h & Hh & Hr). exists h. split; [|exact Hr]. intros x Hx. eapply IH; [exact Hnd'| |now apply Hh].
    intros u' Hu'. apply H. intros a b. destruct (Hu' a b) as (H1 & H2). split.
    + intros [E|Hi]; [|now apply H1]. injection E as -> ->. rewrite (proj2 (Hu' a b) Hni), upd2_eq. exact Hx.
    + intros Hn. rewrite H2 by (intros Hc; apply Hn; now right). apply upd2_neq. destruct (Nat.eq_dec a i); [|now left]. right. intros ->. subst. apply Hn. now left.
Qed.
Lemma is_mean_unique cs : forall G u v v', is_mean cs G u v -> is_mean cs G u v' -> v = v'.
Proof.
  induction cs as [|(i, j) cs IH]; intros G u v v' H H'; cbn in *; [congruence|].
  destruct H as (h & Hh & Hr), H' as (h' & Hh' & Hr').
  apply (@is_RInt_unique R_CompleteNormedModule) in Hr. apply (@is_RInt_unique R_CompleteNormedModule) in Hr'. rewrite <- Hr, <- Hr'. apply RInt_ext.
  rewrite Rmin_left, Rmax_right by lra. intros x Hx. eapply IH; eauto.
Qed.

(** ** A scan of single-entry updates: entry (i,j) becomes present when its uniform falls below q i j A. *)
Definition scan (q : nat -> nat -> bmat -> R) (cs : list (nat * nat)) (u : mat) (A : bmat) : bmat :=
  fold_left (fun B c => upd2 B (fst c) (snd c) (Rltb (u (fst c) (snd c)) (q (fst c) (snd c) B))) cs A.
(** The mean of F after the scan. *)
Fixpoint kern (q : nat -> nat -> bmat -> R) (cs : list (nat * nat)) (F : bmat -> R) (A : bmat) : R :=
  match cs with
  | [] => F A
  | (i, j) :: cs' => q i j A * kern q cs' F (upd2 A i j true) + (1 - q i j A) * kern q cs' F (upd2 A i j false)
  end.
Lemma scan_mean q cs F : NoDup cs -> (forall i j B, In (i, j) cs -> 0 <= q i j B <= 1) -> forall A u, is_mean cs (fun u => F (scan q cs u A)) u (kern q cs F A).
Proof.
  induction cs as [|(i, j) cs IH]; intros Hnd Hq A u; cbn [is_mean kern]; [reflexivity|].
  inversion Hnd as [|? ? Hni Hnd']; subst.
  exists (fun x => if Rltb x (q i j A) then kern q cs F (upd2 A i j true) else kern q cs F (upd2 A i j false)). split.
  - intros x Hx. eapply is_mean_ext; [exact Hnd'| |].
    2:{ replace (if Rltb x (q i j A) then kern q cs F (upd2 A i j true) else kern q cs F (upd2 A i j false))
          with (kern q cs F (upd2 A i j (Rltb x (q i j A)))) by (now destruct (Rltb x (q i j A))).
        apply IH; [exact Hnd'|]. intros; apply Hq. now right. }
    intros u' Hu'. cbv beta. unfold scan. cbn [fold_left fst snd]. rewrite (proj2 (Hu' i j) Hni), upd2_eq. reflexivity.
  - apply mean_step. apply Hq. now left.
Qed.
(** Detailed balance of every single-entry update gives invariance of the scan. *)
Lemma scan_invariant q cs0 (w : bmat -> R) F A0 : NoDup cs0 ->
  (forall i j B b, In (i, j) cs0 -> q i j (upd2 B i j b) = q i j B) ->
  (forall i j B, In (i, j) cs0 -> w (upd2 B i j true) * (1 - q i j B) = w (upd2 B i j false) * q i j B) ->
  forall cs, (forall c, In c cs -> In c cs0) -> over_cells cs0 A0 (fun A => w A * kern q cs F A) = over_cells cs0 A0 (fun A => w A * F A).
Proof.
  intros Hnd Hq Hb. induction cs as [|(i, j) cs IH]; intros Hin; [reflexivity|].
  rewrite <- IH by (intros; apply Hin; now right). specialize (Hin (i, j) (or_introl eq_refl)).
  apply (@over_pair cs0 i j Hin Hnd). intros B. cbn [kern]. rewrite !Hq, !upd2_same by auto. specialize (Hb i j B Hin).
  set (k1 := kern q cs F (upd2 B i j true)). set (k0 := kern q cs F (upd2 B i j false)).
  set (w1 := w (upd2 B i j true)) in *. set (w0 := w (upd2 B i j false)) in *. set (p := q i j B) in *.
  assert (E : (w0 * p - w1 * (1 - p)) * (k1 - k0) = 0) by (rewrite Hb; ring). lra.
Qed.
(** With constant probabilities the scan draws the network from the product law, whatever it starts from. *)
Definition prod_prob (q : mat) (cs : list (nat * nat)) (A : bmat) : R :=
  fold_right Rmult 1 (map (fun c => if A (fst c) (snd c) then q (fst c) (snd c) else 1 - q (fst c) (snd c)) cs).
Lemma over_const_entry cs i j b (f : bool -> R) : ~ In (i, j) cs -> forall A G, over_cells cs (upd2 A i j b) (fun B => f (B i j) * G B) = f b * over_cells cs (upd2 A i j b) G.
Proof.
  intros Hn A G. rewrite !over_upd by auto. rewrite <- over_scal. apply over_ext. intros B. now rewrite upd2_eq.
Qed.
Lemma kern_const (q : mat) cs F : NoDup cs -> forall A, kern (fun i j _ => q i j) cs F A = over_cells cs A (fun B => prod_prob q cs B * F B).
Proof.
  induction cs as [|(i, j) cs IH]; intros Hnd A; cbn [kern over_cells]; [unfold prod_prob; cbn; ring|].
  inversion Hnd as [|? ? Hni Hnd']; subst. rewrite !IH by auto.
  rewrite (@over_ext cs (upd2 A i j false) (fun B => prod_prob q ((i, j) :: cs) B * F B) (fun B => (if B i j then q i j else 1 - q i j) * (prod_prob q cs B * F B))) by (intros B; unfold prod_prob; cbn; ring).
  rewrite (@over_ext cs (upd2 A i j true) (fun B => prod_prob q ((i, j) :: cs) B * F B) (fun B => (if B i j then q i j else 1 - q i j) * (prod_prob q cs B * F B))) by (intros B; unfold prod_prob; cbn; ring).
  rewrite !(@over_const_entry cs i j _ (fun b : bool => if b then q i j else 1 - q i j)) by auto. ring.
Qed.
(** The product of independent edge probabilities, one entry at a time. *)
Lemma prior_split P cs i j : In (i, j) cs -> NoDup cs -> forall B, exists r, forall b,
  prod_prob P cs (upd2 B i j b) = (if b then P i j else 1 - P i j) * r.
Proof.
  intros Hin Hnd B. induction cs as [|(i', j') cs IH]; [contradiction|]. inversion Hnd as [|? ? Hni Hnd']; subst.
  unfold prod_prob in *. cbn [map fold_right fst snd]. destruct (cell_dec (i', j') (i, j)) as [E|E].
  - injection E as -> ->. exists (prod_prob P cs B). intros b. rewrite upd2_eq. f_equal. unfold prod_prob. f_equal. apply map_ext_in.
    intros (a, c) Hc. cbn [fst snd]. rewrite upd2_neq; [reflexivity|]. destruct (Nat.eq_dec a i); [|now left]. right. intros ->. subst. contradiction.
  - destruct Hin as [E'|Hin]; [congruence|]. destruct (IH Hin Hnd') as (r & Hr).
    exists ((if B i' j' then P i' j' else 1 - P i' j') * r). intros b. rewrite Hr, upd2_neq; [ring|].
    destruct (Nat.eq_dec i' i); [|now left]. right. intros ->. subst. congruence.
Qed.
(** Posterior weights exp(L) times the prior are in detailed balance with the edge posterior. *)
Lemma edge_balance K P (L : bmat -> R) i j B : In (i, j) (pairs K) -> 0 <= P i j <= 1 ->
  let q := edge_posterior (P i j) (L (upd2 B i j false)) (L (upd2 B i j true)) in
  exp (L (upd2 B i j true)) * edge_prior K P (upd2 B i j true) * (1 - q) = exp (L (upd2 B i j false)) * edge_prior K P (upd2 B i j false) * q.
Proof.
  intros Hin HP. cbv zeta. unfold edge_posterior. destruct (@prior_split P (pairs K) i j Hin (pairs_NoDup K) B) as (r & Hr).
  change (edge_prior K P) with (prod_prob P (pairs K)). rewrite !Hr. pose proof (exp_pos (L (upd2 B i j false))). pose proof (exp_pos (L (upd2 B i j true))).
  field. destruct (Req_dec (P i j) 0) as [->|]; [lra|]. assert (0 < P i j * exp (L (upd2 B i j true))) by (apply Rmult_lt_0_compat; lra).
  assert (0 <= (1 - P i j) * exp (L (upd2 B i j false))) by (apply Rmult_le_pos; lra). lra.
Qed.
Lemma edge_posterior_unit p l0 l1 : 0 <= p <= 1 -> 0 <= edge_posterior p l0 l1 <= 1.
Proof.
  intros Hp. unfold edge_posterior. pose proof (exp_pos l0). pose proof (exp_pos l1).
  assert (0 <= p * exp l1) by (apply Rmult_le_pos; lra). assert (0 <= (1 - p) * exp l0) by (apply Rmult_le_pos; lra).
  assert (0 < p * exp l1 + (1 - p) * exp l0). { destruct (Req_dec p 0) as [->|]; [lra|]. assert (0 < p * exp l1) by (apply Rmult_lt_0_compat; lra). lra. }
  split; [apply Rmult_le_pos; [lra|left; now apply Rinv_0_lt_compat]|]. apply Rmult_le_reg_r with (p * exp l1 + (1 - p) * exp l0); [lra|].
  unfold Rdiv. rewrite Rmult_assoc, Rinv_l by lra. lra.
Qed.
