(** * L_Joint: decompositions of the joint density of Spec_Joint. *)
From Verif Require Import Prelude ExtReal Arrays Spec_Basis Spec_Discrete Spec_Parents Spec_Gibbs Spec_Network Spec_Joint
  M_Parents M_Discrete L_Discrete L_Parents L_Network Props_Parents Props_Gibbs.
Set Implicit Arguments.
Open Scope R_scope.

(** ** same_law *)
Lemma same_law_eq {X} (D : X -> Prop) f g : (forall x, D x -> f x = g x) -> same_law D f g.
Proof. intros H. exists 0. intros x Hx. rewrite H by auto. ring. Qed.
Lemma same_law_sym {X} (D : X -> Prop) f g : same_law D f g -> same_law D g f.
Proof. intros [c H]. exists (- c). intros x Hx. rewrite (H x Hx). ring. Qed.
Lemma same_law_trans {X} (D : X -> Prop) f g h : same_law D f g -> same_law D g h -> same_law D f h.
Proof. intros [c H] [c' H']. exists (c' + c). intros x Hx. rewrite (H x Hx), (H' x Hx). ring. Qed.
Lemma same_law_shift {X} (D : X -> Prop) f g c : (forall x, D x -> f x = g x + c) -> same_law D f g.
Proof. intros H. now exists c. Qed.
Lemma same_law_plus {X} (D : X -> Prop) f g f' g' : same_law D f g -> same_law D f' g' ->
  same_law D (fun x => f x + f' x) (fun x => g x + g' x).
Proof. intros [c H] [c' H']. exists (c + c'). intros x Hx. rewrite (H x Hx), (H' x Hx). ring. Qed.
(** Independent coordinates. *)
Lemma same_law_sum {X Y} K (D : nat -> X -> Prop) (f g : nat -> X -> R) (pr : nat -> Y -> X) :
  (forall k, (k < K)%nat -> same_law (D k) (f k) (g k)) ->
  same_law (fun y => forall k, (k < K)%nat -> D k (pr k y)) (fun y => Rsum K (fun k => f k (pr k y))) (fun y => Rsum K (fun k => g k (pr k y))).
Proof.
  induction K as [|K IH]; intros H.
  - exists 0. intros. cbn. ring.
  - destruct IH as [c Hc]; [intros; apply H; lia|]. destruct (H K ltac:(lia)) as [c' Hc'].
    exists (c + c'). intros y Hy. cbn [Rsum]. rewrite Hc, Hc' by (intros; apply Hy; lia). ring.
Qed.
Lemma same_law_sum2 {X Y} K (D : nat -> nat -> X -> Prop) (f g : nat -> nat -> X -> R) (pr : nat -> nat -> Y -> X) :
  (forall i j, (i < K)%nat -> (j < K)%nat -> same_law (D i j) (f i j) (g i j)) ->
  same_law (fun y => forall i j, (i < K)%nat -> (j < K)%nat -> D i j (pr i j y))
    (fun y => Rsum K (fun i => Rsum K (fun j => f i j (pr i j y)))) (fun y => Rsum K (fun i => Rsum K (fun j => g i j (pr i j y)))).
Proof.
  intros H.
  pose proof (@same_law_sum Y Y K (fun i y => forall j, (j < K)%nat -> D i j (pr i j y)) (fun i y => Rsum K (fun j => f i j (pr i j y)))
    (fun i y => Rsum K (fun j => g i j (pr i j y))) (fun _ y => y)) as [c Hc].
  - intros i Hi. exact (@same_law_sum X Y K (D i) (f i) (g i) (pr i) (fun j Hj => H i j Hi Hj)).
  - exists c. intros y Hy. apply Hc. intros; now apply Hy.
Qed.
Lemma same_law_weaken {X} (D D' : X -> Prop) f g : (forall x, D' x -> D x) -> same_law D f g -> same_law D' f g.
Proof. intros H [c Hc]. exists c. auto. Qed.
Lemma same_law_lsum {X Z} (D : X -> Prop) (f g : Z -> X -> R) l : (forall d, In d l -> same_law D (f d) (g d)) ->
  same_law D (fun x => lsum (map (fun d => f d x) l)) (fun x => lsum (map (fun d => g d x) l)).
Proof.
  induction l as [|d l IH]; intros H; [exists 0; intros; cbn; ring|].
  destruct IH as [c Hc]; [intros; apply H; now right|]. destruct (H d (or_introl eq_refl)) as [c' Hc'].
  exists (c' + c). intros x Hx. cbn [map lsum]. rewrite Hc, Hc' by auto. ring.
Qed.

(** ** Attributions of a parents object *)
Definition attr_of (d : parents) : attributions :=
  {| at_T := pa_T d; at_dt := pa_dt d; at_nev := fun k => n_events (pa_T d) (pa_S d) k; at_F := pa_F d;
     at0 := fun t k => attributed d t k 0; at1 := fun t k2 k1 b => attributed d t k2 (1 + (k1 * pa_B d + b)) |}.

Lemma bkgd_ll_law d k : 0 < pa_dt d ->
  same_law (fun x => 0 < x) (bkgd_ll (attr_of d) k)
    (fun x => Rsum (pa_T d) (fun t => pois_loglik (IZR (attributed d t k 0)) (pa_dt d) x)).
Proof.
  intros Hdt. exists (Rsum (pa_T d) (fun t => IZR (attributed d t k 0) * ln (pa_dt d) - lfact (attributed d t k 0))).
  intros x Hx. unfold bkgd_ll. cbn [attr_of at_T at_dt at0]. rewrite <- Rsum_plus. apply Rsum_ext. intros t _.
  unfold poisson_lpmf, pois_loglik. rewrite ln_mult by auto. ring.
Qed.
(** Where an attribution needs positive activity. *)
Definition at_pos (d : parents) (k1 k2 : nat) : Prop :=
  forall t b, (t < pa_T d)%nat -> (b < pa_B d)%nat -> attributed d t k2 (1 + (k1 * pa_B d + b))%nat <> 0%Z -> 0 < pa_F d t k1 b.
Lemma pair_ll_w d k1 k2 gb : 0 < pa_dt d -> at_pos d k1 k2 -> (forall b, (b < pa_B d)%nat -> 0 < gb b) ->
  same_law (fun w => 0 < w) (fun w => pair_ll (attr_of d) (pa_B d) k1 k2 w gb)
    (fun w => pois_loglik (IZR (children d k1 k2)) (IZR (n_events (pa_T d) (pa_S d) k1)) w).
Proof.
  intros Hdt HF Hg.
  exists (Rsum (pa_T d) (fun t => Rsum (pa_B d) (fun b =>
    IZR (attributed d t k2 (1 + (k1 * pa_B d + b))%nat) * ln (gb b * pa_F d t k1 b * pa_dt d) - lfact (attributed d t k2 (1 + (k1 * pa_B d + b)))))).
  intros w Hw. unfold pair_ll, pois_loglik, children. cbn [attr_of at_T at_dt at1 at_F at_nev].
  rewrite IZR_Zsum, <- Rsum_scal_r.
  match goal with |- ?a - ?x = ?b - ?y + ?c => enough (a = b + c) by (replace x with y by ring; lra) end.
  rewrite <- Rsum_plus. apply Rsum_ext. intros t Ht.
  rewrite IZR_Zsum, <- Rsum_scal_r, <- Rsum_plus. apply Rsum_ext. intros b Hb.
  destruct (Z.eq_dec (attributed d t k2 (1 + (k1 * pa_B d + b))%nat) 0) as [->|Hz]; [ring|].
  specialize (HF t b Ht Hb Hz). specialize (Hg b Hb).
  replace (w * gb b * pa_F d t k1 b * pa_dt d) with (w * (gb b * pa_F d t k1 b * pa_dt d)) by ring.
  rewrite ln_mult; [ring|exact Hw|]. apply Rmult_lt_0_compat; [|exact Hdt]. now apply Rmult_lt_0_compat.
Qed.
Lemma pair_ll_g d k1 k2 w : 0 < pa_dt d -> at_pos d k1 k2 -> (children d k1 k2 = 0%Z \/ 0 < w) ->
  nonneg_Z d ->
  same_law (fun x => forall b, (b < pa_B d)%nat -> 0 < x b) (fun x => pair_ll (attr_of d) (pa_B d) k1 k2 w x) (fun x => basis_loglik d k1 k2 x).
Proof.
  intros Hdt HF Hw Hn.
  assert (Hz0 : forall t b, (t < pa_T d)%nat -> (b < pa_B d)%nat -> attributed d t k2 (1 + (k1 * pa_B d + b))%nat <> 0%Z -> 0 < w).
  { intros t b Ht Hb Hz. destruct Hw as [Hc|]; [|auto]. exfalso. apply Hz. clear HF. unfold children in Hc.
    assert (Zle : forall n f, (forall i, (i < n)%nat -> (0 <= f i)%Z) -> Zsum n f = 0%Z -> forall i, (i < n)%nat -> f i = 0%Z).
    { induction n as [|n IH]; intros f Hf Hs i Hi; [lia|]. cbn [Zsum] in Hs.
      assert (0 <= Zsum n f)%Z by (apply Zsum_nonneg; intros; apply Hf; lia). pose proof (Hf n ltac:(lia)).
      destruct (Nat.eq_dec i n) as [->|]; [lia|]. apply IH; try lia. intros; apply Hf; lia. }
    assert (H1 := Zle _ _ (fun t' _ => Zsum_nonneg _ (fun b' _ => Hn t' k2 (1 + (k1 * pa_B d + b'))%nat)) Hc t Ht). cbv beta in H1.
    exact (Zle _ _ (fun b' _ => Hn t k2 (1 + (k1 * pa_B d + b'))%nat) H1 b Hb). }
  exists (Rsum (pa_T d) (fun t => Rsum (pa_B d) (fun b =>
    IZR (attributed d t k2 (1 + (k1 * pa_B d + b))%nat) * ln (w * pa_F d t k1 b * pa_dt d) - lfact (attributed d t k2 (1 + (k1 * pa_B d + b)))))
     - w * IZR (n_events (pa_T d) (pa_S d) k1)).
  intros x Hx. unfold pair_ll, basis_loglik. cbn [attr_of at_T at_dt at1 at_F at_nev].
  match goal with |- ?a - ?x = ?b + (?c - ?x) => enough (a = b + c) by lra end.
  rewrite <- Rsum_plus. apply Rsum_ext. intros t Ht. rewrite <- Rsum_plus. apply Rsum_ext. intros b Hb.
  destruct (Z.eq_dec (attributed d t k2 (1 + (k1 * pa_B d + b))%nat) 0) as [->|Hz]; [ring|].
  specialize (HF t b Ht Hb Hz). specialize (Hx b Hb). specialize (Hz0 t b Ht Hb Hz).
  replace (w * x b * pa_F d t k1 b * pa_dt d) with (x b * (w * pa_F d t k1 b * pa_dt d)) by ring.
  rewrite ln_mult; [ring|exact Hx|]. apply Rmult_lt_0_compat; [|exact Hdt]. now apply Rmult_lt_0_compat.
Qed.
Lemma complete_ll_split K B d lam W g :
  complete_ll K B d lam W g = Rsum K (fun k => bkgd_ll d k (lam k)) + Rsum K (fun k1 => Rsum K (fun k2 => pair_ll d B k1 k2 (W k1 k2) (g k1 k2))).
Proof. unfold complete_ll. rewrite Rsum_plus. f_equal. apply Rsum_swap. Qed.

(** ** Attributions given everything else *)
Lemma lfact_0 : lfact 0 = 0.
Proof. unfold lfact. cbn. apply ln_1. Qed.
(** Rate of each possible parent of an event of k in bin t. *)
Definition cause_rate (d : parents) (q : params) (t k c : nat) : R :=
  match c with
  | O => q_lam q k
  | S i => q_W q (i / pa_B d)%nat k * q_g q (i / pa_B d)%nat k (i mod pa_B d)%nat * pa_F d t (i / pa_B d)%nat (i mod pa_B d)%nat
  end.
Lemma pvec_cause d q k r c : pvec_python d q k r c = cause_rate d q (pa_row d k r) k c.
Proof. destruct c; cbn; [reflexivity|]. unfold pa_Fs. ring. Qed.
Lemma complete_ll_cols d q :
  complete_ll (pa_K d) (pa_B d) (attr_of d) (q_lam q) (q_W q) (q_g q)
  = Rsum (pa_K d) (fun k => - q_lam q k * INR (pa_T d) * pa_dt d
      - Rsum (pa_K d) (fun k1 => q_W q k1 k * IZR (n_events (pa_T d) (pa_S d) k1))
      + Rsum (pa_T d) (fun t => Rsum (1 + pa_K d * pa_B d) (fun c =>
          IZR (attributed d t k c) * ln (cause_rate d q t k c * pa_dt d) - lfact (attributed d t k c)))).
Proof.
  unfold complete_ll. apply Rsum_ext. intros k Hk.
  assert (E1 : bkgd_ll (attr_of d) k (q_lam q k) = - q_lam q k * INR (pa_T d) * pa_dt d
     + Rsum (pa_T d) (fun t => IZR (attributed d t k 0) * ln (q_lam q k * pa_dt d) - lfact (attributed d t k 0))).
  { unfold bkgd_ll. cbn [attr_of at_T at_dt at0]. unfold poisson_lpmf.
    rewrite (@Rsum_ext (pa_T d) _ (fun t => (IZR (attributed d t k 0) * ln (q_lam q k * pa_dt d) - lfact (attributed d t k 0)) + (- (q_lam q k * pa_dt d)))) by (intros; ring).
    rewrite Rsum_plus, Rsum_const. ring. }
  assert (E2 : Rsum (pa_K d) (fun k1 => pair_ll (attr_of d) (pa_B d) k1 k (q_W q k1 k) (q_g q k1 k))
     = Rsum (pa_T d) (fun t => Rsum (pa_K d) (fun k1 => Rsum (pa_B d) (fun b =>
         IZR (attributed d t k (1 + (k1 * pa_B d + b))) * ln (q_W q k1 k * q_g q k1 k b * pa_F d t k1 b * pa_dt d) - lfact (attributed d t k (1 + (k1 * pa_B d + b))))))
       - Rsum (pa_K d) (fun k1 => q_W q k1 k * IZR (n_events (pa_T d) (pa_S d) k1))).
  { unfold pair_ll. rewrite Rsum_minus. cbn [attr_of at_T at_dt at1 at_F at_nev]. f_equal. apply Rsum_swap. }
  rewrite E1, E2.
  transitivity (- q_lam q k * INR (pa_T d) * pa_dt d - Rsum (pa_K d) (fun k1 => q_W q k1 k * IZR (n_events (pa_T d) (pa_S d) k1))
    + (Rsum (pa_T d) (fun t => IZR (attributed d t k 0) * ln (q_lam q k * pa_dt d) - lfact (attributed d t k 0))
     + Rsum (pa_T d) (fun t => Rsum (pa_K d) (fun k1 => Rsum (pa_B d) (fun b =>
         IZR (attributed d t k (1 + (k1 * pa_B d + b))) * ln (q_W q k1 k * q_g q k1 k b * pa_F d t k1 b * pa_dt d) - lfact (attributed d t k (1 + (k1 * pa_B d + b)))))))); [ring|].
  f_equal. rewrite <- Rsum_plus. apply Rsum_ext. intros t Ht. rewrite Rsum_app. cbn [Rsum]. rewrite Rplus_0_l. f_equal.
  rewrite Rsum_mul. apply Rsum_ext. intros k1 Hk1. apply Rsum_ext. intros b Hb. cbn [Nat.add cause_rate]. now rewrite div_idx, mod_idx by auto.
Qed.

Lemma multinomial_row M (n : Z) (v : vec) (x : nat -> Z) dt : 0 < dt ->
  (forall c, (c < M)%nat -> 0 <= v c) -> 0 < Rsum M v -> multinomial_outcome M n (normalise M v) x ->
  Rsum M (fun c => IZR (x c) * ln (v c * dt) - lfact (x c))
  = multinomial_lpmf M n (normalise M v) x + IZR n * ln (Rsum M v) + (IZR n * ln dt - lfact n).
Proof.
  intros Hdt Hv Hs (H0 & H1 & H2). unfold multinomial_lpmf.
  assert (E : IZR n = Rsum M (fun c => IZR (x c))) by (rewrite <- IZR_Zsum; now rewrite H1).
  rewrite (@Rsum_ext M _ (fun c => (IZR (x c) * ln (normalise M v c) - lfact (x c)) + (IZR (x c) * (ln (Rsum M v) + ln dt)))).
  - rewrite Rsum_plus, Rsum_scal_r, <- E. ring.
  - intros c Hc. destruct (Z.eq_dec (x c) 0) as [->|Hx]; [ring|].
    assert (Hp : 0 < v c).
    { destruct (Hv c Hc) as [|Hz]; [auto|]. exfalso. apply Hx, H2; auto. unfold normalise. rewrite <- Hz. unfold Rdiv. ring. }
    unfold normalise. rewrite ln_mult, ln_div by auto. ring.
Qed.
