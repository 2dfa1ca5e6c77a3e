(** * L_LabelBound: the label share of the bound, one row at a time. *)
From Verif Require Import Prelude ExtReal Arrays Spec_Labels Spec_LabelBound Spec_Network
  M_Dist M_Network L_Network Props_Network Props_Expect.
Set Implicit Arguments.
Open Scope R_scope.

(* ---------------- averaging ---------------- *)
Section Lin.
Variables (C : nat) (q : nat -> nat -> R).
Lemma label_mean_from_plus n : forall c F G,
  label_mean_from C q n c (fun c => F c + G c) = label_mean_from C q n c F + label_mean_from C q n c G.
Proof.
  induction n as [|n IH]; intros c F G; cbn [label_mean_from]; [reflexivity|].
  rewrite <- Rsum_plus. apply Rsum_ext. intros a _. rewrite IH. ring.
Qed.
Lemma label_mean_from_zero n : forall c, label_mean_from C q n c (fun _ => 0) = 0.
Proof. induction n as [|n IH]; intros c; cbn [label_mean_from]; [reflexivity|]. rewrite (@Rsum_ext C _ (fun _ => 0)); [apply Rsum_zero|]. intros. rewrite IH. ring. Qed.
Lemma label_mean_from_sum n c (F : nat -> (nat -> nat) -> R) : forall N,
  label_mean_from C q n c (fun c => Rsum N (fun i => F i c)) = Rsum N (fun i => label_mean_from C q n c (F i)).
Proof.
  induction N as [|N IH]; cbn [Rsum]; [apply label_mean_from_zero|]. rewrite <- IH. exact (@label_mean_from_plus n c (fun c => Rsum N (fun i => F i c)) (F N)).
Qed.
End Lin.

(** Closed form. *)
Definition pairval (C : nat) (allow : bool) (S : nat -> nat -> nat -> nat -> R) (q : mat) (i j : nat) : R :=
  if Nat.eqb i j then (if allow then Rsum C (fun a => q i a * S i i a a) else 0)
  else Rsum C (fun a => Rsum C (fun b => q i a * q j b * S i j a b)).
Definition closed (K C : nat) (allow : bool) (lnpi : vec) (S : nat -> nat -> nat -> nat -> R) (q : mat) : R :=
  Rsum K (fun k => Rsum C (fun a => q k a * lnpi a)) + Rsum K (fun i => Rsum K (fun j => pairval C allow S q i j))
  - Rsum K (fun k => Rsum C (fun a => q k a * ln (q k a))).
Lemma label_elbo_closed K C allow lnpi S q : (forall k, (k < K)%nat -> Rsum C (q k) = 1) ->
  label_elbo K C allow lnpi S q = closed K C allow lnpi S q.
Proof.
  intros Hq. unfold label_elbo, closed, label_mean. f_equal. unfold labelled.
  rewrite (@label_mean_from_plus C q K _ (fun c => Rsum K (fun k => lnpi (c k)))). f_equal.
  - rewrite (@label_mean_from_sum C q K _ (fun k c => lnpi (c k))). apply Rsum_ext. intros k Hk. apply (@label_mean_one C q K Hq); lia.
  - rewrite (@label_mean_from_sum C q K _ (fun i c => Rsum K (fun j => if (i =? j)%nat && negb allow then 0 else S i j (c i) (c j)))).
    apply Rsum_ext. intros i Hi.
    rewrite (@label_mean_from_sum C q K _ (fun j c => if (i =? j)%nat && negb allow then 0 else S i j (c i) (c j))).
    apply Rsum_ext. intros j Hj. unfold pairval. destruct (Nat.eqb_spec i j) as [<-|Hne]; cbn [andb].
    + destruct allow; cbn [negb]; [|apply label_mean_from_zero]. apply (@label_mean_one C q K Hq K _ i (fun a => S i i a a)). lia.
    + apply (@label_mean_two C q K Hq); lia.
Qed.

(* ---------------- one row ---------------- *)
Lemma Rsum_split K k f : (k < K)%nat -> Rsum K f = f k + Rsum_not K k f.
Proof.
  intros Hk. unfold Rsum_not.
  rewrite (@Rsum_ext K f (fun j => (if (j =? k)%nat then f j else 0) + (if (j =? k)%nat then 0 else f j))) by (intros j _; destruct (j =? k)%nat; ring).
  rewrite Rsum_plus. f_equal. clear -Hk. induction K as [|K IH]; [lia|]. cbn [Rsum]. destruct (Nat.eqb_spec K k) as [->|Hne].
  - rewrite (@Rsum_ext k _ (fun _ => 0)); [rewrite Rsum_zero; ring|]. intros i Hi. destruct (Nat.eqb_spec i k); [lia|reflexivity].
  - rewrite IH by lia. ring.
Qed.
Lemma Rsum_not_ext K k f g : (forall j, (j < K)%nat -> j <> k -> f j = g j) -> Rsum_not K k f = Rsum_not K k g.
Proof. intros H. unfold Rsum_not. apply Rsum_ext. intros j Hj. destruct (Nat.eqb_spec j k); auto. Qed.
Lemma Rsum_not_plus K k f g : Rsum_not K k (fun j => f j + g j) = Rsum_not K k f + Rsum_not K k g.
Proof. unfold Rsum_not. rewrite <- Rsum_plus. apply Rsum_ext. intros j _. destruct (j =? k)%nat; ring. Qed.
Lemma Rsum_not_scal K k c f : Rsum_not K k (fun j => c * f j) = c * Rsum_not K k f.
Proof. unfold Rsum_not. rewrite <- Rsum_scal. apply Rsum_ext. intros j _. destruct (j =? k)%nat; ring. Qed.
Lemma Rsum_not_swap K C k (f : nat -> nat -> R) : Rsum_not K k (fun j => Rsum C (f j)) = Rsum C (fun a => Rsum_not K k (fun j => f j a)).
Proof.
  unfold Rsum_not. rewrite Rsum_swap. apply Rsum_ext. intros j _. destruct (j =? k)%nat; [|reflexivity]. symmetry. apply Rsum_zero.
Qed.

Definition row_lp (K C : nat) (allow : bool) (lnpi : vec) (S : nat -> nat -> nat -> nat -> R) (q : mat) (k a : nat) : R :=
  lnpi a + Rsum_not K k (fun j => Rsum C (fun b => q j b * S k j a b)) + Rsum_not K k (fun j => Rsum C (fun b => q j b * S j k b a))
  + (if allow then S k k a a else 0).
Definition row_obj (C : nat) (lp r : vec) : R := Rsum C (fun a => r a * (lp a - ln (r a))).

(** Everything that does not involve row k. *)
Definition other (K C : nat) (allow : bool) (lnpi : vec) (S : nat -> nat -> nat -> nat -> R) (q : mat) (k : nat) : R :=
  Rsum_not K k (fun k => Rsum C (fun a => q k a * lnpi a)) + Rsum_not K k (fun i => Rsum_not K k (fun j => pairval C allow S q i j))
  - Rsum_not K k (fun k => Rsum C (fun a => q k a * ln (q k a))).
Lemma other_row K C allow lnpi S q k r : other K C allow lnpi S (set_row q k r) k = other K C allow lnpi S q k.
Proof.
  assert (E : forall j, j <> k -> set_row q k r j = q j).
  { intros j Hj. unfold set_row. destruct (Nat.eqb_spec j k); [congruence|reflexivity]. }
  assert (E' : forall j a, j <> k -> set_row q k r j a = q j a) by (intros; now rewrite E).
  unfold other. f_equal; [f_equal|].
  - apply Rsum_not_ext. intros j _ Hj. apply Rsum_ext. intros. now rewrite E'.
  - apply Rsum_not_ext. intros i _ Hi. apply Rsum_not_ext. intros j _ Hj. unfold pairval. destruct (i =? j)%nat.
    + destruct allow; [|reflexivity]. apply Rsum_ext. intros. now rewrite E'.
    + apply Rsum_ext. intros. apply Rsum_ext. intros. now rewrite !E'.
  - apply Rsum_not_ext. intros j _ Hj. apply Rsum_ext. intros. now rewrite E'.
Qed.
Lemma closed_row K C allow lnpi S q k r : (k < K)%nat ->
  closed K C allow lnpi S (set_row q k r) = other K C allow lnpi S q k + row_obj C (row_lp K C allow lnpi S q k) r.
Proof.
  intros Hk. rewrite <- (@other_row K C allow lnpi S q k r). unfold closed.
  set (q' := set_row q k r).
  assert (Ek : forall a, q' k a = r a) by (intros; unfold q', set_row; now rewrite Nat.eqb_refl).
  assert (Ej : forall j a, j <> k -> q' j a = q j a) by (intros j a Hj; unfold q', set_row; destruct (Nat.eqb_spec j k); [congruence|reflexivity]).
  rewrite (@Rsum_split K k (fun k => Rsum C (fun a => q' k a * lnpi a)) Hk).
  rewrite (@Rsum_split K k (fun k => Rsum C (fun a => q' k a * ln (q' k a))) Hk).
  assert (E2 : Rsum K (fun i => Rsum K (fun j => pairval C allow S q' i j))
    = pairval C allow S q' k k + Rsum_not K k (fun j => pairval C allow S q' k j) + Rsum_not K k (fun i => pairval C allow S q' i k)
      + Rsum_not K k (fun i => Rsum_not K k (fun j => pairval C allow S q' i j))).
  { rewrite (@Rsum_split K k (fun i => Rsum K (fun j => pairval C allow S q' i j)) Hk). rewrite (@Rsum_split K k (fun j => pairval C allow S q' k j) Hk).
    rewrite (@Rsum_not_ext K k (fun i => Rsum K (fun j => pairval C allow S q' i j)) (fun i => pairval C allow S q' i k + Rsum_not K k (fun j => pairval C allow S q' i j))).
    - rewrite Rsum_not_plus. ring.
    - intros i _ _. now apply Rsum_split. }
  rewrite E2. unfold other.
  assert (E3 : Rsum_not K k (fun j => pairval C allow S q' k j) = Rsum C (fun a => r a * Rsum_not K k (fun j => Rsum C (fun b => q j b * S k j a b)))).
  { rewrite (@Rsum_not_ext K k _ (fun j => Rsum C (fun a => r a * Rsum C (fun b => q j b * S k j a b)))).
    - rewrite Rsum_not_swap. apply Rsum_ext. intros a _. now rewrite Rsum_not_scal.
    - intros j _ Hj. unfold pairval. destruct (Nat.eqb_spec k j); [congruence|]. apply Rsum_ext. intros a _. rewrite <- Rsum_scal. apply Rsum_ext. intros b _. rewrite Ek, Ej by auto. ring. }
  assert (E4 : Rsum_not K k (fun j => pairval C allow S q' j k) = Rsum C (fun a => r a * Rsum_not K k (fun j => Rsum C (fun b => q j b * S j k b a)))).
  { rewrite (@Rsum_not_ext K k _ (fun j => Rsum C (fun a => r a * Rsum C (fun b => q j b * S j k b a)))).
    - rewrite Rsum_not_swap. apply Rsum_ext. intros a _. now rewrite Rsum_not_scal.
    - intros j _ Hj. unfold pairval. destruct (Nat.eqb_spec j k); [congruence|]. rewrite Rsum_swap. apply Rsum_ext. intros a _. rewrite <- Rsum_scal. apply Rsum_ext. intros b _. rewrite Ek, Ej by auto. ring. }
  assert (E5 : pairval C allow S q' k k = Rsum C (fun a => r a * (if allow then S k k a a else 0))).
  { unfold pairval. rewrite Nat.eqb_refl. destruct allow; [apply Rsum_ext; intros; now rewrite Ek|]. rewrite (@Rsum_ext C _ (fun _ => 0)); [symmetry; apply Rsum_zero|intros; ring]. }
  rewrite E3, E4, E5. unfold row_obj, row_lp.
  rewrite (@Rsum_ext C (fun a => r a * (lnpi a + _ + _ + _ - ln (r a)))
     (fun a => r a * lnpi a + r a * Rsum_not K k (fun j => Rsum C (fun b => q j b * S k j a b)) + r a * Rsum_not K k (fun j => Rsum C (fun b => q j b * S j k b a))
       + r a * (if allow then S k k a a else 0) + - (r a * ln (r a)))) by (intros; ring).
  rewrite !Rsum_plus, Rsum_opp.
  rewrite (@Rsum_ext C (fun a => q' k a * lnpi a) (fun a => r a * lnpi a)) by (intros; now rewrite Ek).
  rewrite (@Rsum_ext C (fun a => q' k a * ln (q' k a)) (fun a => r a * ln (r a))) by (intros; now rewrite Ek).
  ring.
Qed.

(* ---------------- Gibbs ---------------- *)
Lemma xlnx_le x p : 0 <= x -> 0 < p -> x * (ln p - ln x) <= p - x.
Proof.
  intros [Hx|<-] Hp; [|lra]. assert (Hr : 0 < p / x) by (apply Rdiv_lt_0_compat; auto).
  pose proof (ln_le_sub1 Hr) as H. rewrite ln_div in H by auto. assert (G := Rmult_le_compat_l x _ _ (Rlt_le _ _ Hx) H).
  replace (x * (p / x - 1)) with (p - x) in G by (field; lra). exact G.
Qed.
Lemma xlnx_lt x p : 0 <= x -> 0 < p -> x <> p -> x * (ln p - ln x) < p - x.
Proof.
  intros [Hx|<-] Hp Hne; [|lra]. assert (Hr : 0 < p / x) by (apply Rdiv_lt_0_compat; auto).
  assert (H : ln (p / x) < p / x - 1).
  { assert (N : ln (p / x) <> 0). { intros E. apply Hne. rewrite <- ln_1 in E. apply ln_inv in E; try lra. apply (f_equal (fun z => z * x)) in E. field_simplify in E; lra. }
    pose proof (exp_ineq1 (ln (p / x)) N) as H. rewrite exp_ln in H by auto. lra. }
  rewrite ln_div in H by auto. assert (G := Rmult_lt_compat_l x _ _ Hx H).
  replace (x * (p / x - 1)) with (p - x) in G by (field; lra). exact G.
Qed.
Definition softmax (C : nat) (lp : vec) : vec := fun a => exp (lp a) / Rsum C (fun b => exp (lp b)).
Lemma sum_exp_pos C lp : (0 < C)%nat -> 0 < Rsum C (fun b => exp (lp b)).
Proof. intros H. apply Rsum_pos; [exact H|]. intros. apply exp_pos. Qed.
Lemma softmax_pos C lp a : (0 < C)%nat -> 0 < softmax C lp a.
Proof. intros H. apply Rdiv_lt_0_compat; [apply exp_pos|now apply sum_exp_pos]. Qed.
Lemma softmax_simplex C lp : (0 < C)%nat -> simplex C (softmax C lp).
Proof.
  intros H. split; [intros; left; now apply softmax_pos|]. unfold softmax. rewrite Rsum_div. pose proof (sum_exp_pos lp H). field. lra.
Qed.
Lemma softmax_value C lp : (0 < C)%nat -> row_obj C lp (softmax C lp) = ln (Rsum C (fun b => exp (lp b))).
Proof.
  intros H. unfold row_obj. pose proof (sum_exp_pos lp H) as HZ. destruct (@softmax_simplex C lp H) as [_ Hs].
  rewrite (@Rsum_ext C _ (fun a => softmax C lp a * ln (Rsum C (fun b => exp (lp b))))).
  - rewrite Rsum_scal_r, Hs. ring.
  - intros a _. unfold softmax at 2. rewrite ln_div, ln_exp by (auto; apply exp_pos). ring.
Qed.
Lemma row_gap C lp r : (0 < C)%nat -> simplex C r ->
  row_obj C lp r - row_obj C lp (softmax C lp) = Rsum C (fun a => r a * (ln (softmax C lp a) - ln (r a))).
Proof.
  intros H [_ Hs]. rewrite softmax_value by auto. pose proof (sum_exp_pos lp H) as HZ. unfold row_obj.
  transitivity (Rsum C (fun a => r a * (lp a - ln (r a))) - Rsum C r * ln (Rsum C (fun b => exp (lp b)))); [rewrite Hs; ring|].
  rewrite <- Rsum_scal_r, <- Rsum_minus. apply Rsum_ext. intros a _. unfold softmax. rewrite ln_div, ln_exp by (auto; apply exp_pos). ring.
Qed.
Lemma row_max C lp r : (0 < C)%nat -> simplex C r -> row_obj C lp r <= row_obj C lp (softmax C lp).
Proof.
  intros H Hr. pose proof (@row_gap C lp r H Hr) as E. destruct (@softmax_simplex C lp H) as [_ H1]. destruct Hr as [Hr H2].
  assert (L : Rsum C (fun a => r a * (ln (softmax C lp a) - ln (r a))) <= Rsum C (fun a => softmax C lp a - r a)).
  { apply Rsum_le. intros a Ha. apply xlnx_le; [now apply Hr|now apply softmax_pos]. }
  rewrite Rsum_minus, H1, H2 in L. lra.
Qed.
Lemma row_unique C lp r a : (0 < C)%nat -> simplex C r -> (a < C)%nat -> r a <> softmax C lp a -> row_obj C lp r < row_obj C lp (softmax C lp).
Proof.
  intros H Hr Ha Hne. pose proof (@row_gap C lp r H Hr) as E. destruct (@softmax_simplex C lp H) as [_ H1]. destruct Hr as [Hr H2].
  assert (L : 0 < Rsum C (fun a => (softmax C lp a - r a) - r a * (ln (softmax C lp a) - ln (r a)))).
  { apply Rlt_le_trans with ((softmax C lp a - r a) - r a * (ln (softmax C lp a) - ln (r a))).
    - pose proof (xlnx_lt (Hr a Ha) (softmax_pos lp a H) Hne). lra.
    - apply (@Rsum_term_le C (fun a => (softmax C lp a - r a) - r a * (ln (softmax C lp a) - ln (r a)))); [|exact Ha].
      intros i Hi. pose proof (xlnx_le (Hr i Hi) (softmax_pos lp i H)). lra. }
  rewrite !Rsum_minus, H1, H2 in L. lra.
Qed.
Lemma mix_simplex C r r' s : 0 <= s <= 1 -> simplex C r -> simplex C r' -> simplex C (fun a => mix_step s (r a) (r' a)).
Proof.
  intros Hs [H1 H2] [H3 H4]. split.
  - intros b Hb. unfold mix_step. specialize (H1 b Hb). specialize (H3 b Hb). nra.
  - unfold mix_step. rewrite Rsum_plus, !Rsum_scal, H2, H4. ring.
Qed.
Lemma row_concave C lp r r' s : 0 <= s <= 1 -> simplex C r -> simplex C r' ->
  (1 - s) * row_obj C lp r + s * row_obj C lp r' <= row_obj C lp (fun a => mix_step s (r a) (r' a)).
Proof.
  intros Hs [H1 _] [H3 _]. unfold row_obj. rewrite <- !Rsum_scal, <- Rsum_plus. apply Rsum_le. intros a Ha. specialize (H1 a Ha). specialize (H3 a Ha).
  set (x := r a) in *. set (y := r' a) in *. set (u := mix_step s x y).
  assert (Hu : 0 <= u) by (unfold u, mix_step; nra).
  assert (G : (1 - s) * (x * ln x) + s * (y * ln y) >= u * ln u).
  { destruct Hu as [Hu|Hu].
    - pose proof (xlnx_le H1 Hu) as X. pose proof (xlnx_le H3 Hu) as Y.
      assert (EU : u = (1 - s) * x + s * y) by reflexivity.
      assert (Q : (1 - s) * (x * (ln u - ln x)) + s * (y * (ln u - ln y)) <= (1 - s) * (u - x) + s * (u - y)).
      { apply Rplus_le_compat; apply Rmult_le_compat_l; lra. }
      replace ((1 - s) * (u - x) + s * (u - y)) with 0 in Q by (rewrite EU; ring).
      replace ((1 - s) * (x * (ln u - ln x)) + s * (y * (ln u - ln y))) with (u * ln u - ((1 - s) * (x * ln x) + s * (y * ln y))) in Q by (rewrite EU; ring). lra.
    - assert (EU : (1 - s) * x + s * y = 0) by (symmetry; exact Hu). 
      assert (Z1 : (1 - s) * x = 0) by nra. assert (Z2 : s * y = 0) by nra.
      replace ((1 - s) * (x * ln x)) with ((1 - s) * x * ln x) by ring. replace (s * (y * ln y)) with (s * y * ln y) by ring. rewrite Z1, Z2, <- Hu. lra. }
  replace ((1 - s) * (x * (lp a - ln x)) + s * (y * (lp a - ln y))) with (u * lp a - ((1 - s) * (x * ln x) + s * (y * ln y))) by (unfold u, mix_step; ring).
  lra.
Qed.
