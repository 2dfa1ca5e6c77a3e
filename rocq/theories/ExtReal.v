(** * ExtReal: IEEE-style extended reals.

    Python/NumPy floats are modelled by [R], except where the behaviour of the
    code is decided by infinities and NaN (log of 0, 0/0, logsumexp,
    comparisons).  There we use [er].  Rounding and signed zeros are not
    modelled (zero is +0).  Nothing in this file models pyhawkes itself. *)
From Verif Require Import Prelude.
Set Implicit Arguments.
Open Scope R_scope.

Inductive er : Type := Fin (r : R) | PInf | NInf | NaN.

Definition eopp (x : er) : er :=
  match x with Fin a => Fin (- a) | PInf => NInf | NInf => PInf | NaN => NaN end.

Definition eadd (x y : er) : er :=
  match x, y with
  | NaN, _ | _, NaN => NaN
  | PInf, NInf | NInf, PInf => NaN
  | PInf, _ | _, PInf => PInf
  | NInf, _ | _, NInf => NInf
  | Fin a, Fin b => Fin (a + b)
  end.

Definition esub (x y : er) : er := eadd x (eopp y).

(** Infinity with the sign of the real [a] ([a = 0] gives NaN: 0 * inf). *)
Definition einf_sign (a : R) (pos : bool) : er :=
  if Rltb 0 a then (if pos then PInf else NInf)
  else if Rltb a 0 then (if pos then NInf else PInf) else NaN.

Definition emul (x y : er) : er :=
  match x, y with
  | NaN, _ | _, NaN => NaN
  | Fin a, Fin b => Fin (a * b)
  | Fin a, PInf | PInf, Fin a => einf_sign a true
  | Fin a, NInf | NInf, Fin a => einf_sign a false
  | PInf, PInf | NInf, NInf => PInf
  | PInf, NInf | NInf, PInf => NInf
  end.

(** Division as NumPy does it for floats: x/0 is an infinity, 0/0 is NaN. *)
Definition ediv (x y : er) : er :=
  match x, y with
  | NaN, _ | _, NaN => NaN
  | Fin a, Fin b => if Reqb b 0 then einf_sign a true else Fin (a / b)
  | Fin a, PInf | Fin a, NInf => Fin 0
  | PInf, Fin b => if Reqb b 0 then PInf else einf_sign b true
  | NInf, Fin b => if Reqb b 0 then NInf else einf_sign b false
  | PInf, PInf | PInf, NInf | NInf, PInf | NInf, NInf => NaN
  end.

(** np.log *)
Definition elog (x : er) : er :=
  match x with
  | Fin a => if Rltb 0 a then Fin (ln a) else if Reqb a 0 then NInf else NaN
  | PInf => PInf
  | NInf | NaN => NaN
  end.

(** np.exp *)
Definition eexp (x : er) : er :=
  match x with Fin a => Fin (exp a) | PInf => PInf | NInf => Fin 0 | NaN => NaN end.

(** Comparisons: any comparison with NaN is False. *)
Definition elt (x y : er) : bool :=
  match x, y with
  | NaN, _ | _, NaN => false
  | Fin a, Fin b => Rltb a b
  | NInf, NInf => false
  | NInf, _ => true
  | _, NInf => false
  | PInf, _ => false
  | Fin _, PInf => true
  end.
Definition eeqb (x y : er) : bool :=
  match x, y with
  | Fin a, Fin b => Reqb a b
  | PInf, PInf | NInf, NInf => true
  | _, _ => false
  end.
Definition ele (x y : er) : bool := elt x y || eeqb x y.

Definition efinite (x : er) : bool := match x with Fin _ => true | _ => false end.

(** np.maximum / np.minimum: NaN propagates. *)
Definition emax (x y : er) : er :=
  match x, y with NaN, _ | _, NaN => NaN | _, _ => if elt x y then y else x end.
Definition emin (x y : er) : er :=
  match x, y with NaN, _ | _, NaN => NaN | _, _ => if elt y x then y else x end.

(** np.cos *)
Definition ecos (x : er) : er := match x with Fin a => Fin (cos a) | _ => NaN end.

Fixpoint esum (n : nat) (f : nat -> er) : er :=
  match n with O => Fin 0 | S n' => eadd (esum n' f) (f n') end.

Fixpoint elsum (l : list er) : er :=
  match l with [] => Fin 0 | x :: l' => eadd x (elsum l') end.

(** Largest finite double, used by np.nan_to_num. *)
Definition dbl_max : R := (2 - / 2 ^ 52) * 2 ^ 1023.
Definition nan_to_num (x : er) : R :=
  match x with Fin a => a | PInf => dbl_max | NInf => - dbl_max | NaN => 0 end.

(** scipy.special.logsumexp of a two-element list [[a; b]]:
    a_max = amax(a); if not isfinite(a_max): a_max = 0;
    log(sum(exp(a - a_max))) + a_max. *)
Definition logsumexp2 (a b : er) : er :=
  let m := emax a b in
  let m := if efinite m then m else Fin 0 in
  eadd (elog (eadd (eexp (esub a m)) (eexp (esub b m)))) m.

(** The value of a finite extended real (0 otherwise; only used in statements
    that also say the value is finite). *)
Definition fval (x : er) : R := match x with Fin a => a | _ => 0 end.

(* ------------------------------------------------------------------ *)
Lemma eadd_fin a b : eadd (Fin a) (Fin b) = Fin (a + b).
Proof. reflexivity. Qed.
Lemma esub_fin a b : esub (Fin a) (Fin b) = Fin (a - b).
Proof. reflexivity. Qed.
Lemma emul_fin a b : emul (Fin a) (Fin b) = Fin (a * b).
Proof. reflexivity. Qed.
Lemma ediv_fin a b : b <> 0 -> ediv (Fin a) (Fin b) = Fin (a / b).
Proof. intros H; cbn. apply Reqb_false in H. now rewrite H. Qed.
Lemma ediv_0_0 : ediv (Fin 0) (Fin 0) = NaN.
Proof.
  cbn. destruct (Reqb 0 0) eqn:E; [|apply Reqb_false in E; lra].
  unfold einf_sign, Rltb. destruct (Rlt_dec 0 0); [lra|reflexivity].
Qed.
Lemma elog_fin a : 0 < a -> elog (Fin a) = Fin (ln a).
Proof. intros H; cbn. apply Rltb_true in H. now rewrite H. Qed.
Lemma elog_0 : elog (Fin 0) = NInf.
Proof.
  cbn. unfold Rltb, Reqb. destruct (Rlt_dec 0 0); [lra|].
  destruct (Req_EM_T 0 0); [reflexivity|lra].
Qed.

Lemma esum_fin n f g :
  (forall i, (i < n)%nat -> f i = Fin (g i)) -> esum n f = Fin (Rsum n g).
Proof.
  induction n as [|n IH]; intros H; cbn; [reflexivity|].
  rewrite IH, H by (auto; lia). reflexivity.
Qed.

Lemma esum_ext n f g :
  (forall i, (i < n)%nat -> f i = g i) -> esum n f = esum n g.
Proof.
  induction n as [|n IH]; intros H; cbn; [reflexivity|]. rewrite IH, H; auto.
Qed.

Lemma eadd_NaN_l y : eadd NaN y = NaN. Proof. reflexivity. Qed.
Lemma eadd_NaN_r x : eadd x NaN = NaN. Proof. destruct x; reflexivity. Qed.

Lemma esum_NaN n f i : (i < n)%nat -> f i = NaN -> esum n f = NaN.
Proof.
  induction n as [|n IH]; intros Hi Hf; [lia|]. cbn.
  destruct (Nat.eq_dec i n) as [->|Hne].
  - rewrite Hf. apply eadd_NaN_r.
  - rewrite IH by (auto; lia). reflexivity.
Qed.

Lemma elsum_map_fin {A} (f : A -> er) (g : A -> R) l :
  (forall x, In x l -> f x = Fin (g x)) -> elsum (map f l) = Fin (lsum (map g l)).
Proof.
  induction l as [|x l IH]; intros H; cbn; [reflexivity|].
  rewrite H, IH; [reflexivity| |now left]. intros; apply H; now right.
Qed.

Lemma elt_fin a b : elt (Fin a) (Fin b) = Rltb a b.
Proof. reflexivity. Qed.

Lemma emax_fin a b : emax (Fin a) (Fin b) = Fin (Rmax a b).
Proof.
  cbn. unfold Rltb, Rmax. destruct (Rlt_dec a b), (Rle_dec a b); try reflexivity; try lra.
  f_equal; lra.
Qed.
Lemma emin_fin a b : emin (Fin a) (Fin b) = Fin (Rmin a b).
Proof.
  cbn. unfold Rltb, Rmin. destruct (Rlt_dec b a), (Rle_dec a b); try reflexivity; try lra.
Qed.

(** logsumexp computes ln(e^a + e^b) on finite inputs. *)
Lemma logsumexp2_fin a b :
  logsumexp2 (Fin a) (Fin b) = Fin (ln (exp a + exp b)).
Proof.
  unfold logsumexp2. rewrite emax_fin. cbn [efinite esub eadd eopp eexp].
  set (m := Rmax a b).
  assert (Hp : 0 < exp (a + - m) + exp (b + - m))
    by (pose proof (exp_pos (a + - m)); pose proof (exp_pos (b + - m)); lra).
  rewrite elog_fin by exact Hp. rewrite eadd_fin. f_equal.
  rewrite !exp_plus, <- Rmult_plus_distr_r, ln_mult.
  - rewrite ln_exp. lra.
  - pose proof (exp_pos a); pose proof (exp_pos b); lra.
  - apply exp_pos.
Qed.

Lemma logsumexp2_NInf_l b : logsumexp2 NInf (Fin b) = Fin b.
Proof.
  unfold logsumexp2. cbn. replace (0 + exp (b + - b)) with 1.
  - destruct (Rltb 0 1) eqn:E; [cbn; f_equal; rewrite ln_1; lra|].
    apply Rltb_false in E; lra.
  - rewrite Rplus_opp_r, exp_0. lra.
Qed.
Lemma logsumexp2_NInf_r a : logsumexp2 (Fin a) NInf = Fin a.
Proof.
  unfold logsumexp2. cbn. replace (exp (a + - a) + 0) with 1.
  - destruct (Rltb 0 1) eqn:E; [cbn; f_equal; rewrite ln_1; lra|].
    apply Rltb_false in E; lra.
  - rewrite Rplus_opp_r, exp_0. lra.
Qed.

Lemma eadd_comm x y : eadd x y = eadd y x.
Proof. destruct x, y; cbn; try reflexivity. f_equal; lra. Qed.
Lemma eadd_assoc x y z : eadd x (eadd y z) = eadd (eadd x y) z.
Proof. destruct x, y, z; cbn; try reflexivity. f_equal; lra. Qed.
Lemma eadd_0_l x : eadd (Fin 0) x = x.
Proof. destruct x; cbn; try reflexivity. f_equal; lra. Qed.
Lemma eadd_0_r x : eadd x (Fin 0) = x.
Proof. destruct x; cbn; try reflexivity. f_equal; lra. Qed.

Local Arguments eadd : simpl never.
Lemma elsum_app l1 l2 : elsum (l1 ++ l2) = eadd (elsum l1) (elsum l2).
Proof.
  induction l1 as [|x l IH]; cbn; [now rewrite eadd_0_l|].
  rewrite IH. apply eadd_assoc.
Qed.

Lemma elsum_map_seq f n : elsum (map f (seq 0 n)) = esum n f.
Proof.
  induction n as [|n IH]; [reflexivity|].
  rewrite seq_S, map_app, elsum_app, IH. cbn. now rewrite eadd_0_r.
Qed.

Lemma esum_plus n f g : esum n (fun i => eadd (f i) (g i)) = eadd (esum n f) (esum n g).
Proof.
  induction n as [|n IH]; cbn; [now rewrite eadd_0_l|].
  rewrite IH. rewrite <- !eadd_assoc. f_equal. rewrite !eadd_assoc. f_equal. apply eadd_comm.
Qed.

Lemma elsum_perm l1 l2 : Permutation.Permutation l1 l2 -> elsum l1 = elsum l2.
Proof.
  induction 1 as [|x l1 l2 H IH|x y l|l1 l2 l3 H1 IH1 H2 IH2]; cbn.
  - reflexivity.
  - now rewrite IH.
  - rewrite !eadd_assoc. f_equal. apply eadd_comm.
  - congruence.
Qed.

Lemma elsum_concat_map {A} (f : A -> er) ll :
  elsum (map f (concat ll)) = elsum (map (fun l => elsum (map f l)) ll).
Proof.
  induction ll as [|l ll IH]; [reflexivity|].
  cbn. rewrite map_app, elsum_app, IH; reflexivity.
Qed.

Lemma elsum_map_ext {A} (f g : A -> er) l :
  (forall x, In x l -> f x = g x) -> elsum (map f l) = elsum (map g l).
Proof.
  induction l as [|x l IH]; intros H; cbn; [reflexivity|].
  rewrite IH, H; auto; [now left|intros; apply H; now right].
Qed.

Lemma elsum_map_plus {A} (f g : A -> er) l :
  elsum (map (fun x => eadd (f x) (g x)) l) = eadd (elsum (map f l)) (elsum (map g l)).
Proof.
  induction l as [|x l IH]; cbn; [now rewrite eadd_0_l|]. rewrite IH.
  rewrite <- !eadd_assoc. f_equal. rewrite !eadd_assoc. f_equal. apply eadd_comm.
Qed.

Lemma elsum_esum_swap {A} n (f : A -> nat -> er) l :
  elsum (map (fun x => esum n (f x)) l) = esum n (fun i => elsum (map (fun x => f x i) l)).
Proof.
  induction l as [|x l IH]; cbn.
  - symmetry. rewrite (esum_fin _ (fun _ => 0)) by auto. f_equal. apply Rsum_zero.
  - rewrite IH, <- esum_plus. reflexivity.
Qed.

Lemma esum_app n m f :
  esum (n + m) f = eadd (esum n f) (esum m (fun i => f (n + i)%nat)).
Proof.
  induction m as [|m IH]; [cbn; rewrite Nat.add_0_r; now rewrite eadd_0_r|].
  rewrite Nat.add_succ_r. cbn. rewrite IH. now rewrite eadd_assoc.
Qed.
