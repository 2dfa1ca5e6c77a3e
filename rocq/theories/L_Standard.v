(** * L_Standard: lemmas about the standard Hawkes model. *)
From Coq Require Import Permutation.
From Verif Require Import Prelude ExtReal Arrays Spec_Basis Spec_Discrete M_Basis L_Basis M_Parents M_Discrete L_Discrete L_Minibatch
  M_MeanField M_Standard Props_Network.
Set Implicit Arguments.
Open Scope R_scope.

Lemma s_data_at_nat m i d : nth_error (sm_data m) i = Some d -> s_data_at m (Z.of_nat i) = Ok d.
Proof.
  intros H. unfold s_data_at. rewrite py_index_nat by (apply nth_error_Some; congruence). now rewrite H.
Qed.
Lemma s_data_at_in m i d : s_data_at m i = Ok d -> In d (sm_data m).
Proof.
  unfold s_data_at. destruct (py_index _ _) as [j|]; [|discriminate].
  destruct (nth_error _ _) eqn:E; [|discriminate]. intros [= <-]. eapply nth_error_In; eauto.
Qed.

Lemma s_ll_sum_from m l ds : forall pre acc, sm_data m = pre ++ ds ->
  s_ll_sum m l (map Z.of_nat (seq (length pre) (length ds))) acc = Ok (eadd acc (elsum (map (s_ll_data m l) ds))).
Proof.
  induction ds as [|d ds IH]; intros pre acc E; cbn [length seq map s_ll_sum elsum].
  - now rewrite eadd_0_r.
  - rewrite (@s_data_at_nat m (length pre) d).
    2:{ rewrite E, nth_error_app2, Nat.sub_diag by lia. reflexivity. }
    cbn [bindr]. specialize (IH (pre ++ [d]) (eadd acc (s_ll_data m l d))).
    rewrite app_length, Nat.add_1_r in IH. rewrite IH; [now rewrite eadd_assoc|].
    rewrite <- app_assoc. exact E.
Qed.

Lemma s_ll_all m ks l : s_ks m ks = Ok l -> s_log_likelihood m All ks = Ok (elsum (map (s_ll_data m l) (sm_data m))).
Proof.
  intros E. unfold s_log_likelihood, s_indices. pose proof (@s_ll_sum_from m l (sm_data m) [] (Fin 0) eq_refl) as H.
  cbn [length] in H. rewrite eadd_0_l in H.
  destruct (sm_data m) as [|d ds] eqn:Ed; [reflexivity|].
  cbn [length seq map] in *.
  rewrite (@s_data_at_nat m 0 d) by (rewrite Ed; reflexivity). cbn [bindr]. rewrite E. cbn [bindr]. exact H.
Qed.

Lemma s_data_list_from m ds : forall pre, sm_data m = pre ++ ds ->
  s_data_list m (map Z.of_nat (seq (length pre) (length ds))) = Ok ds.
Proof.
  induction ds as [|d ds IH]; intros pre E; cbn [length seq map s_data_list]; [reflexivity|].
  rewrite (@s_data_at_nat m (length pre) d).
  2:{ rewrite E, nth_error_app2, Nat.sub_diag by lia. reflexivity. }
  cbn [bindr]. specialize (IH (pre ++ [d])). rewrite app_length, Nat.add_1_r in IH. rewrite IH; [reflexivity|].
  rewrite <- app_assoc. exact E.
Qed.
Lemma s_data_list_all m : s_data_list m (s_indices m All) = Ok (sm_data m).
Proof. apply (@s_data_list_from m (sm_data m) []). reflexivity. Qed.

Lemma s_ks_arr m l : l <> [] -> (forall k, In k l -> (k < sm_K m)%nat) -> s_ks m (KArr l) = Ok l.
Proof.
  intros Hne H. unfold s_ks. destruct l as [|k l]; [contradiction|].
  rewrite (proj2 (forallb_forall _ _)); [reflexivity|]. intros x Hx. apply Nat.ltb_lt; auto.
Qed.
Lemma s_ks_none m : (0 < sm_K m)%nat -> s_ks m KNone = Ok (seq 0 (sm_K m)).
Proof. intros H. unfold s_ks. destruct (sm_K m); [lia|reflexivity]. Qed.

(** Finite values. *)
Definition ll_fin (m : smodel) (w : mat) (l : list nat) (ds : list sdata) : R :=
  lsum (map (fun d => Rsum (sd_T d) (fun t => lsum (map (fun k =>
    IZR (sd_S d t k) * ln (s_rate (sm_P m) (w k) d t) - s_rate (sm_P m) (w k) d t * sm_dt m) l))) ds).
Definition prior_fin (m : smodel) (w : mat) (l : list nat) : R :=
  lsum (map (fun k => (if Rltb 1 (sm_alpha m) then (sm_alpha m - 1) * Rsum (sm_P m - 1) (fun j => ln (w k (S j))) else 0)
                      + Rsum (sm_P m - 1) (fun j => - sm_beta m * w k (S j))) l).

Lemma s_ll_fin m l : (forall d t k, In d (sm_data m) -> (t < sd_T d)%nat -> In k l -> 0 < s_rate (sm_P m) (sm_w m k) d t) ->
  elsum (map (s_ll_data m l) (sm_data m)) = Fin (ll_fin m (sm_w m) l (sm_data m)).
Proof.
  intros H. unfold ll_fin. apply elsum_map_fin. intros d Hd. unfold s_ll_data. apply esum_fin. intros t Ht.
  apply elsum_map_fin. intros k Hk. unfold s_ll_cell. rewrite elog_fin by auto. now rewrite emul_fin, esub_fin.
Qed.
Lemma s_prior_fin m l : (forall k j, In k l -> (0 < j < sm_P m)%nat -> 0 < sm_w m k j) ->
  elsum (map (fun k => s_prior_row (sm_P m) (sm_alpha m) (sm_beta m) (sm_w m k)) l) = Fin (prior_fin m (sm_w m) l).
Proof.
  intros H. unfold prior_fin. apply elsum_map_fin. intros k Hk. unfold s_prior_row.
  rewrite (@esum_fin _ _ (fun j => ln (sm_w m k (S j)))).
  2:{ intros j Hj. apply elog_fin. apply H; [auto|]. lia. }
  destruct (Rltb 1 (sm_alpha m)); [rewrite emul_fin|]; now rewrite eadd_fin.
Qed.

(** Positive rates and weights. *)
Definition rates_pos (m : smodel) (l : list nat) : Prop :=
  forall d t k, In d (sm_data m) -> (t < sd_T d)%nat -> In k l -> 0 < s_rate (sm_P m) (sm_w m k) d t.
Definition weights_pos (m : smodel) (l : list nat) : Prop :=
  forall k j, In k l -> (0 < j < sm_P m)%nat -> 0 < sm_w m k j.

Lemma s_log_prior_arr m l : (forall k, In k l -> (k < sm_K m)%nat) ->
  s_log_prior m (KArr l) = Ok (elsum (map (fun k => s_prior_row (sm_P m) (sm_alpha m) (sm_beta m) (sm_w m k)) l)).
Proof.
  intros H. unfold s_log_prior. rewrite (proj2 (forallb_forall _ _)); [reflexivity|].
  intros x Hx. apply Nat.ltb_lt; auto.
Qed.
Lemma s_log_posterior_fin m l : l <> [] -> (forall k, In k l -> (k < sm_K m)%nat) -> rates_pos m l -> weights_pos m l ->
  s_log_posterior m All (KArr l) = Ok (Fin (ll_fin m (sm_w m) l (sm_data m) + prior_fin m (sm_w m) l)).
Proof.
  intros Hne Hl Hr Hw. unfold s_log_posterior.
  rewrite (@s_ll_all m (KArr l) l) by now apply s_ks_arr. cbn [bindr].
  rewrite s_log_prior_arr by auto. cbn [bindr]. rewrite s_ll_fin by exact Hr. rewrite s_prior_fin by exact Hw.
  now rewrite eadd_fin.
Qed.

Lemma s_add_data_inv m s f mb m' : s_add_data m s f mb = Ok m' ->
  exists T F ps, sv_dims s = [T; sm_K m] /\ (0 < T)%nat /\ (0 < sm_K m)%nat /\ counts T (sm_K m) (sv_at s) /\
    (match f with Some F0 => F = F0 | None => exists F0, convolve_with_basis T (sm_K m) (sv_at s) (sm_L m) (sm_B m) (sm_bas m) = Ok F0 /\ F = flatten_F (sm_B m) F0 /\ (0 < sm_B m)%nat end) /\
    s_batches T (sv_at s) F mb = Ok ps /\ m' = sm_with_data m (sm_data m ++ ps).
Proof.
  unfold s_add_data. intros E. apply bindr_ok in E as (T & ET & E). apply check_S_ok in ET as (H1 & H2 & H3 & H4 & H5 & H6).
  apply bindr_ok in E as (F & EF & E). apply bindr_ok in E as (ps & Eps & E). injection E as <-.
  exists T, F, ps. repeat split; auto.
  destruct f as [F0|]; [now injection EF|].
  apply bindr_ok in EF as (F0 & EF0 & EF). destruct (Nat.eqb_spec (sm_B m) 0); [discriminate|]. injection EF as <-.
  exists F0. repeat split; auto. lia.
Qed.

Lemma s_add_data_ok m T S_ : (0 < T)%nat -> (0 < sm_K m)%nat -> (0 < sm_B m)%nat -> (0 < sm_L m)%nat -> counts T (sm_K m) S_ ->
  forall mb, mb <> Some 0%Z -> exists m', s_add_data m (sval_of T (sm_K m) S_) None mb = Ok m'.
Proof.
  intros HT HK HB HL Hc mb Hmb. unfold s_add_data.
  rewrite (proj2 (check_S_ok (sm_K m) (sval_of T (sm_K m) S_) T)) by (repeat split; auto).
  cbn [bindr sv_at sval_of]. destruct (@convolve_ok T (sm_K m) S_ (sm_L m) (sm_B m) (sm_bas m)) as (F & E); auto.
  rewrite E. cbn [bindr]. destruct (Nat.eqb_spec (sm_B m) 0) as [HB0|_]; [lia|]. cbn [bindr].
  destruct mb as [n|]; [|eexists; reflexivity].
  unfold s_batches. destruct (Z.eqb_spec n 0); [congruence|]. destruct (Z.ltb n 0); eexists; reflexivity.
Qed.

(** The rate from flattened weights is the Hawkes rate. *)
Lemma s_rate_split m w d t : (0 < sm_B m)%nat -> sd_F d t 0%nat = 1 ->
  s_rate (sm_P m) w d t = w 0%nat + Rsum (sm_K m) (fun k1 => Rsum (sm_B m) (fun b => sd_F d t (1 + (k1 * sm_B m + b))%nat * w (1 + (k1 * sm_B m + b))%nat)).
Proof.
  intros HB H1. unfold s_rate, sm_P. change (1 + sm_K m * sm_B m)%nat with (S (sm_K m * sm_B m)).
  rewrite Rsum_S_l, H1, Rsum_mul. cbn. ring.
Qed.

(* derivatives of finite sums *)
Lemma derivable_lim_Rsum n (f : nat -> R -> R) (f' : nat -> R) x :
  (forall i, (i < n)%nat -> derivable_pt_lim (f i) x (f' i)) -> derivable_pt_lim (fun y => Rsum n (fun i => f i y)) x (Rsum n f').
Proof.
  induction n as [|n IH]; intros H; cbn [Rsum]; [apply derivable_pt_lim_const|].
  apply (derivable_pt_lim_plus (fun y => Rsum n (fun i => f i y)) (f n)); auto.
Qed.
Lemma derivable_lim_lsum {A} (l : list A) (f : A -> R -> R) (f' : A -> R) x :
  (forall a, In a l -> derivable_pt_lim (f a) x (f' a)) -> derivable_pt_lim (fun y => lsum (map (fun a => f a y) l)) x (lsum (map f' l)).
Proof.
  induction l as [|a l IH]; intros H; cbn [map lsum]; [apply derivable_pt_lim_const|].
  apply (derivable_pt_lim_plus (f a) (fun y => lsum (map (fun a => f a y) l))); [apply H; now left|].
  apply IH. intros; apply H; now right.
Qed.
Lemma derivable_lim_eq f x l l' : l = l' -> derivable_pt_lim f x l -> derivable_pt_lim f x l'.
Proof. now intros ->. Qed.
Lemma derivable_lim_ext f g x l : (forall y, f y = g y) -> derivable_pt_lim f x l -> derivable_pt_lim g x l.
Proof. intros E H eps He. destruct (H eps He) as (d & Hd). exists d. intros h H1 H2. rewrite <- !E. auto. Qed.

(** rate as a function of one weight: affine *)
Lemma s_rate_upd P w d t j x : (j < P)%nat ->
  s_rate P (upd w j x) d t = s_rate P w d t + sd_F d t j * (x - w j).
Proof.
  intros Hj. unfold s_rate.
  rewrite (@Rsum_ext _ _ (fun i => sd_F d t i * w i + (if Nat.eqb i j then sd_F d t j * (x - w j) else 0))).
  2:{ intros i _. unfold upd. destruct (Nat.eqb_spec i j); subst; ring. }
  rewrite Rsum_plus. f_equal. rewrite (Rsum_ind P j (fun _ => sd_F d t j * (x - w j))). apply Nat.ltb_lt in Hj. now rewrite Hj.
Qed.
Lemma lsum_nodup_ind (l : list nat) k c : NoDup l -> In k l -> lsum (map (fun k' => if Nat.eqb k' k then c else 0) l) = c.
Proof.
  induction l as [|a l IH]; intros Hn Hi; [destruct Hi|]. inversion Hn; subst. cbn.
  destruct (Nat.eqb_spec a k) as [->|Hne].
  - rewrite (lsum_map_ext _ (fun _ => 0)); [rewrite lsum_map_const; ring|].
    intros b Hb. destruct (Nat.eqb_spec b k); [subst; contradiction|reflexivity].
  - destruct Hi; [congruence|]. rewrite IH by auto. ring.
Qed.

(** Concavity of ln. *)
Lemma ln_tangent x y : 0 < x -> 0 < y -> ln y <= ln x + (y - x) / x.
Proof.
  intros Hx Hy. assert (H : ln (y / x) <= y / x - 1).
  { apply ln_le_sub1. apply Rdiv_lt_0_compat; auto. }
  rewrite ln_div in H by auto. replace ((y - x) / x) with (y / x - 1) by (field; lra). lra.
Qed.
Lemma ln_concave a b th : 0 < a -> 0 < b -> 0 <= th <= 1 -> th * ln a + (1 - th) * ln b <= ln (th * a + (1 - th) * b).
Proof.
  intros Ha Hb Hth. set (c := th * a + (1 - th) * b).
  assert (Hc : 0 < c).
  { unfold c. destruct (Req_dec th 0) as [->|]; [nra|]. assert (0 < th * a) by (apply Rmult_lt_0_compat; lra).
    assert (0 <= (1 - th) * b) by (apply Rmult_le_pos; lra). lra. }
  pose proof (ln_tangent Hc Ha) as H1. pose proof (ln_tangent Hc Hb) as H2.
  assert (E : th * ((a - c) / c) + (1 - th) * ((b - c) / c) = 0).
  { unfold c. field. fold c. lra. }
  assert (th * ln a <= th * (ln c + (a - c) / c)) by (apply Rmult_le_compat_l; lra).
  assert ((1 - th) * ln b <= (1 - th) * (ln c + (b - c) / c)) by (apply Rmult_le_compat_l; lra).
  lra.
Qed.
