(** * L_Discrete: lemmas about M_Discrete and M_Parents (rates, data, likelihoods). *)
From Verif Require Import Prelude ExtReal Arrays Spec_Basis Spec_Discrete M_Basis L_Basis M_Parents M_Discrete.
Set Implicit Arguments.
Open Scope R_scope.

Lemma rate_all_spec m F t k :
  rate_all m F t k = hawkes_rate (dm_K m) (dm_B m) (dm_lam m) (W_effective m) (dm_g m) F t k.
Proof.
  unfold rate_all, hawkes_rate. rewrite Rplus_0_l. f_equal. rewrite Rsum_swap.
  apply Rsum_ext; intros k1 _. apply Rsum_ext; intros b _. ring.
Qed.
Lemma rate_proc_spec m F t k :
  rate_proc m F t k = hawkes_rate (dm_K m) (dm_B m) (dm_lam m) (W_effective m) (dm_g m) F t k.
Proof.
  unfold rate_proc, hawkes_rate. rewrite Rplus_0_l. f_equal.
  apply Rsum_ext; intros k1 _. apply Rsum_ext; intros b _. ring.
Qed.

Lemma hawkes_rate_ext K B lam W g F1 F2 t k :
  (forall k1 b, (k1 < K)%nat -> (b < B)%nat -> F1 t k1 b = F2 t k1 b) ->
  hawkes_rate K B lam W g F1 t k = hawkes_rate K B lam W g F2 t k.
Proof.
  intros H. unfold hawkes_rate. f_equal. apply Rsum_ext; intros. apply Rsum_ext; intros.
  now rewrite H.
Qed.

Lemma hawkes_rate_ge K B lam W g F t k :
  (forall k1 b, (k1 < K)%nat -> (b < B)%nat -> 0 <= W k1 k * g k1 k b * F t k1 b) ->
  lam k <= hawkes_rate K B lam W g F t k.
Proof.
  intros H. unfold hawkes_rate.
  assert (0 <= Rsum K (fun k1 => Rsum B (fun b => W k1 k * g k1 k b * F t k1 b))); [|lra].
  apply Rsum_nonneg; intros. apply Rsum_nonneg; intros. auto.
Qed.

Lemma dims_eqb_refl l : dims_eqb l l = true.
Proof. induction l as [|x l IH]; cbn; [reflexivity|]. now rewrite Nat.eqb_refl, IH. Qed.
Lemma dims_eqb_eq a b : dims_eqb a b = true -> a = b.
Proof.
  revert b; induction a as [|x a IH]; intros [|y b]; cbn; try discriminate; [reflexivity|].
  intros H. apply andb_true_iff in H as [H1 H2]. apply Nat.eqb_eq in H1. now rewrite H1, (IH b).
Qed.

Lemma py_index_nat n i : (i < n)%nat -> py_index n (Z.of_nat i) = Some i.
Proof.
  intros H. unfold py_index.
  destruct (Z.leb_spec 0 (Z.of_nat i)); [|lia]. destruct (Z.ltb_spec (Z.of_nat i) (Z.of_nat n)); [|lia].
  cbn. f_equal. lia.
Qed.
Lemma py_index_neg n i :
  (1 <= i <= n)%nat -> py_index n (- Z.of_nat i) = Some (n - i)%nat.
Proof.
  intros H. unfold py_index.
  destruct (Z.leb_spec 0 (- Z.of_nat i)); [lia|]. cbn [andb].
  destruct (Z.ltb_spec (- Z.of_nat i) 0); [|lia].
  destruct (Z.leb_spec 0 (Z.of_nat n + - Z.of_nat i)); [|lia]. cbn. f_equal. lia.
Qed.
Lemma py_index_lt n i j : py_index n i = Some j -> (j < n)%nat.
Proof.
  unfold py_index.
  destruct (Z.leb_spec 0 i); destruct (Z.ltb_spec i (Z.of_nat n)); cbn [andb];
    try (intros E; injection E as <-; lia);
    destruct (Z.ltb_spec i 0); destruct (Z.leb_spec 0 (Z.of_nat n + i)); cbn [andb];
    intros E; try discriminate; injection E as <-; lia.
Qed.
Lemma py_index_some n i j : py_index n i = Some j ->
  (i = Z.of_nat j \/ i = Z.of_nat j - Z.of_nat n)%Z.
Proof.
  unfold py_index.
  destruct (Z.leb_spec 0 i); destruct (Z.ltb_spec i (Z.of_nat n)); cbn [andb];
    try (intros E; injection E as <-; lia);
    destruct (Z.ltb_spec i 0); destruct (Z.leb_spec 0 (Z.of_nat n + i)); cbn [andb];
    intros E; try discriminate; injection E as <-; lia.
Qed.

(* ---------------- add_data ---------------- *)

Lemma check_S_ok K s T : check_S K s = Ok T <->
  sv_isarray s = true /\ sv_dims s = [T; K] /\ (0 < T)%nat /\ (0 < K)%nat /\
  sv_isint s = true /\ counts T K (sv_at s).
Proof.
  unfold check_S, counts. destruct (sv_isarray s); cbn [negb]; [|split; [discriminate|intros (H&_); discriminate]].
  destruct (sv_dims s) as [|T' [|K' [|? ?]]];
    try (split; [discriminate|intros (_ & H & _); discriminate]).
  destruct (Nat.eqb_spec K' K) as [->|Hne]; cbn [negb].
  2:{ split; [discriminate|]. intros (_ & H & _). injection H as -> ->. congruence. }
  destruct (Nat.eqb_spec T' 0), (Nat.eqb_spec K 0); cbn [orb];
    try (split; [discriminate|intros (_ & H & H1 & H2 & _); injection H as ->; lia]).
  destruct (sv_isint s); cbn [negb]; [|split; [discriminate|intros (_&_&_&_&H&_); discriminate]].
  match goal with |- context [if ?c then _ else _] => destruct c eqn:E end.
  - rewrite forall_lt_true in E. split.
    + intros H; injection H as ->. repeat split; try lia.
      intros t k Ht Hk. specialize (E t Ht). rewrite forall_lt_true in E. specialize (E k Hk).
      now apply Z.leb_le.
    + intros (_ & H & _). now injection H as ->.
  - split; [discriminate|]. intros (_ & H & _ & _ & _ & Hc). injection H as ->. exfalso.
    apply forall_lt_false in E as (t & Ht & E). apply forall_lt_false in E as (k & Hk & E).
    apply Z.leb_gt in E. specialize (Hc t k Ht Hk). lia.
Qed.

Lemma sval_eta s T K : sv_isarray s = true -> sv_dims s = [T; K] -> sv_isint s = true ->
  s = sval_of T K (sv_at s).
Proof. destruct s; cbn. intros -> -> ->. reflexivity. Qed.

Lemma add_data_inv m s f mb m' :
  add_data m s f mb = Ok m' ->
  exists T F ps, s = sval_of T (dm_K m) (sv_at s) /\ (0 < T)%nat /\ (0 < dm_K m)%nat /\
    counts T (dm_K m) (sv_at s) /\ get_F m T s f = Ok F /\
    batches (dm_K m) (dm_B m) (dm_dt m) T (sv_at s) F mb = Ok ps /\
    m' = with_data m (dm_data m ++ ps).
Proof.
  unfold add_data. intros H.
  destruct (check_S (dm_K m) s) as [T|] eqn:E1; [|discriminate]. cbn in H.
  destruct (get_F m T s f) as [F|] eqn:E2; [|discriminate]. cbn in H.
  destruct (batches _ _ _ _ _ _ _) as [ps|] eqn:E3; [|discriminate]. cbn in H.
  injection H as <-. apply check_S_ok in E1 as (H1 & H2 & H3 & H4 & H5 & H6).
  exists T, F, ps. repeat split; auto. now apply sval_eta.
Qed.

Lemma add_data_st_ok m s f mb :
  add_data_st m s f mb = match add_data m s f mb with Ok m' => (Ok tt, m') | Raise e => (Raise e, m) end.
Proof.
  unfold add_data_st, add_data.
  destruct (check_S (dm_K m) s) as [T|e]; cbn [bindr]; [|reflexivity].
  destruct (get_F m T s f) as [F|e]; cbn [bindr]; [|reflexivity].
  unfold batches. destruct mb as [n|]; cbn [bindr]; [|reflexivity].
  destruct (Z.eqb n 0); cbn [bindr]; [reflexivity|].
  destruct (Z.ltb n 0); cbn [bindr].
  { rewrite app_nil_r. destruct m; reflexivity. }
  f_equal. generalize (offsets T T (Z.to_nat n) 0). intros l.
  assert (G : forall l m0, dm_K m0 = dm_K m -> dm_B m0 = dm_B m -> dm_dt m0 = dm_dt m ->
     fold_left (fun m' off => append_data m' (mk_parents (dm_K m') (dm_B m') (dm_dt m')
         (Nat.min (off + Z.to_nat n) T - off) (slice2 off (sv_at s)) (slice3 off F))) l m0
     = with_data m0 (dm_data m0 ++ map (fun off => mk_parents (dm_K m) (dm_B m) (dm_dt m)
         (Nat.min (off + Z.to_nat n) T - off) (slice2 off (sv_at s)) (slice3 off F)) l)).
  { clear l. induction l as [|off l IH]; intros m0 H1 H2 H3; cbn [fold_left map].
    - rewrite app_nil_r. destruct m0; reflexivity.
    - rewrite IH by assumption. rewrite H1, H2, H3. unfold append_data, with_data. cbn.
      rewrite <- app_assoc. reflexivity. }
  apply (G l m); reflexivity.
Qed.

(* ---------------- parents: sparse rows ---------------- *)

Lemma pa_row_in p k r : (r < pa_Tk p k)%nat ->
  (pa_row p k r < pa_T p)%nat /\ pa_S p (pa_row p k r) k <> 0%Z.
Proof.
  intros H. unfold pa_row.
  assert (Hin : In (nth r (pa_ts p k) 0%nat) (pa_ts p k)) by now apply nth_In.
  unfold pa_ts in Hin at 2. apply filter_In in Hin as [H1 H2]. apply in_seq in H1.
  split; [lia|]. apply negb_true_iff, Z.eqb_neq in H2. exact H2.
Qed.

Lemma pa_row_surj p k t : (t < pa_T p)%nat -> pa_S p t k <> 0%Z ->
  exists r, (r < pa_Tk p k)%nat /\ pa_row p k r = t.
Proof.
  intros Ht Hs. assert (Hin : In t (pa_ts p k)).
  { unfold pa_ts. apply filter_In. split; [apply in_seq; lia|].
    apply negb_true_iff, Z.eqb_neq. exact Hs. }
  destruct (In_nth _ _ 0%nat Hin) as (r & Hr & E). now exists r.
Qed.

(** Summing over the sparse rows is summing over all bins, for anything that
    vanishes where the count is zero. *)
Lemma sparse_Rsum p k (f : nat -> R) :
  (forall t, (t < pa_T p)%nat -> pa_S p t k = 0%Z -> f t = 0) ->
  Rsum (pa_Tk p k) (fun r => f (pa_row p k r)) = Rsum (pa_T p) f.
Proof.
  intros H. unfold pa_Tk, pa_row. rewrite <- (lsum_map_nth f (pa_ts p k) 0%nat).
  unfold pa_ts. rewrite lsum_filter, lsum_map_seq. apply Rsum_ext; intros t Ht.
  destruct (Z.eqb_spec (pa_S p t k) 0) as [E|E]; cbn; [symmetry; auto|reflexivity].
Qed.

Lemma pa_Ns_sum p k : pa_Ns p k = Zsum (pa_T p) (fun t => pa_S p t k).
Proof.
  unfold pa_Ns, pa_ts. rewrite lsumZ_filter, lsumZ_map_seq. apply Zsum_ext; intros t Ht.
  destruct (Z.eqb_spec (pa_S p t k) 0) as [E|E]; cbn; auto.
Qed.

Lemma u32_small z : (0 <= z < 2 ^ 32)%Z -> u32 z = z.
Proof. intros H. unfold u32. now apply Z.mod_small. Qed.
Lemma u32_range z : (0 <= u32 z < 2 ^ 32)%Z.
Proof. unfold u32. apply Z.mod_pos_bound. lia. Qed.

(** Counts of a parents object fit in a uint32. *)
Definition fits (p : parents) : Prop :=
  forall t k, (t < pa_T p)%nat -> (k < pa_K p)%nat -> (0 <= pa_S p t k < 2 ^ 32)%Z.

Lemma fits_Ss p k r : fits p -> (k < pa_K p)%nat -> (r < pa_Tk p k)%nat ->
  pa_Ss p k r = pa_S p (pa_row p k r) k /\ (0 < pa_Ss p k r)%Z.
Proof.
  intros H Hk Hr. destruct (@pa_row_in p k r Hr) as [H1 H2]. specialize (H _ _ H1 Hk).
  unfold pa_Ss. rewrite u32_small by auto. split; [reflexivity|lia].
Qed.

Lemma row_rate_spec p q k r :
  row_rate p q k r
  = hawkes_rate (pa_K p) (pa_B p) (q_lam q) (q_W q) (q_g q) (pa_F p) (pa_row p k r) k.
Proof. reflexivity. Qed.

(** The single-process training log likelihood on positive rates. *)
Lemma ll_single_fin p q k :
  fits p -> (k < pa_K p)%nat ->
  (forall t, (t < pa_T p)%nat -> pa_S p t k <> 0%Z ->
     0 < hawkes_rate (pa_K p) (pa_B p) (q_lam q) (q_W q) (q_g q) (pa_F p) t k) ->
  ll_single p q k = Fin (
    - q_lam q k * INR (pa_T p) * pa_dt p
    - Rsum (pa_K p) (fun k1 => q_W q k1 k * Rsum (pa_T p) (fun t => IZR (pa_S p t k1)))
    + Rsum (pa_T p) (fun t => IZR (pa_S p t k)
        * ln (hawkes_rate (pa_K p) (pa_B p) (q_lam q) (q_W q) (q_g q) (pa_F p) t k))).
Proof.
  intros Hf Hk Hpos. unfold ll_single.
  rewrite (esum_fin _ (fun r => IZR (pa_S p (pa_row p k r) k) *
     ln (hawkes_rate (pa_K p) (pa_B p) (q_lam q) (q_W q) (q_g q) (pa_F p) (pa_row p k r) k))).
  2:{ intros r Hr. destruct (@pa_row_in p k r Hr) as [H1 H2].
      rewrite (proj1 (@fits_Ss p k r Hf Hk Hr)), row_rate_spec, elog_fin by auto. reflexivity. }
  rewrite !eadd_fin. f_equal. unfold Rminus. f_equal; [f_equal|].
  - f_equal. apply Rsum_ext; intros k1 Hk1. rewrite pa_Ns_sum, IZR_Zsum. reflexivity.
  - apply (@sparse_Rsum p k (fun t => IZR (pa_S p t k) *
       ln (hawkes_rate (pa_K p) (pa_B p) (q_lam q) (q_W q) (q_g q) (pa_F p) t k))).
    intros t Ht ->. lra.
Qed.

(* ---------------- generate ---------------- *)

Lemma fold_left_seq_S {A} (f : A -> nat -> A) n a :
  fold_left f (seq 0 (S n)) a = f (fold_left f (seq 0 n) a) n.
Proof. rewrite seq_S, fold_left_app. reflexivity. Qed.

Lemma gen_loop_S m pois T : gen_loop m pois (S T) = gen_step m pois (gen_loop m pois T) T.
Proof. apply fold_left_seq_S. Qed.

(** Loop invariant: after T bins, the rate array holds background plus the
    responses to the bins simulated so far. *)
Lemma gen_loop_R m pois T t k2 :
  gs_R (gen_loop m pois T) t k2
  = dm_lam m k2 + Rsum T (fun s =>
      if (Nat.leb s t && Nat.ltb t (s + dm_L m))%bool
      then Rsum (dm_K m) (fun k1 => gen_H m (t - s) k2 k1 * IZR (gs_S (gen_loop m pois T) s k1))
      else 0).
Proof.
  induction T as [|T IH]; [cbn; lra|].
  rewrite gen_loop_S. set (st := gen_loop m pois T) in *. unfold gen_step. cbn [gs_R gs_S Rsum].
  cbv zeta. rewrite Nat.eqb_refl.
  assert (E : Rsum T (fun s => if (Nat.leb s t && Nat.ltb t (s + dm_L m))%bool
       then Rsum (dm_K m) (fun k1 => gen_H m (t - s) k2 k1 *
              IZR (if Nat.eqb s T then pois T k1 (gs_R st T k1 * dm_dt m) else gs_S st s k1)) else 0)
     = Rsum T (fun s => if (Nat.leb s t && Nat.ltb t (s + dm_L m))%bool
       then Rsum (dm_K m) (fun k1 => gen_H m (t - s) k2 k1 * IZR (gs_S st s k1)) else 0)).
  { apply Rsum_ext; intros s Hs. destruct (Nat.eqb_spec s T); [lia|reflexivity]. }
  rewrite E. destruct (Nat.leb T t && Nat.ltb t (T + dm_L m))%bool; rewrite IH; lra.
Qed.

(** Counts and requested means of earlier bins are never touched again. *)
Lemma gen_loop_S_stable m pois T T' t k :
  (t < T)%nat -> (T <= T')%nat ->
  gs_S (gen_loop m pois T') t k = gs_S (gen_loop m pois T) t k /\
  gs_D (gen_loop m pois T') t k = gs_D (gen_loop m pois T) t k.
Proof.
  intros Ht HT. induction HT as [|T' HT IH]; [auto|].
  rewrite gen_loop_S. cbn. destruct (Nat.eqb_spec t T'); [lia|exact IH].
Qed.

Lemma gen_loop_draw m pois T t k :
  (t < T)%nat ->
  gs_S (gen_loop m pois T) t k = pois t k (gs_D (gen_loop m pois T) t k) /\
  gs_D (gen_loop m pois T) t k = gs_R (gen_loop m pois t) t k * dm_dt m.
Proof.
  intros Ht. destruct (@gen_loop_S_stable m pois (S t) T t k) as [-> ->]; try lia.
  rewrite gen_loop_S. cbn. rewrite Nat.eqb_refl. auto.
Qed.

(** The impulse responses applied by the simulator are those of the filter. *)
Lemma gen_rate_is_filter m pois T t k2 :
  (t < T)%nat ->
  gs_R (gen_loop m pois T) t k2
  = hawkes_rate (dm_K m) (dm_B m) (dm_lam m) (W_effective m) (dm_g m)
      (causal_conv (dm_L m) (dm_bas m) (gs_S (gen_loop m pois T))) t k2.
Proof.
  intros Ht. rewrite gen_loop_R. unfold hawkes_rate, causal_conv. f_equal.
  set (S_ := gs_S (gen_loop m pois T)). clearbody S_.
  (* restrict to s <= t and reverse *)
  transitivity (Rsum (S t) (fun s => if Nat.ltb t (s + dm_L m)
      then Rsum (dm_K m) (fun k1 => gen_H m (t - s) k2 k1 * IZR (S_ s k1)) else 0)).
  { rewrite (@Rsum_split_at T (S t)) by lia. rewrite (Rsum_0 (n := T - S t)), Rplus_0_r.
    - apply Rsum_ext; intros s Hs. destruct (Nat.leb_spec s t); [reflexivity|lia].
    - intros i Hi. destruct (Nat.leb_spec (S t + i) t); [lia|reflexivity]. }
  rewrite Rsum_rev.
  transitivity (Rsum (S t) (fun l => Rsum (dm_K m) (fun k1 => Rsum (dm_B m) (fun b =>
     W_effective m k1 k2 * dm_g m k1 k2 b *
     (if Nat.ltb l (dm_L m) then dm_bas m l b * IZR (S_ (t - l)%nat k1) else 0))))).
  { apply Rsum_ext; intros l Hl.
    replace (S t - 1 - l)%nat with (t - l)%nat by lia.
    replace (t - (t - l))%nat with l by lia.
    destruct (Nat.ltb_spec t (t - l + dm_L m)), (Nat.ltb_spec l (dm_L m)); try lia.
    - apply Rsum_ext; intros k1 _. unfold gen_H.
      rewrite <- Rsum_scal, <- Rsum_scal_r. apply Rsum_ext; intros b _. ring.
    - symmetry. apply Rsum_0; intros. apply Rsum_0; intros. ring. }
  rewrite Rsum_swap. apply Rsum_ext; intros k1 _. rewrite Rsum_swap.
  apply Rsum_ext; intros b _. now rewrite Rsum_scal.
Qed.

(** The requested means: background plus responses to strictly earlier bins. *)
Lemma gen_draw_param m pois T t k2 :
  (t < T)%nat ->
  gs_D (gen_loop m pois T) t k2
  = (dm_lam m k2 + Rsum t (fun s =>
      if Nat.ltb t (s + dm_L m)
      then Rsum (dm_K m) (fun k1 => gen_H m (t - s) k2 k1 * IZR (gs_S (gen_loop m pois T) s k1))
      else 0)) * dm_dt m.
Proof.
  intros Ht. destruct (@gen_loop_draw m pois T t k2 Ht) as [_ ->].
  rewrite gen_loop_R. f_equal. f_equal. apply Rsum_ext; intros s Hs.
  destruct (Nat.leb_spec s t); [cbn [andb]|lia].
  destruct (Nat.ltb t (s + dm_L m)); [|reflexivity].
  apply Rsum_ext; intros k1 _.
  destruct (@gen_loop_S_stable m pois t T s k1) as [-> _]; try lia. reflexivity.
Qed.

Lemma gen_draw_strict m pois T t k2 :
  (t < T)%nat ->
  gs_D (gen_loop m pois T) t k2
  = dm_dt m * hawkes_rate (dm_K m) (dm_B m) (dm_lam m) (W_effective m) (dm_g m)
      (strict_conv (dm_L m) (dm_bas m) (gs_S (gen_loop m pois T))) t k2.
Proof.
  intros Ht. rewrite gen_draw_param by auto. rewrite Rmult_comm. f_equal.
  unfold hawkes_rate, strict_conv. f_equal.
  set (S_ := gs_S (gen_loop m pois T)). clearbody S_.
  transitivity (Rsum t (fun s => Rsum (dm_K m) (fun k1 => Rsum (dm_B m) (fun b =>
     W_effective m k1 k2 * dm_g m k1 k2 b *
     (if Nat.ltb (t - s) (dm_L m) then dm_bas m (t - s)%nat b * IZR (S_ s k1) else 0))))).
  { apply Rsum_ext; intros s Hs.
    destruct (Nat.ltb_spec t (s + dm_L m)), (Nat.ltb_spec (t - s) (dm_L m)); try lia.
    - apply Rsum_ext; intros k1 _. unfold gen_H.
      rewrite <- Rsum_scal, <- Rsum_scal_r. apply Rsum_ext; intros b _. ring.
    - symmetry. apply Rsum_0; intros. apply Rsum_0; intros. ring. }
  rewrite Rsum_swap. apply Rsum_ext; intros k1 _. rewrite Rsum_swap.
  apply Rsum_ext; intros b _. now rewrite Rsum_scal.
Qed.

(** Causal = strict when lag 0 of the basis vanishes. *)
Lemma causal_strict L bas S_ t k b :
  bas 0%nat b = 0 -> causal_conv L bas S_ t k b = strict_conv L bas S_ t k b.
Proof.
  intros H0. unfold causal_conv, strict_conv. rewrite Rsum_rev. cbn [Rsum].
  replace (S t - 1 - t)%nat with 0%nat by lia. rewrite H0.
  match goal with |- _ + ?x = _ => replace x with 0 end.
  2:{ destruct (Nat.ltb 0 L); ring. }
  rewrite Rplus_0_r. apply Rsum_ext; intros s Hs.
  replace (S t - 1 - s)%nat with (t - s)%nat by lia.
  now replace (t - (t - s))%nat with s by lia.
Qed.
Lemma causal_conv_nonneg L bas S_ t k b :
  (forall l, (l < L)%nat -> 0 <= bas l b) -> (forall s, (s <= t)%nat -> (0 <= S_ s k)%Z) ->
  0 <= causal_conv L bas S_ t k b.
Proof.
  intros Hb HS. unfold causal_conv. apply Rsum_nonneg; intros l Hl.
  destruct (Nat.ltb_spec l L); [|lra]. apply Rmult_le_pos; [auto|]. apply IZR_le, HS. lia.
Qed.
Lemma strict_conv_ext L bas S1 S2 t k b :
  (forall s, (s < t)%nat -> S1 s k = S2 s k) ->
  strict_conv L bas S1 t k b = strict_conv L bas S2 t k b.
Proof.
  intros H. unfold strict_conv. apply Rsum_ext; intros s Hs. now rewrite H.
Qed.
Lemma convolve_causal T K S_ R_ B bas F :
  convolve_with_basis T K S_ R_ B bas = Ok F ->
  forall t k b, (t < T)%nat -> (k < K)%nat -> (b < B)%nat -> F t k b = causal_conv R_ bas S_ t k b.
Proof.
  intros E t k b Ht Hk Hb. rewrite (@convolve_entry _ _ _ _ _ _ _ E) by auto.
  rewrite conv_full_causal by auto. unfold causal_conv. apply Rsum_ext; intros l Hl.
  destruct (Nat.ltb l R_); ring.
Qed.

Definition net_weight (m : dmodel) : mat := if dm_mix m then dm_W m else edge_weight (dm_A m) (dm_W m).
Lemma W_effective_net m k1 k2 : W_effective m k1 k2 = net_weight m k1 k2.
Proof.
  unfold W_effective, net_weight, edge_weight. destruct (dm_mix m); [reflexivity|].
  destruct (dm_A m k1 k2); cbn; ring.
Qed.
Lemma hawkes_rate_W K B lam W1 W2 g F t k :
  (forall k1, (k1 < K)%nat -> W1 k1 k = W2 k1 k) ->
  hawkes_rate K B lam W1 g F t k = hawkes_rate K B lam W2 g F t k.
Proof.
  intros H. unfold hawkes_rate. f_equal. apply Rsum_ext; intros k1 Hk1.
  apply Rsum_ext; intros b Hb. now rewrite H.
Qed.
