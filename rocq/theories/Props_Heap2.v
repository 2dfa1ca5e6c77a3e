(** * Props_Heap2: values read through properties, and what set_parameters checks and installs (C29, C42, C49). *)
From Verif Require Import Prelude Arrays M_Heap Props_Network Props_Heap.
From Coq Require Import String.
Set Implicit Arguments.
Open Scope R_scope.
Open Scope string_scope.

(** The bias and W of a standard model are columns and sums of its weight table, row k holding the background of process k
    followed by the K*B weights into it. *)
Theorem C49_values : forall K B h m l d x,
  walk h (VRef m) [Fld "weights"] = Some (VRef l) -> h_at h l = Some (Arr d x) ->
  (exists b, std_read_bias K B h m = Ok (h, b) /\ forall k, b k = x (k * (1 + K * B))%nat) /\
  ((0 < K)%nat -> (0 < B)%nat -> exists h' W, std_read_W K B h m = Ok (h', W) /\
     forall k1 k2, W k1 k2 = Rsum B (fun b => x (k2 * (1 + K * B) + 1 + k1 * B + b)%nat)).
Proof.
  intros K B h m l d x Hw Hx. split.
  - unfold std_read_bias. rewrite Hw. eexists. split; [reflexivity|]. intros k. unfold v_get. cbn [weights_view v_loc v_off v_strides dot_idx].
    rewrite Hx. f_equal. lia.
  - intros HK HB. unfold std_read_W. rewrite Hw. cbv zeta.
    destruct (Nat.eqb_spec K 0); [lia|]. destruct (Nat.eqb_spec B 0); [lia|]. cbn [orb alloc].
    eexists _, _. split; [reflexivity|]. intros k1 k2. apply Rsum_ext; intros b Hb.
    change (split_last (slice_from1 (weights_view l K B)) K B) with (G_view l K B). rewrite (@G_get h l K B d x) by exact Hx.
    unfold w_pos. f_equal. lia.
Qed.
Print Assumptions C49_values.

(** P and V: a new K x K array whose entry for (i, j) is the table entry of the blocks of i and j; with self connections
    disallowed, P's diagonal is zero. *)
Theorem C29_values : forall C K f z h net lp lc dp dc p c,
  walk h (VRef net) [Fld f] = Some (VRef lp) -> walk h (VRef net) [Fld "c"] = Some (VRef lc) ->
  h_at h lp = Some (Arr dp p) -> h_at h lc = Some (Arr dc c) ->
  exists h' l M, read_block C K f z h net = Ok (h', l) /\ h_at h' l = Some (Arr [K; K] M) /\
    forall i j ci cj, (i < K)%nat -> (j < K)%nat -> c i = INR ci -> c j = INR cj ->
      M (i * K + j)%nat = if (z && Nat.eqb i j)%bool then 0 else p (ci * C + cj)%nat.
Proof.
  intros C K f z h net lp lc dp dc p c Hf Hc Hp Hcc. unfold read_block. rewrite Hf, Hc, Hp, Hcc. cbn [alloc].
  assert (Hl : forall k n, c k = INR n -> label_at c k = n).
  { intros k n E. unfold label_at. rewrite E. rewrite INR_IZR_INZ.
    assert (Ei : Int_part (IZR (Z.of_nat n)) = Z.of_nat n).
    { unfold Int_part. rewrite <- (@tech_up (IZR (Z.of_nat n)) (Z.of_nat n + 1)); [lia|rewrite plus_IZR; lra|rewrite plus_IZR; lra]. }
    rewrite Ei. apply Nat2Z.id. }
  assert (Hd : forall i j, (j < K)%nat -> ((i * K + j) / K = i /\ (i * K + j) mod K = j)%nat).
  { intros i j Hj. split.
    - rewrite Nat.div_add_l by lia. rewrite Nat.div_small by lia. lia.
    - rewrite Nat.add_comm, Nat.mod_add by lia. now apply Nat.mod_small. }
  destruct z.
  - eexists _, _, _. split; [reflexivity|]. split; [cbn; now rewrite Nat.eqb_refl|]. intros i j ci cj Hi Hj Ei Ej. cbn beta.
    destruct (Hd i j Hj) as [-> E2]. rewrite E2. cbn [andb]. destruct (Nat.eqb i j); [reflexivity|].
    unfold gather. destruct (Hd i j Hj) as [-> E3]. rewrite E3. now rewrite (Hl i ci), (Hl j cj).
  - eexists _, _, _. split; [reflexivity|]. split; [cbn; now rewrite Nat.eqb_refl|]. intros i j ci cj Hi Hj Ei Ej. cbn [andb].
    unfold gather. destruct (Hd i j Hj) as [-> E3]. rewrite E3. now rewrite (Hl i ci), (Hl j cj).
Qed.
Print Assumptions C29_values.
Theorem C29_er_values : forall K f z h net x,
  walk h (VRef net) [Fld f] = Some (VNum x) ->
  exists h' l M, read_er K f z h net = Ok (h', l) /\ h_at h' l = Some (Arr [K; K] M) /\
    forall i j, (i < K)%nat -> (j < K)%nat -> M (i * K + j)%nat = if (z && Nat.eqb i j)%bool then 0 else x.
Proof.
  intros K f z h net x Hf. unfold read_er. rewrite Hf. cbn [alloc].
  destruct z; (eexists _, _, _; split; [reflexivity|]; split; [cbn; now rewrite Nat.eqb_refl|]); intros i j Hi Hj; cbn [andb]; [|reflexivity].
  cbn beta. rewrite Nat.div_add_l by lia. rewrite Nat.div_small by lia. rewrite Nat.add_0_r, (Nat.add_comm (i * K)), Nat.mod_add by lia.
  now rewrite Nat.mod_small.
Qed.

(* ---------------- set_parameters ---------------- *)

(** What it checks, before it assigns anything: arrays of the right shapes, non-negative weights and rates, impulse rows
    summing to one within NumPy's tolerance 1e-8 + 1e-5.  The value of anything refused is an AssertionError. *)
Definition arr_at (h : heap) (v : val) (dims : list nat) (x : nat -> R) : Prop := exists l, v = VRef l /\ h_at h l = Some (Arr dims x).
Definition acceptable (K B : nat) (h : heap) (A W g lambda0 : val) : Prop :=
  (exists x, arr_at h A [K; K] x) /\
  (exists x, arr_at h W [K; K] x /\ forall i, (i < K * K)%nat -> 0 <= x i) /\
  (exists x, arr_at h g [K; K; B] x /\ forall i, (i < K * K)%nat -> Rabs (Rsum B (fun b => x (i * B + b)%nat) - 1) <= / 10 ^ 8 + / 10 ^ 5) /\
  (exists x, arr_at h lambda0 [K] x /\ forall k, (k < K)%nat -> 0 <= x k).

Lemma is_arr_iff h v dims ok : is_arr h v dims ok = true <-> exists x, arr_at h v dims x /\ ok x = true.
Proof.
  split.
  - destruct v as [|r|l]; cbn [is_arr]; try discriminate. destruct (h_at h l) as [[fs|d x|vs]|] eqn:E; try discriminate.
    destruct (list_eq_dec Nat.eq_dec d dims) as [->|]; [|discriminate]. intros H. exists x. split; [exists l; auto|exact H].
  - intros (x & (l & -> & E) & H). cbn [is_arr]. rewrite E. destruct (list_eq_dec Nat.eq_dec dims dims); [exact H|contradiction].
Qed.
Lemma amin_iff n x : amin_nonneg n x = true <-> forall i, (i < n)%nat -> 0 <= x i.
Proof. unfold amin_nonneg. rewrite forall_lt_true. split; intros H i Hi; [now apply Rleb_true, H|now apply Rleb_true, H]. Qed.
Lemma rows_iff K B x : rows_close1 K B x = true <->
  forall i, (i < K * K)%nat -> Rabs (Rsum B (fun b => x (i * B + b)%nat) - 1) <= / 10 ^ 8 + / 10 ^ 5.
Proof.
  unfold rows_close1. rewrite forall_lt_true. unfold close1. split; intros H i Hi; specialize (H i Hi).
  - apply Rleb_true in H. rewrite Rmult_1_r in H. exact H.
  - apply Rleb_true. rewrite Rmult_1_r. exact H.
Qed.
Lemma acceptable_iff K B h A W g lambda0 : acceptable K B h A W g lambda0 <->
  is_arr h A [K; K] (fun _ => true) = true /\ is_arr h W [K; K] (amin_nonneg (K * K)) = true /\
  is_arr h g [K; K; B] (rows_close1 K B) = true /\ is_arr h lambda0 [K] (amin_nonneg K) = true.
Proof.
  unfold acceptable. rewrite !is_arr_iff. split.
  - intros ((xa & Ha) & (xw & Hw & Hw2) & (xg & Hg & Hg2) & (xl & Hl & Hl2)). split; [eauto|]. split; [exists xw; split; [auto|now apply amin_iff]|].
    split; [exists xg; split; [auto|now apply rows_iff]|exists xl; split; [auto|now apply amin_iff]].
  - intros ((xa & Ha & _) & (xw & Hw & Hw2) & (xg & Hg & Hg2) & (xl & Hl & Hl2)). split; [eauto|]. split; [exists xw; split; [auto|now apply amin_iff]|].
    split; [exists xg; split; [auto|now apply rows_iff]|exists xl; split; [auto|now apply amin_iff]].
Qed.

(** The sub-objects of a model are distinct attribute records. *)
Record model_graph (h : heap) (m lw li lb ln : loc) : Prop := {
  mg_distinct : NoDup [m; lw; li; lb; ln];
  mg_w : walk h (VRef m) [Fld "weight_model"] = Some (VRef lw); mg_wr : exists fs, h_at h lw = Some (Rec fs);
  mg_i : walk h (VRef m) [Fld "impulse_model"] = Some (VRef li); mg_ir : exists fs, h_at h li = Some (Rec fs);
  mg_b : walk h (VRef m) [Fld "bias_model"] = Some (VRef lb); mg_br : exists fs, h_at h lb = Some (Rec fs);
  mg_n : walk h (VRef m) [Fld "network"] = Some (VRef ln); mg_nr : exists fs, h_at h ln = Some (Rec fs) }.

Lemma set_at_ok h m f0 l f v fs : walk h (VRef m) [Fld f0] = Some (VRef l) -> h_at h l = Some (Rec fs) ->
  set_at h m [Fld f0] f v = Ok (store h l (Rec (set_field fs f v))).
Proof. intros Hw Hl. unfold set_at. rewrite Hw. unfold set_attr. now rewrite Hl. Qed.

Lemma store_neq h l o x : x <> l -> h_at (store h l o) x = h_at h x.
Proof. intros H. cbn. now destruct (Nat.eqb_spec x l). Qed.
Lemma store_eq h l o : h_at (store h l o) l = Some o.
Proof. cbn. now rewrite Nat.eqb_refl. Qed.
Lemma walk1 h l f : walk h (VRef l) [Fld f] = match h_at h l with Some (Rec fs) => fs f | _ => None end.
Proof. cbn. destruct (h_at h l) as [[fs|d x|vs]|]; try reflexivity. now destruct (fs f). Qed.
Lemma walk2 h l f g : walk h (VRef l) [Fld f; Fld g] = match walk h (VRef l) [Fld f] with Some v => walk h v [Fld g] | None => None end.
Proof. cbn. destruct (h_at h l) as [[fs|d x|vs]|]; try reflexivity. destruct (fs f); reflexivity. Qed.

(** set_parameters either refuses (and the model is as it was), or installs the eight objects themselves - not copies: the
    model then shares every array with the caller - and changes nothing else. *)
Theorem C42_set_parameters : forall K B h m lw li lb ln A W g lambda0 c p v mm,
  model_graph h m lw li lb ln ->
  (~ acceptable K B h A W g lambda0 -> set_parameters K B h m [A; W; g; lambda0; c; p; v; mm] = Raise AssertionError) /\
  (acceptable K B h A W g lambda0 ->
   exists h', set_parameters K B h m [A; W; g; lambda0; c; p; v; mm] = Ok h' /\
     read_all h' m eight_paths = Ok [A; W; g; lambda0; c; p; v; mm] /\
     (forall x, ~ In x [lw; li; lb; ln] -> h_at h' x = h_at h x) /\
     (forall x f, In x [lw; li; lb; ln] -> ~ In f ["A"; "W"; "g"; "lambda0"; "c"; "p"; "v"; "m"] ->
        walk h' (VRef x) [Fld f] = walk h (VRef x) [Fld f])).
Proof.
  intros K B h m lw li lb ln A W g lambda0 c p v mm [Hnd Hw (fw & Ew) Hi (fi & Ei) Hb (fb & Eb) Hn (fn & En)].
  assert (D : m <> lw /\ m <> li /\ m <> lb /\ m <> ln /\ lw <> li /\ lw <> lb /\ lw <> ln /\ li <> lb /\ li <> ln /\ lb <> ln).
  { repeat rewrite NoDup_cons_iff in Hnd. cbn in Hnd. intuition congruence. }
  clear Hnd. destruct D as (D1 & D2 & D3 & D4 & D5 & D6 & D7 & D8 & D9 & D10).
  split.
  - intros Hna. rewrite acceptable_iff in Hna. unfold set_parameters.
    destruct (is_arr h A _ _) eqn:E1; [|reflexivity]. destruct (is_arr h W _ _) eqn:E2; [|reflexivity].
    destruct (is_arr h g _ _) eqn:E3; [|reflexivity]. destruct (is_arr h lambda0 _ _) eqn:E4; [|reflexivity].
    exfalso. apply Hna. repeat split; reflexivity.
  - intros Ha. apply acceptable_iff in Ha as (E1 & E2 & E3 & E4). unfold set_parameters. rewrite E1, E2, E3, E4. cbn [guard bindr].
    rewrite walk1 in Hw, Hi, Hb, Hn. destruct (h_at h m) as [[fm|?|?]|] eqn:Em; try discriminate.
    assert (W0 : forall h' f0 l, h_at h' m = Some (Rec fm) -> fm f0 = Some (VRef l) -> walk h' (VRef m) [Fld f0] = Some (VRef l))
      by (intros h' f0 l E Ef; rewrite walk1, E; exact Ef).
    erewrite (@set_at_ok h); [|eapply W0; [exact Em|exact Hw]|exact Ew]. cbn [bindr].
    erewrite set_at_ok; [|eapply W0; [rewrite store_neq by auto; exact Em|exact Hw]|apply store_eq]. cbn [bindr].
    erewrite set_at_ok; [|eapply W0; [rewrite !store_neq by auto; exact Em|exact Hi]|rewrite !store_neq by auto; exact Ei]. cbn [bindr].
    erewrite set_at_ok; [|eapply W0; [rewrite !store_neq by auto; exact Em|exact Hb]|rewrite !store_neq by auto; exact Eb]. cbn [bindr].
    erewrite set_at_ok; [|eapply W0; [rewrite !store_neq by auto; exact Em|exact Hn]|rewrite !store_neq by auto; exact En]. cbn [bindr].
    erewrite set_at_ok; [|eapply W0; [rewrite !store_neq by auto; exact Em|exact Hn]|apply store_eq]. cbn [bindr].
    erewrite set_at_ok; [|eapply W0; [rewrite !store_neq by auto; exact Em|exact Hn]|apply store_eq]. cbn [bindr].
    erewrite set_at_ok; [|eapply W0; [rewrite !store_neq by auto; exact Em|exact Hn]|apply store_eq].
    eexists. split; [reflexivity|]. set (h' := store _ ln _).
    assert (Em' : h_at h' m = Some (Rec fm)) by (unfold h'; rewrite !store_neq by auto; exact Em).
    assert (Ew' : h_at h' lw = Some (Rec (set_field (set_field fw "A" A) "W" W))).
    { unfold h'. do 6 (rewrite store_neq by auto). apply store_eq. }
    assert (Ei' : h_at h' li = Some (Rec (set_field fi "g" g))).
    { unfold h'. do 5 (rewrite store_neq by auto). apply store_eq. }
    assert (Eb' : h_at h' lb = Some (Rec (set_field fb "lambda0" lambda0))).
    { unfold h'. do 4 (rewrite store_neq by auto). apply store_eq. }
    assert (En' : h_at h' ln = Some (Rec (set_field (set_field (set_field (set_field fn "c" c) "p" p) "v" v) "m" mm))) by apply store_eq.
    assert (Hother : forall x, ~ In x [lw; li; lb; ln] -> h_at h' x = h_at h x).
    { intros x Hx. unfold h'. rewrite !store_neq; [reflexivity|..]; intros ->; apply Hx; cbn; auto. }
    clearbody h'.
    split.
    { unfold eight_paths. cbn [read_all].
      rewrite !walk2, !(W0 h' _ _ Em' Hw), !(W0 h' _ _ Em' Hi), !(W0 h' _ _ Em' Hb), !(W0 h' _ _ Em' Hn), !walk1, Ew', Ei', Eb', En'. reflexivity. }
    split; [exact Hother|].
    intros x f Hx Hf. rewrite !walk1.
    assert (Hne : forall a, In a ["A"; "W"; "g"; "lambda0"; "c"; "p"; "v"; "m"] -> String.eqb f a = false).
    { intros a Ha. apply String.eqb_neq. intros ->. contradiction. }
    cbn [In] in Hx. destruct Hx as [<-|[<-|[<-|[<-|[]]]]].
    + rewrite Ew', Ew. unfold set_field. rewrite !Hne by (cbn; tauto). reflexivity.
    + rewrite Ei', Ei. unfold set_field. rewrite !Hne by (cbn; tauto). reflexivity.
    + rewrite Eb', Eb. unfold set_field. rewrite !Hne by (cbn; tauto). reflexivity.
    + rewrite En', En. unfold set_field. rewrite !Hne by (cbn; tauto). reflexivity.
Qed.
Print Assumptions C42_set_parameters.

(** In particular the caller's array is not copied: writing to it afterwards changes the model. *)
Theorem C42_shares_callers_arrays_refuted : forall K B h m lw li lb ln A W g lambda0 c p v mm h' l d x y,
  model_graph h m lw li lb ln -> acceptable K B h A W g lambda0 ->
  set_parameters K B h m [A; W; g; lambda0; c; p; v; mm] = Ok h' ->
  W = VRef l -> ~ In l [m; lw; li; lb; ln] -> h_at h l = Some (Arr d x) ->
  observe h' m [Fld "weight_model"; Fld "W"] = Some (SArr d x) /\
  observe (store h' l (Arr d y)) m [Fld "weight_model"; Fld "W"] = Some (SArr d y).
Proof.
  intros K B h m lw li lb ln A W g lambda0 c p v mm h' l d x y Hg Ha Hs -> Hl Hx.
  destruct (@C42_set_parameters K B h m lw li lb ln A (VRef l) g lambda0 c p v mm Hg) as [_ H].
  destruct (H Ha) as (h2 & Hs2 & Hr & Ho & _). rewrite Hs in Hs2. injection Hs2 as <-.
  assert (Hw := @read_all_nth h' m eight_paths _ Hr 1%nat _ eq_refl). destruct Hw as (u & Eu & Hw). injection Eu as <-.
  assert (Hx' : h_at h' l = Some (Arr d x)). { rewrite Ho; [exact Hx|]. intros Hin. apply Hl. now right. }
  assert (Hm' : h_at h' m = h_at h m). { apply Ho. destruct Hg as [Hnd _ _ _ _ _ _ _ _]. apply NoDup_cons_iff in Hnd. tauto. }
  split.
  - unfold observe. rewrite Hw. cbn [look]. now rewrite Hx'.
  - unfold observe. rewrite walk2, walk1 in *. 
    rewrite store_neq by (intros ->; apply Hl; cbn; auto).
    pose proof (mg_w Hg) as Hwm. rewrite walk1 in Hwm. rewrite Hm' in *.
    destruct (h_at h m) as [[fm|?|?]|]; try discriminate. rewrite Hwm in *.
    rewrite walk1 in Hw |- *. rewrite store_neq by (intros ->; apply Hl; cbn; auto).
    destruct (h_at h' lw) as [[fw|?|?]|]; try discriminate. rewrite Hw. cbn [look]. now rewrite store_eq.
Qed.
Print Assumptions C42_shares_callers_arrays_refuted.

(** The one-node object graph of Props_Heap meets the hypotheses. *)
Local Arguments VRef l%nat_scope.
Example C42_graph_nonvacuous :
  model_graph ex_heap 0%nat 3%nat 4%nat 2%nat 5%nat /\ acceptable 1 1 ex_heap (VRef 7) (VRef 8) (VRef 9) (VRef 6) /\
  ~ acceptable 1 1 ex_heap (VRef 7) (VRef 8) (VRef 6) (VRef 6).
Proof.
  split.
  { constructor; try reflexivity; try (eexists; reflexivity). repeat (constructor; [cbn; lia|]). constructor. }
  split.
  { split; [exists (fun _ => 1), 7%nat; split; reflexivity|]. split; [exists (fun _ => 3); split; [exists 8%nat; split; reflexivity|intros; lra]|].
    split; [exists (fun _ => 1); split; [exists 9%nat; split; reflexivity|]|exists (fun _ => 2); split; [exists 6%nat; split; reflexivity|intros; lra]].
    intros i _. cbn [Rsum]. replace (0 + 1 - 1) with 0 by ring. rewrite Rabs_R0.
    assert (0 < / 10 ^ 8) by (apply Rinv_0_lt_compat, pow_lt; lra). assert (0 < / 10 ^ 5) by (apply Rinv_0_lt_compat, pow_lt; lra). lra. }
  intros (_ & _ & (x & (l & E & Hl) & _) & _). injection E as <-. cbn in Hl. discriminate.
Qed.
