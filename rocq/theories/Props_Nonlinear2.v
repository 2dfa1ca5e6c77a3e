(** * Props_Nonlinear2: nonlinear Hawkes processes - data handling (C43, C74), rates (C57), initialisation (C53), convexity (C75). *)
From Coq Require Import FunctionalExtensionality.
From Verif Require Import Prelude ExtReal Arrays Spec_Basis Spec_Discrete M_Basis L_Basis M_Parents M_Discrete L_Discrete
  Props_Discrete M_MeanField M_Standard Props_Network L_Standard Props_Standard Props_Standard2 M_Nonlinear Props_Nonlinear.
Set Implicit Arguments.
Open Scope R_scope.
Local Arguments eadd : simpl never.
Local Arguments emul : simpl never.

(* ------------------------------------------------------------------ *)
(** ** Adding, removing and held-out data: C43, C74 *)

(** What a constructor builds: K nodes with the process' K and B (preserved by every method). *)
Definition p_shape (p : nproc) : Prop := length (p_nodes p) = p_K p /\ Forall (fun n => n_K n = p_K p /\ n_B n = p_B p) (p_nodes p).

(** A data set as the user sees it. *)
Record pdata := { pd_T : nat; pd_F : mat; pd_S : imat }.
Definition pd_col (k : nat) (d : pdata) : ndata := {| nd_T := pd_T d; nd_F := pd_F d; nd_S := fun t => pd_S d t k |}.

Fixpoint nodes_app (d : pdata) (ns : list nnode) (k : nat) : list nnode :=
  match ns with [] => [] | n :: ns' => n_with_data n (n_data n ++ [pd_col k d]) :: nodes_app d ns' (S k) end.

(** The data set the arguments denote: counts must be a valid TxK matrix; filtered data, if given, must have T rows and
    the bias column; otherwise it is the bias column and the flattened causal convolution. *)
Definition p_request (K B L : nat) (bas : mat) (s : sval) (f : option fmat) : result pdata :=
  do T <- check_S K s ;;
  match f with
  | Some F => if negb (Nat.eqb T (fm_rows F)) then Raise AssertionError
              else if Nat.eqb (fm_cols F) (1 + K * B) then Ok {| pd_T := T; pd_F := fm_at F; pd_S := sv_at s |}
              else Raise (if Nat.eqb (fm_cols F) (K * B) then ValueError else AssertionError)
  | None => do F <- convolve_with_basis T K (sv_at s) L B bas ;;
            if Nat.eqb B 0 then Raise IndexError else Ok {| pd_T := T; pd_F := flatten_F B F; pd_S := sv_at s |}
  end.

Lemma p_add_nodes_eq K B F T S_ ns k : ns <> [] -> Forall (fun n => n_K n = K /\ n_B n = B) ns ->
  p_add_nodes F T S_ ns k =
    (if negb (Nat.eqb T (fm_rows F)) then (ns, Raise AssertionError)
     else if Nat.eqb (fm_cols F) (1 + K * B) then (nodes_app {| pd_T := T; pd_F := fm_at F; pd_S := S_ |} ns k, Ok tt)
     else (ns, Raise (if Nat.eqb (fm_cols F) (K * B) then ValueError else AssertionError))).
Proof.
  intros Hne HF. destruct (Nat.eqb_spec T (fm_rows F)) as [E1|E1]; cbn [negb].
  - destruct (Nat.eqb_spec (fm_cols F) (1 + K * B)) as [E2|E2].
    + clear Hne. revert k. induction ns as [|n ns IH]; intros k; [reflexivity|].
      inversion HF as [|n' ns' (HK & HB) HF' Eq]; subst. cbn [p_add_nodes nodes_app].
      rewrite (proj1 (@C56_add_data_partial n F (fm_rows F) true (fun t => S_ t k))) by auto.
      rewrite IH by auto. reflexivity.
    + destruct ns as [|m ns]; [congruence|]. inversion HF as [|n' ns' (HK & HB) HF' Eq]; subst. cbn [p_add_nodes]. unfold n_add_data.
      rewrite Nat.eqb_refl. cbn [andb guard bindr].
      destruct (Nat.eqb_spec (fm_cols F) (n_K m * n_B m)); [reflexivity|].
      destruct (Nat.eqb_spec (fm_cols F) (1 + n_K m * n_B m)); [congruence|]. reflexivity.
  - destruct ns as [|m ns]; [congruence|]. cbn [p_add_nodes]. unfold n_add_data.
    destruct (Nat.eqb_spec T (fm_rows F)); [congruence|]. reflexivity.
Qed.
Lemma p_with_nodes_same p : p_with_nodes p (p_nodes p) = p.
Proof. now destruct p. Qed.

Lemma p_add_data_eq p s f : p_shape p ->
  p_add_data p s f = match p_request (p_K p) (p_B p) (p_L p) (p_bas p) s f with
                     | Ok d => (p_with_nodes p (nodes_app d (p_nodes p) 0), Ok tt)
                     | Raise e => (p, Raise e) end.
Proof.
  intros (HL & HF). unfold p_request, p_add_data.
  destruct (check_S (p_K p) s) as [T|e] eqn:EC; cbn [bindr]; [|reflexivity].
  assert (Hne : p_nodes p <> []).
  { intros E. rewrite E in HL. cbn in HL. apply check_S_ok in EC. lia. }
  destruct f as [F|].
  - rewrite (@p_add_nodes_eq (p_K p) (p_B p)) by auto.
    destruct (Nat.eqb T (fm_rows F)); cbn [negb]; [|now rewrite p_with_nodes_same].
    destruct (Nat.eqb (fm_cols F) (1 + p_K p * p_B p)); [reflexivity|now rewrite p_with_nodes_same].
  - destruct (convolve_with_basis T (p_K p) (sv_at s) (p_L p) (p_B p) (p_bas p)) as [F|e] eqn:ECv; cbn [bindr]; [|reflexivity].
    destruct (Nat.eqb (p_B p) 0) eqn:EB; [reflexivity|].
    cbn [np_hstack_shape]. rewrite Nat.eqb_refl. cbn [bindr].
    rewrite (@p_add_nodes_eq (p_K p) (p_B p)) by auto. cbn [fm_rows fm_cols fm_at].
    rewrite Nat.eqb_refl. cbn [negb]. rewrite Nat.eqb_refl. reflexivity.
Qed.

Lemma nodes_app_length d ns : forall k, length (nodes_app d ns k) = length ns.
Proof. induction ns; intros; cbn; auto. Qed.
Lemma py_index_last n : py_index (n + 1) (-1) = Some n.
Proof.
  unfold py_index. destruct (Z.leb_spec 0 (-1)); [lia|]. cbn [andb].
  destruct (Z.leb_spec 0 (Z.of_nat (n + 1) + -1)); [|lia].
  destruct (Z.ltb_spec (-1) 0); [|lia]. cbn [andb]. f_equal. lia.
Qed.
Lemma p_remove_app d ns : forall k, p_remove_nodes (nodes_app d ns k) (-1) = (ns, Ok tt).
Proof.
  induction ns as [|n ns IH]; intros k; [reflexivity|]. cbn [nodes_app p_remove_nodes n_data n_with_data].
  unfold del_nth. rewrite app_length. cbn [length]. rewrite py_index_last.
  rewrite firstn_app, firstn_all, Nat.sub_diag. cbn [firstn]. rewrite app_nil_r.
  rewrite skipn_all2 by (rewrite app_length; cbn; lia). rewrite app_nil_r, IH. f_equal. f_equal. destruct n; reflexivity.
Qed.
Definition cleared (n : nnode) : nnode := n_with_data n [].
Lemma p_ll_last d ns : forall k, p_ll_nodes (nodes_app d ns k) (Some (-1)%Z) = p_ll_nodes (nodes_app d (map cleared ns) k) None.
Proof.
  induction ns as [|n ns IH]; intros k; [reflexivity|]. cbn [nodes_app p_ll_nodes map]. rewrite IH.
  f_equal. unfold n_log_likelihood, n_at. cbn [n_data n_with_data n_w cleared app map elsum].
  rewrite app_length. cbn [length]. rewrite py_index_last, nth_error_app2, Nat.sub_diag by lia. cbn [nth_error bindr].
  f_equal. rewrite eadd_0_r. reflexivity.
Qed.
Lemma p_ll_none_ok ns : exists v, p_ll_nodes ns None = Ok v.
Proof. induction ns as [|n ns (v & Ev)]; [eexists; reflexivity|]. cbn [p_ll_nodes]. rewrite Ev. cbn. eexists; reflexivity. Qed.

(** The process without its data (what copy_sample returns). *)
Lemma p_copy_shape p : p_shape p -> p_shape (snd (p_copy_sample p)).
Proof.
  intros (H1 & H2). split; cbn [snd p_copy_sample p_nodes p_with_nodes p_K p_B]; [now rewrite map_length|].
  apply Forall_forall. intros n Hn. apply in_map_iff in Hn as (m & <- & Hm). rewrite Forall_forall in H2. apply (H2 m Hm).
Qed.

(** heldout_log_likelihood leaves the process exactly as it was - also when the held-out data is rejected - and its
    value is that of a data-less copy of the process given only the held-out data. *)
Theorem C43_nonlinear_heldout :
  forall p s f, p_shape p ->
  fst (p_heldout p s f) = p /\
  snd (p_heldout p s f) =
    (let (c, r) := p_add_data (snd (p_copy_sample p)) s f in do _ <- r ;; p_log_likelihood c None).
Proof.
  intros p s f Hp. unfold p_heldout. rewrite (@p_add_data_eq p s f Hp), (@p_add_data_eq _ s f (p_copy_shape Hp)).
  cbn [snd p_copy_sample p_K p_B p_L p_bas p_with_nodes p_nodes]. fold (p_copy_sample p).
  destruct (p_request (p_K p) (p_B p) (p_L p) (p_bas p) s f) as [d|e]; cbn [fst snd bindr]; [|auto].
  unfold p_log_likelihood. cbn [p_nodes p_with_nodes]. rewrite (p_ll_last d (p_nodes p) 0).
  change (map (fun n => n_with_data n []) (p_nodes p)) with (map cleared (p_nodes p)).
  destruct (p_ll_none_ok (nodes_app d (map cleared (p_nodes p)) 0)) as (v & Ev). rewrite Ev.
  unfold p_remove_data. cbn [p_nodes p_with_nodes]. rewrite p_remove_app. cbn [fst snd].
  split; [exact (p_with_nodes_same p)|reflexivity].
Qed.
Print Assumptions C43_nonlinear_heldout.

(** *** C74: the nodes stay in lockstep *)
(** Every node k stores column k of one and the same list of data sets. *)
Definition p_stores (p : nproc) (ds : list pdata) : Prop :=
  forall k n, nth_error (p_nodes p) k = Some n -> n_data n = map (pd_col k) ds.
(** The list without its i-th entry. *)
Fixpoint drop_at (A : Type) (i : nat) (l : list A) : list A :=
  match l, i with [], _ => [] | _ :: l', O => l' | x :: l', S i' => x :: drop_at i' l' end.
(** del l[i] in Python: entry i counted from the front, or from the back when i is negative; nothing when out of range. *)
Definition without (A : Type) (l : list A) (i : Z) : list A :=
  let n := Z.of_nat (length l) in
  if ((0 <=? i) && (i <? n))%Z%bool then drop_at (Z.to_nat i) l
  else if ((- n <=? i) && (i <? 0))%Z%bool then drop_at (Z.to_nat (n + i)) l else l.
Lemma drop_at_spec A (l : list A) : forall i, drop_at i l = firstn i l ++ skipn (S i) l.
Proof. induction l as [|x l IH]; intros [|i]; try reflexivity. cbn [drop_at firstn app]. rewrite IH. reflexivity. Qed.
Lemma without_del A (l : list A) i : without l i = match del_nth l i with Ok l' => l' | Raise _ => l end.
Proof.
  unfold without, del_nth, py_index. cbv zeta. destruct (Z.leb_spec 0 i) as [H|H]; cbn [andb].
  - destruct (Z.ltb_spec i (Z.of_nat (length l))) as [G|G]; cbn [andb]; [apply drop_at_spec|].
    destruct (Z.ltb_spec i 0); [lia|]. cbn [andb]. now rewrite Bool.andb_false_r.
  - destruct (Z.ltb_spec i 0); [|lia]. rewrite Bool.andb_true_r. cbn [andb].
    destruct (Z.leb_spec (- Z.of_nat (length l)) i), (Z.leb_spec 0 (Z.of_nat (length l) + i)); try lia; [apply drop_at_spec|reflexivity].
Qed.
(** What each call should do to that list. *)
Definition ds_op (K B L : nat) (bas : mat) (ds : list pdata) (o : nop) : list pdata :=
  match o with
  | NAdd s f => match p_request K B L bas s f with Ok d => ds ++ [d] | Raise _ => ds end
  | NRemove i => without ds i
  | NHeldout _ _ | NInit | NFit _ => ds
  end.
Lemma nodes_app_nth d ns : forall k i n, nth_error (nodes_app d ns k) i = Some n ->
  exists n0, nth_error ns i = Some n0 /\ n = n_with_data n0 (n_data n0 ++ [pd_col (k + i) d]).
Proof.
  induction ns as [|m ns IH]; intros k i n; [destruct i; discriminate|]. destruct i as [|i]; cbn [nodes_app nth_error].
  - injection 1 as <-. exists m. now rewrite Nat.add_0_r.
  - intros H. apply IH in H as (n0 & E & ->). exists n0. split; [auto|]. now rewrite Nat.add_succ_r.
Qed.
Lemma del_nth_map A B (g : A -> B) l i : del_nth (map g l) i = match del_nth l i with Ok l' => Ok (map g l') | Raise e => Raise e end.
Proof.
  unfold del_nth. rewrite map_length. destruct (py_index (length l) i) as [j|]; [|reflexivity].
  now rewrite map_app, firstn_map, skipn_map.
Qed.
Lemma p_remove_nodes_cases ds i ns : forall k, (forall j n, nth_error ns j = Some n -> n_data n = map (pd_col (k + j)) ds) ->
  match del_nth ds i with
  | Ok ds' => snd (p_remove_nodes ns i) = Ok tt /\ length (fst (p_remove_nodes ns i)) = length ns /\
      forall j n', nth_error (fst (p_remove_nodes ns i)) j = Some n' -> exists n, nth_error ns j = Some n /\ n' = n_with_data n (map (pd_col (k + j)) ds')
  | Raise e => ns = [] \/ p_remove_nodes ns i = (ns, Raise e)
  end.
Proof.
  induction ns as [|n ns IH]; intros k H.
  - destruct (del_nth ds i); [|auto]. split; [reflexivity|]. split; [reflexivity|]. intros [|j] n'; discriminate.
  - cbn [p_remove_nodes]. pose proof (H 0%nat n eq_refl) as H0. rewrite Nat.add_0_r in H0.
    specialize (IH (S k) ltac:(intros j m Hm; rewrite Nat.add_succ_comm; exact (H (S j) m Hm))).
    rewrite H0, del_nth_map. destruct (del_nth ds i) as [ds'|e]; [|auto].
    destruct IH as (I1 & I2 & I3). destruct (p_remove_nodes ns i) as [r e]. cbn [fst snd] in *. subst e.
    split; [reflexivity|]. split; [cbn; congruence|]. intros [|j] n'; cbn [nth_error].
    + injection 1 as <-. exists n. now rewrite Nat.add_0_r.
    + intros Hj. apply I3 in Hj as (n0 & E & ->). exists n0. split; [auto|]. now rewrite Nat.add_succ_comm.
Qed.
Lemma nth_error_combine_seq A (l : list A) : forall s i x, nth_error (combine (seq s (length l)) l) i = Some x ->
  nth_error l i = Some (snd x) /\ fst x = (s + i)%nat.
Proof.
  induction l as [|a l IH]; intros s [|i] x; cbn [length seq combine nth_error]; try discriminate.
  - injection 1 as <-. cbn. split; auto.
  - intros H. apply IH in H as (H1 & H2). split; [auto|lia].
Qed.
Lemma n_op_fields p o : p_shape p -> p_K (n_op p o) = p_K p /\ p_B (n_op p o) = p_B p /\ p_L (n_op p o) = p_L p /\ p_bas (n_op p o) = p_bas p.
Proof.
  intros Hp. destruct o as [s f|i|s f| |x]; cbn [n_op]; auto.
  - rewrite (@p_add_data_eq p s f Hp). destruct (p_request _ _ _ _ s f); auto.
  - unfold p_remove_data. destruct (p_remove_nodes (p_nodes p) i); auto.
  - rewrite (proj1 (C43_nonlinear_heldout s f Hp)). auto.
Qed.
Lemma n_op_shape p o : p_shape p -> p_shape (n_op p o).
Proof.
  intros Hp. destruct o as [s f|i|s f| |x]; cbn [n_op].
  - rewrite (@p_add_data_eq p s f Hp). destruct (p_request _ _ _ _ s f) as [d|e]; [|exact Hp]. cbn [fst].
    destruct Hp as (H1 & H2). split; cbn [p_nodes p_with_nodes p_K p_B]; [now rewrite nodes_app_length|].
    apply Forall_forall. intros n Hn. apply In_nth_error in Hn as (i & Hi). apply nodes_app_nth in Hi as (n0 & E & ->).
    rewrite Forall_forall in H2. apply (H2 n0). eapply nth_error_In; eauto.
  - unfold p_remove_data. destruct Hp as (H1 & H2).
    assert (G : forall ns, Forall (fun n => n_K n = p_K p /\ n_B n = p_B p) ns ->
       length (fst (p_remove_nodes ns i)) = length ns /\ Forall (fun n => n_K n = p_K p /\ n_B n = p_B p) (fst (p_remove_nodes ns i))).
    { induction ns as [|n ns IH]; intros HF; cbn [p_remove_nodes]; [auto|]. inversion HF as [|? ? Ha Hb]; subst.
      destruct (del_nth (n_data n) i) as [dd|e]; [|auto]. destruct (IH Hb) as (I1 & I2). destruct (p_remove_nodes ns i) as [r e].
      cbn [fst] in *. split; [cbn; congruence|]. constructor; auto. }
    destruct (G _ H2) as (G1 & G2). destruct (p_remove_nodes (p_nodes p) i) as [r e]. cbn [fst] in *.
    split; cbn [p_nodes p_with_nodes p_K p_B]; [congruence|auto].
  - rewrite (proj1 (C43_nonlinear_heldout s f Hp)). exact Hp.
  - destruct Hp as (H1 & H2). split; cbn [p_nodes p_init_background p_with_nodes p_K p_B]; [now rewrite map_length|].
    apply Forall_forall. intros n Hn. apply in_map_iff in Hn as (m & <- & Hm). rewrite Forall_forall in H2. apply (H2 m Hm).
  - destruct Hp as (H1 & H2). split; cbn [p_nodes p_with_nodes p_K p_B]; [now rewrite map_length, combine_length, seq_length, Nat.min_id|].
    apply Forall_forall. intros n Hn. apply in_map_iff in Hn as ((k & m) & <- & Hm). apply in_combine_r in Hm.
    rewrite Forall_forall in H2. cbn [fst snd]. destruct (H2 m Hm) as (E1 & E2). unfold n_fit. destruct (n_kind m); auto.
Qed.
Lemma n_op_stores p ds o : p_shape p -> p_stores p ds -> p_stores (n_op p o) (ds_op (p_K p) (p_B p) (p_L p) (p_bas p) ds o).
Proof.
  intros Hp Hs. destruct o as [s f|i|s f| |x]; cbn [n_op ds_op].
  - rewrite (@p_add_data_eq p s f Hp). destruct (p_request _ _ _ _ s f) as [d|e]; [|exact Hs]. cbn [fst].
    intros k n Hn. cbn [p_nodes p_with_nodes] in Hn. apply nodes_app_nth in Hn as (n0 & E & ->). cbn [n_data n_with_data].
    rewrite (Hs _ _ E), map_app. reflexivity.
  - unfold p_remove_data. pose proof (@p_remove_nodes_cases ds i (p_nodes p) 0 Hs) as H.
    rewrite without_del. destruct (del_nth ds i) as [ds'|e].
    + destruct H as (I1 & I2 & I3). destruct (p_remove_nodes (p_nodes p) i) as [r e]. cbn [fst] in *.
      intros k n Hn. cbn [p_nodes p_with_nodes] in Hn. apply I3 in Hn as (n0 & E & ->). reflexivity.
    + destruct H as [H|H].
      * rewrite H. cbn. intros k n Hn. destruct k; discriminate.
      * rewrite H. cbn [fst]. rewrite p_with_nodes_same. exact Hs.
  - rewrite (proj1 (C43_nonlinear_heldout s f Hp)). exact Hs.
  - intros k n Hn. cbn [p_nodes p_init_background p_with_nodes] in Hn. rewrite nth_error_map in Hn.
    destruct (nth_error (p_nodes p) k) as [m|] eqn:E; [|discriminate]. injection Hn as <-. exact (Hs _ _ E).
  - intros k n Hn. cbn [p_nodes p_with_nodes] in Hn. rewrite nth_error_map in Hn.
    destruct (nth_error (combine (seq 0 (length (p_nodes p))) (p_nodes p)) k) as [x0|] eqn:E; [|discriminate]. injection Hn as <-.
    apply nth_error_combine_seq in E as (E & _). rewrite <- (Hs _ _ E). unfold n_fit. destruct (n_kind (snd x0)); reflexivity.
Qed.

(** Over any history of calls, including ones that raise, every node k keeps column k of one common list of data
    sets, and that list evolves as the calls say: accepted data is appended, remove_data(i) deletes entry i (Python
    index) or, when it raises, nothing; evaluation, initialisation and fitting do not touch it. *)
Theorem C74_nodes_in_lockstep :
  forall ops p ds, p_shape p -> p_stores p ds ->
  p_shape (fold_left n_op ops p) /\
  p_stores (fold_left n_op ops p) (fold_left (ds_op (p_K p) (p_B p) (p_L p) (p_bas p)) ops ds).
Proof.
  induction ops as [|o ops IH]; intros p ds Hp Hs; [cbn; auto|]. cbn [fold_left].
  destruct (n_op_fields o Hp) as (E1 & E2 & E3 & E4). rewrite <- E1, <- E2, <- E3, <- E4.
  apply IH; [now apply n_op_shape|rewrite E1, E2, E3, E4; now apply n_op_stores].
Qed.
Print Assumptions C74_nodes_in_lockstep.
(** A freshly constructed process meets the hypotheses, with no data. *)
Theorem C74_fresh : forall k K B dt sigma lmbda L bas,
  p_shape (p_init k K B dt sigma lmbda L bas) /\ p_stores (p_init k K B dt sigma lmbda L bas) [].
Proof.
  intros. split; [split|].
  - cbn. now rewrite map_length, seq_length.
  - apply Forall_forall. intros n Hn. apply in_map_iff in Hn as (m & <- & Hm). auto.
  - intros i n Hn. cbn [p_init p_nodes] in Hn. rewrite nth_error_map in Hn. destruct (nth_error (seq 0 K) i); [|discriminate].
    now injection Hn as <-.
Qed.
Print Assumptions C74_fresh.

(* ------------------------------------------------------------------ *)
(** ** C57: the rate is the one W, G and bias describe *)

Lemma psi_split K B w d t : (0 < B)%nat ->
  psi_fin (1 + K * B) w d t = nd_F d t 0%nat * w 0%nat + Rsum K (fun k1 => Rsum B (fun b => nd_F d t (1 + (k1 * B + b))%nat * w (1 + (k1 * B + b))%nat)).
Proof.
  intros HB. unfold psi_fin. cbn [Nat.add]. rewrite Rsum_S_l. f_equal. now rewrite Rsum_mul.
Qed.
(** Whatever finite bias, W and G the process reports, adding a data set without filtered input stores for every node k
    data on which its rate is the link of bias[k] + sum_{k1,b} W[k1,k] G[k1,k,b] (basis b * events of k1). *)
Theorem C57_rate_is_consistent :
  forall p T S_ w bias W G, p_shape p -> fin_weights p w -> (0 < p_K p)%nat -> (0 < p_B p)%nat -> (0 < p_L p)%nat -> (0 < T)%nat -> counts T (p_K p) S_ ->
  (forall k, (k < p_K p)%nat -> p_bias p k = Fin (bias k)) ->
  (forall k1 k2, (k1 < p_K p)%nat -> (k2 < p_K p)%nat -> p_W p k1 k2 = Fin (W k1 k2)) ->
  (forall k1 k2 b, (k1 < p_K p)%nat -> (k2 < p_K p)%nat -> (b < p_B p)%nat -> p_G p k1 k2 b = Fin (G k1 k2 b)) ->
  let p' := fst (p_add_data p (sval_of T (p_K p) S_) None) in
  snd (p_add_data p (sval_of T (p_K p) S_) None) = Ok tt /\
  forall k, (k < p_K p)%nat -> exists n n' d, nth_error (p_nodes p) k = Some n /\ nth_error (p_nodes p') k = Some n' /\
    n_data n' = n_data n ++ [d] /\ nd_T d = T /\ (forall t, nd_S d t = S_ t k) /\
    forall t, (t < T)%nat -> n_link (n_kind n') (n_psi (n_P n') (n_w n') d t)
      = n_link (n_kind n) (Fin (hawkes_rate (p_K p) (p_B p) bias W G (causal_conv (p_L p) (p_bas p) S_) t k)).
Proof.
  intros p T S_ w bias W G Hp Hf HK HB HL HT Hc Hbias HW HG.
  destruct (@convolve_ok T (p_K p) S_ (p_L p) (p_B p) (p_bas p)) as (F & EF); auto.
  assert (Er : p_request (p_K p) (p_B p) (p_L p) (p_bas p) (sval_of T (p_K p) S_) None
    = Ok {| pd_T := T; pd_F := flatten_F (p_B p) F; pd_S := S_ |}).
  { unfold p_request. rewrite (proj2 (check_S_ok (p_K p) (sval_of T (p_K p) S_) T)) by (repeat split; auto).
    cbn [bindr]. change (sv_at (sval_of T (p_K p) S_)) with S_. rewrite EF. cbn [bindr].
    destruct (Nat.eqb_spec (p_B p) 0); [lia|reflexivity]. }
  cbv zeta. rewrite (@p_add_data_eq p _ None Hp), Er. cbn [fst snd p_nodes p_with_nodes]. split; [reflexivity|].
  intros k Hk. destruct (proj2 Hf k Hk) as (n & En & Hw). exists n.
  assert (Hnth : forall ns j i m, nth_error ns i = Some m ->
    nth_error (nodes_app {| pd_T := T; pd_F := flatten_F (p_B p) F; pd_S := S_ |} ns j) i
    = Some (n_with_data m (n_data m ++ [pd_col (j + i) {| pd_T := T; pd_F := flatten_F (p_B p) F; pd_S := S_ |}]))).
  { induction ns as [|a ns IH]; intros j i m; [destruct i; discriminate|]. destruct i as [|i]; cbn [nth_error nodes_app].
    - injection 1 as ->. now rewrite Nat.add_0_r.
    - intros H. rewrite (IH (S j) i m H). now rewrite Nat.add_succ_r. }
  eexists. eexists. split; [exact En|]. split; [apply Hnth; exact En|].
  cbn [n_data n_with_data]. split; [reflexivity|]. split; [reflexivity|]. split; [reflexivity|].
  intros t Ht. cbn [n_kind n_w n_with_data]. f_equal.
  assert (HP : n_P (n_with_data n (n_data n ++ [pd_col (0 + k) {| pd_T := T; pd_F := flatten_F (p_B p) F; pd_S := S_ |}])) = (1 + p_K p * p_B p)%nat).
  { unfold n_P. cbn [n_K n_B n_with_data]. destruct Hp as (_ & HF). rewrite Forall_forall in HF.
    destruct (HF n (nth_error_In _ _ En)) as (-> & ->). reflexivity. }
  rewrite HP. unfold n_psi. rewrite (@esum_ext _ _ (fun j => emul (Fin (nd_F (pd_col (0 + k) {| pd_T := T; pd_F := flatten_F (p_B p) F; pd_S := S_ |}) t j)) (finw (w k) j))).
  2:{ intros j _. now rewrite Hw. }
  change (n_psi (1 + p_K p * p_B p) (finw (w k)) (pd_col (0 + k) {| pd_T := T; pd_F := flatten_F (p_B p) F; pd_S := S_ |}) t = Fin (hawkes_rate (p_K p) (p_B p) bias W G (causal_conv (p_L p) (p_bas p) S_) t k)).
  rewrite n_psi_fin, psi_split by auto. f_equal. unfold hawkes_rate. f_equal.
  - pose proof (Hbias k Hk) as Hb. unfold p_bias in Hb. rewrite (@n_w_at_fin p w) in Hb by auto. injection Hb as <-. cbn [pd_col nd_F flatten_F pd_F]. ring.
  - apply Rsum_ext. intros k1 Hk1. apply Rsum_ext. intros b Hb.
    pose proof (HW k1 k Hk1 Hk) as E1. rewrite (@p_W_fin p w) in E1 by auto. injection E1 as E1.
    assert (Hnz : block_sum p w k1 k <> 0).
    { intros Hz. destruct (@C57_zero_rows_not_uniform_refuted p w k1 k Hf HB Hk Hz) as (_ & Hn).
      specialize (Hn b Hb). rewrite (HG k1 k b) in Hn by auto. discriminate. }
    destruct (@C57_G_rows_sum_to_one_partial p w k1 k Hf Hk Hnz) as (EG & _).
    pose proof (HG k1 k b Hk1 Hk Hb) as E2. rewrite EG in E2. injection E2 as E2. rewrite <- E1, <- E2.
    cbn [pd_col nd_F pd_F Nat.add flatten_F]. rewrite div_idx, mod_idx by auto.
    rewrite (@convolve_causal _ _ _ _ _ _ _ EF) by auto. field. auto.
Qed.
Print Assumptions C57_rate_is_consistent.

(** Fitting a linear node keeps its rates positive (at least 1e-16 wherever the filtered inputs are nonnegative). *)
Theorem C57_linear_fit_positive :
  forall n x d t, n_kind n = Linear -> n_in_bounds n x -> nd_F d t 0%nat = 1 -> (forall j, (j < n_P n)%nat -> 0 <= nd_F d t j) ->
  exists r, n_link (n_kind (n_fit n x)) (n_psi (n_P n) (n_w (n_fit n x)) d t) = Fin r /\ / 10 ^ 16 <= r.
Proof.
  intros n x d t Hk Hb H0 HF. unfold n_fit. rewrite Hk. cbn [n_kind n_w n_with_w]. rewrite Hk.
  change (fun j => Fin (x j)) with (finw x). rewrite n_psi_fin. cbn [n_link]. eexists. split; [reflexivity|].
  unfold n_in_bounds in Hb. rewrite Hk in Hb. unfold psi_fin, n_P. cbn [Nat.add]. rewrite Rsum_S_l, H0.
  assert (Hr : 0 <= Rsum (n_K n * n_B n) (fun i => nd_F d t (S i) * x (S i))).
  { apply Rsum_nonneg. intros i Hi. assert (/ 10 ^ 16 <= x (S i)) by (apply Hb; unfold n_P; lia).
    assert (0 < / 10 ^ 16) by (apply Rinv_0_lt_compat; apply pow_lt; lra).
    apply Rmult_le_pos; [apply HF; unfold n_P; lia|lra]. }
  assert (/ 10 ^ 16 <= x 0%nat) by (apply Hb; unfold n_P; lia). lra.
Qed.
Print Assumptions C57_linear_fit_positive.

(* ------------------------------------------------------------------ *)
(** ** C53 for the nonlinear nodes *)

Definition n_time (n : nnode) : R := lsum (map (fun d => INR (nd_T d) * n_dt n) (n_data n)).
(** The initialised bias gives the rate (events / time) through the link: exactly for the linear, homogeneous and
    exponential nodes, 1e-16 above it for the softplus node. *)
Theorem C53_nonlinear_background_rate :
  forall n, n_data n <> [] -> 0 < n_time n -> 0 <= n_total n ->
  let n' := n_init_background n in
  (forall j, (0 < j)%nat -> n_w n' j = Fin (/ 10 ^ 6)) /\
  (n_kind n = Linear \/ n_kind n = Homog -> n_link (n_kind n) (n_w n' 0%nat) = Fin (n_total n / n_time n)) /\
  (n_kind n = Expo -> 0 < n_total n -> n_link (n_kind n) (n_w n' 0%nat) = Fin (n_total n / n_time n)) /\
  (n_kind n = Relu -> 0 < n_total n -> n_link (n_kind n) (n_w n' 0%nat) = Fin (n_total n / n_time n + / 10 ^ 16)).
Proof.
  intros n Hd HT HN. cbv zeta. unfold n_init_background. cbn [n_w n_with_w]. fold (n_time n).
  destruct (n_data n) as [|d0 ds] eqn:Ed; [congruence|].
  rewrite ediv_fin by lra. split; [|split; [|split]].
  - intros j Hj. destruct j; [lia|reflexivity].
  - intros [-> | ->]; reflexivity.
  - intros -> Hp. apply C56_links_invert. apply Rdiv_lt_0_compat; auto.
  - intros -> Hp. apply C56_relu_link_refuted. apply Rdiv_lt_0_compat; auto.
Qed.
Print Assumptions C53_nonlinear_background_rate.

(** A silent exponential node: the bias is minus infinity and the initial log likelihood is NaN, although the
    homogeneous log likelihood at rate 0 is 0. *)
Theorem C53_silent_exponential_refuted :
  forall n d, n_kind n = Expo -> In d (n_data n) -> (0 < nd_T d)%nat -> 0 < n_time n -> n_total n = 0 ->
  (forall d t, In d (n_data n) -> (t < nd_T d)%nat -> nd_F d t 0%nat = 1 /\ nd_S d t = 0%Z) ->
  n_w (n_init_background n) 0%nat = NInf /\ n_log_likelihood (n_init_background n) None = Ok NaN.
Proof.
  intros n d Hk Hin HT HTm HN HF. destruct (n_data n) as [|d0 ds] eqn:Ed; [destruct Hin|].
  assert (H0 : n_w (n_init_background n) 0%nat = NInf).
  { unfold n_init_background. cbn [n_w n_with_w]. fold (n_time n). rewrite Ed, ediv_fin, HN, Hk by lra.
    replace (0 / n_time n) with 0 by (unfold Rdiv; ring). apply C56_silent_rate_refuted. }
  split; [exact H0|]. unfold n_log_likelihood. f_equal. rewrite <- Ed in Hin. 
  assert (Hnan : n_ll_data (n_init_background n) (n_w (n_init_background n)) d = NaN).
  { unfold n_ll_data. apply esum_NaN with (i := 0%nat); [exact HT|]. cbv zeta.
    change (n_kind (n_init_background n)) with (n_kind n). rewrite Hk.
    assert (Ep : n_psi (n_P (n_init_background n)) (n_w (n_init_background n)) d 0 = NInf).
    { unfold n_psi, n_P. change (n_K (n_init_background n)) with (n_K n). change (n_B (n_init_background n)) with (n_B n).
      cbn [Nat.add]. induction (n_K n * n_B n)%nat as [|m IH].
      - cbn [esum]. rewrite H0, eadd_0_l. rewrite (proj1 (HF d 0%nat ltac:(now rewrite <- Ed) HT)).
        unfold emul, einf_sign. destruct (Rltb 0 1) eqn:E; [reflexivity|]. apply Rltb_false in E. lra.
      - change (esum (S (S m)) ?f) with (eadd (esum (S m) f) (f (S m))). rewrite IH.
        unfold n_init_background. cbn [n_w n_with_w]. rewrite emul_fin. reflexivity. }
    rewrite Ep. cbn [n_link eexp]. rewrite elog_0, (proj2 (HF d 0%nat ltac:(now rewrite <- Ed) HT)).
    unfold emul at 1, einf_sign. rewrite (proj2 (Rltb_false 0 0)) by lra. reflexivity. }
  clear - Hnan Hin. change (n_data (n_init_background n)) with (n_data n).
  induction (n_data n) as [|e l IH]; [destruct Hin|]. cbn [map elsum]. destruct Hin as [->|Hin].
  - now rewrite Hnan.
  - rewrite IH by auto. apply eadd_NaN_r.
Qed.
Print Assumptions C53_silent_exponential_refuted.

(** The homogeneous node's fit: its log likelihood is the homogeneous Poisson one at rate events/time and no other
    rate does better. *)
Definition constant_node (n : nnode) (r : R) : nnode := n_with_w n (fun j => match j with O => Fin r | _ => Fin 0 end).
Lemma constant_ll n r : n_kind n = Homog -> (forall d t, In d (n_data n) -> (t < nd_T d)%nat -> nd_F d t 0%nat = 1) -> 0 < r ->
  n_log_likelihood (constant_node n r) None = Ok (Fin (n_total n * ln r - r * n_time n)).
Proof.
  intros Hk HF Hr. set (w := fun j : nat => match j with O => r | _ => 0 end).
  assert (Ew : constant_node n r = n_with_w n (finw w)).
  { unfold constant_node. f_equal. apply functional_extensionality. intros [|j]; reflexivity. }
  rewrite Ew.
  assert (Hrate : forall d t, In d (n_data n) -> (t < nd_T d)%nat -> node_rate n w d t = r).
  { intros d t Hd Ht. unfold node_rate. rewrite Hk. cbn [link_val]. unfold psi_fin, n_P. cbn [Nat.add]. rewrite Rsum_S_l, HF by auto.
    rewrite Rsum_0 by (intros; unfold w; ring). unfold w. ring. }
  unfold n_log_likelihood. cbn [n_data n_w n_with_w]. f_equal.
  rewrite (@elsum_map_fin _ _ (fun d => node_ll n w d)).
  2:{ intros d Hd. change (n_ll_data (n_with_w n (finw w)) (finw w) d) with (n_ll_data n (finw w) d). apply n_ll_data_fin. intros t Ht. rewrite Hrate; auto. }
  f_equal. unfold n_total, n_time.
  assert (E : forall ds, (forall d, In d ds -> In d (n_data n)) -> lsum (map (fun d => node_ll n w d) ds)
    = lsum (map (fun d => Rsum (nd_T d) (fun t => IZR (nd_S d t))) ds) * ln r - r * lsum (map (fun d => INR (nd_T d) * n_dt n) ds)).
  { induction ds as [|d ds IH]; intros Hin; cbn [map lsum]; [ring|]. rewrite IH by (intros; apply Hin; now right).
    assert (Ed : node_ll n w d = Rsum (nd_T d) (fun t => IZR (nd_S d t)) * ln r - r * (INR (nd_T d) * n_dt n)).
    { unfold node_ll. rewrite (@Rsum_ext _ _ (fun t => IZR (nd_S d t) * ln r + (- (r * n_dt n)))).
      2:{ intros t Ht. rewrite Hrate by (auto; apply Hin; now left). ring. }
      rewrite Rsum_plus, Rsum_scal_r, Rsum_const. ring. }
    rewrite Ed. ring. }
  apply E. auto.
Qed.
Theorem C53_homogeneous_fit_is_mle :
  forall n x r, n_kind n = Homog -> n_data n <> [] -> (forall d t, In d (n_data n) -> (t < nd_T d)%nat -> nd_F d t 0%nat = 1) ->
  0 < n_time n -> 0 < n_total n -> 0 < r ->
  exists v v', n_log_likelihood (n_fit n x) None = Ok (Fin v) /\ n_log_likelihood (constant_node n r) None = Ok (Fin v') /\ v' <= v.
Proof.
  intros n x r Hk Hd HF HT HN Hr.
  assert (E : n_fit n x = constant_node n (n_total n / n_time n)).
  { unfold n_fit. rewrite Hk. unfold constant_node.
    assert (E0 : n_w (n_init_background n) 0%nat = Fin (n_total n / n_time n)).
    { unfold n_init_background. cbn [n_w n_with_w]. fold (n_time n). destruct (n_data n) as [|d0 ds]; [congruence|].
      rewrite Hk, ediv_fin by lra. reflexivity. }
    rewrite E0. reflexivity. }
  assert (Hq : 0 < n_total n / n_time n) by now apply Rdiv_lt_0_compat.
  do 2 eexists. split; [rewrite E; now apply constant_ll|]. split; [now apply constant_ll|].
  replace (n_total n / n_time n * n_time n) with (n_total n) by (field; lra).
  pose proof (ln_tangent Hq Hr) as H. assert (HN' : 0 <= n_total n) by lra. pose proof (Rmult_le_compat_l _ _ _ HN' H) as H2.
  assert (E2 : n_total n * ((r - n_total n / n_time n) / (n_total n / n_time n)) = r * n_time n - n_total n) by (field; lra). lra.
Qed.
Print Assumptions C53_homogeneous_fit_is_mle.

(* ------------------------------------------------------------------ *)
(** ** C75: convexity of the fitting objective *)
Definition mixv (th : R) (w1 w2 : vec) : vec := fun j => th * w1 j + (1 - th) * w2 j.
Lemma psi_mix P th w1 w2 d t : psi_fin P (mixv th w1 w2) d t = th * psi_fin P w1 d t + (1 - th) * psi_fin P w2 d t.
Proof. unfold psi_fin, mixv. rewrite <- !Rsum_scal, <- Rsum_plus. apply Rsum_ext; intros; ring. Qed.
Lemma exp_tangent x y : exp x + exp x * (y - x) <= exp y.
Proof.
  replace (exp y) with (exp x * exp (y - x)) by (rewrite <- exp_plus; f_equal; ring).
  pose proof (exp_ineq1_le (y - x)) as H. pose proof (exp_pos x). nra.
Qed.
Lemma exp_convex a b th : 0 <= th <= 1 -> exp (th * a + (1 - th) * b) <= th * exp a + (1 - th) * exp b.
Proof.
  intros Hth. set (c := th * a + (1 - th) * b). pose proof (exp_tangent c a) as H1. pose proof (exp_tangent c b) as H2.
  assert (E : th * (a - c) + (1 - th) * (b - c) = 0) by (unfold c; ring).
  assert (th * (exp c + exp c * (a - c)) <= th * exp a) by (apply Rmult_le_compat_l; lra).
  assert ((1 - th) * (exp c + exp c * (b - c)) <= (1 - th) * exp b) by (apply Rmult_le_compat_l; lra).
  assert (exp c * (th * (a - c) + (1 - th) * (b - c)) = 0) by (rewrite E; ring). nra.
Qed.
Lemma objective_fin n w prec l : 0 < n_total n -> node_rates_pos n w -> sigma_prec (n_sigma n) prec -> n_lmbda n = Fin l ->
  n_objective n w = Fin ((- lsum (map (node_ll n w) (n_data n)) + prec / 2 * Rsum (n_K n * n_B n) (fun j => w (1 + j)%nat ^ 2)
                          + l * Rsum (n_K n * n_B n) (fun j => Rabs (w (1 + j)%nat))) / n_total n).
Proof.
  intros HN Hr Hs Hl. destruct (C57_objective HN Hr Hs Hl) as (ll & E & ->).
  assert (E2 : n_log_likelihood (n_with_w n (finw w)) None = Ok (Fin (lsum (map (node_ll n w) (n_data n))))).
  { unfold n_log_likelihood. cbn [n_data n_w n_with_w]. f_equal. apply elsum_map_fin. intros d Hd.
    change (n_ll_data (n_with_w n (finw w)) (finw w) d) with (n_ll_data n (finw w) d). apply n_ll_data_fin. intros t Ht. now apply Hr. }
  rewrite E2 in E. injection E as <-. reflexivity.
Qed.

(** For the linear, homogeneous and exponential nodes the objective is convex on the weights giving positive rates
    (all weights for the exponential node). *)
Theorem C75_objective_convex_partial :
  forall n w1 w2 th prec l, n_kind n <> Relu -> 0 < n_total n -> 0 <= n_dt n -> 0 <= th <= 1 ->
  (forall d t, In d (n_data n) -> (t < nd_T d)%nat -> (0 <= nd_S d t)%Z) ->
  sigma_prec (n_sigma n) prec -> n_lmbda n = Fin l -> 0 <= l ->
  node_rates_pos n w1 -> node_rates_pos n w2 ->
  exists v1 v2 v, n_objective n w1 = Fin v1 /\ n_objective n w2 = Fin v2 /\ n_objective n (mixv th w1 w2) = Fin v /\
  v <= th * v1 + (1 - th) * v2.
Proof.
  intros n w1 w2 th prec l Hk HN Hdt Hth Hc Hs Hl Hl0 H1 H2.
  assert (H : node_rates_pos n (mixv th w1 w2)).
  { intros d t Hd Ht. specialize (H1 d t Hd Ht). specialize (H2 d t Hd Ht). unfold node_rate in *. rewrite psi_mix.
    destruct (n_kind n); [|congruence|apply exp_pos|]; cbn [link_val] in *; now apply mix_pos. }
  do 3 eexists. split; [apply objective_fin with (prec := prec) (l := l); auto|]. split; [apply objective_fin with (prec := prec) (l := l); auto|].
  split; [apply objective_fin with (prec := prec) (l := l); auto|].
  assert (Hll : th * lsum (map (node_ll n w1) (n_data n)) + (1 - th) * lsum (map (node_ll n w2) (n_data n)) <= lsum (map (node_ll n (mixv th w1 w2)) (n_data n))).
  { rewrite <- !lsum_map_scal, <- lsum_map_plus. apply lsum_le. intros d Hd. unfold node_ll.
    rewrite <- !Rsum_scal, <- Rsum_plus. apply Rsum_le. intros t Ht.
    assert (HS : 0 <= IZR (nd_S d t)) by (apply (IZR_le 0); auto).
    specialize (H1 d t Hd Ht). specialize (H2 d t Hd Ht). unfold node_rate in *. rewrite psi_mix.
    set (a := psi_fin (n_P n) w1 d t) in *. set (b := psi_fin (n_P n) w2 d t) in *.
    destruct (n_kind n); [|congruence| |]; cbn [link_val] in *.
    - pose proof (Rmult_le_compat_l _ _ _ HS (@ln_concave a b th H1 H2 Hth)). lra.
    - rewrite !ln_exp. pose proof (exp_convex a b Hth) as He. pose proof (Rmult_le_compat_r _ _ _ Hdt He). lra.
    - pose proof (Rmult_le_compat_l _ _ _ HS (@ln_concave a b th H1 H2 Hth)). lra. }
  assert (Hq : Rsum (n_K n * n_B n) (fun j => mixv th w1 w2 (1 + j)%nat ^ 2)
    <= th * Rsum (n_K n * n_B n) (fun j => w1 (1 + j)%nat ^ 2) + (1 - th) * Rsum (n_K n * n_B n) (fun j => w2 (1 + j)%nat ^ 2)).
  { rewrite <- !Rsum_scal, <- Rsum_plus. apply Rsum_le. intros j _. unfold mixv.
    set (a := w1 (1 + j)%nat). set (b := w2 (1 + j)%nat).
    assert (0 <= th * (1 - th) * (a - b) ^ 2) by (apply Rmult_le_pos; [nra|apply pow2_ge_0]). nra. }
  assert (Ha : Rsum (n_K n * n_B n) (fun j => Rabs (mixv th w1 w2 (1 + j)%nat))
    <= th * Rsum (n_K n * n_B n) (fun j => Rabs (w1 (1 + j)%nat)) + (1 - th) * Rsum (n_K n * n_B n) (fun j => Rabs (w2 (1 + j)%nat))).
  { rewrite <- !Rsum_scal, <- Rsum_plus. apply Rsum_le. intros j _. unfold mixv.
    eapply Rle_trans; [apply Rabs_triang|]. rewrite !Rabs_mult, (Rabs_pos_eq th), (Rabs_pos_eq (1 - th)) by lra. lra. }
  assert (Hp0 : 0 <= prec).
  { destruct Hs as [(_ & ->)|(s & _ & Hs0 & ->)]; [lra|]. apply Rlt_le, Rinv_0_lt_compat. nra. }
  assert (Hp2 : 0 <= prec / 2) by lra.
  pose proof (Rmult_le_compat_l _ _ _ Hp2 Hq) as Q1. pose proof (Rmult_le_compat_l _ _ _ Hl0 Ha) as Q2.
  set (A := lsum (map (node_ll n w1) (n_data n))) in *. set (B := lsum (map (node_ll n w2) (n_data n))) in *.
  set (A2 := Rsum _ (fun j => w1 (1 + j)%nat ^ 2)) in *. set (B2 := Rsum _ (fun j => w2 (1 + j)%nat ^ 2)) in *.
  set (A3 := Rsum _ (fun j => Rabs (w1 (1 + j)%nat))) in *. set (B3 := Rsum _ (fun j => Rabs (w2 (1 + j)%nat))) in *.
  unfold Rdiv. rewrite <- !Rmult_assoc, <- Rmult_plus_distr_r. apply Rmult_le_compat_r; [apply Rlt_le, Rinv_0_lt_compat; auto|].
  fold (prec / 2). lra.
Qed.
Print Assumptions C75_objective_convex_partial.

(** For the softplus node the 1e-16 inside the logarithm breaks convexity: three biases on a line, one observed event. *)
Definition ex_relu : nnode := n_with_data (n_init Relu 1 1 1 None (Some (Fin 0)))
  [{| nd_T := 1; nd_F := fun _ j => match j with O => 1 | _ => 0 end; nd_S := fun _ => 1%Z |}].
Definition bias_only (b : R) : vec := fun j => match j with O => b | _ => 0 end.
Lemma ex_relu_obj b : n_objective ex_relu (bias_only b) = Fin (/ 10 ^ 16 + ln (1 + exp b) - ln (/ 10 ^ 16 + ln (1 + exp b))).
Proof.
  rewrite (@objective_fin ex_relu _ 0 0); [| |apply relu_expo_pos; now left|left; split; reflexivity|reflexivity].
  - unfold n_total. cbn [ex_relu n_data n_with_data map lsum nd_T nd_S Rsum n_K n_B n_init Nat.mul Nat.add].
    unfold node_ll, node_rate, psi_fin, n_P. cbn [n_kind ex_relu n_with_data n_init link_val nd_T nd_S nd_F Rsum n_K n_B Nat.mul Nat.add n_dt bias_only].
    f_equal. replace (0 + 1 * b + 0 * 0) with b by ring. set (q := / 10 ^ 16 + ln (1 + exp b)). rewrite Rabs_R0. field.
  - unfold n_total. cbn. lra.
Qed.
Lemma exp_le_pow2 n : exp (- INR n) <= (/ 2) ^ n.
Proof.
  induction n as [|n IH]; [cbn; rewrite Ropp_0, exp_0; lra|]. rewrite S_INR. replace (- (INR n + 1)) with (- INR n + - (1)) by ring.
  rewrite exp_plus. cbn [pow]. rewrite Rmult_comm. apply Rmult_le_compat; [apply Rlt_le, exp_pos|apply Rlt_le, exp_pos| |exact IH].
  rewrite exp_Ropp. apply Rinv_le_contravar; [lra|]. pose proof (exp_ineq1_le 1). lra.
Qed.
Lemma exp_ge_pow3 n : (/ 3) ^ n <= exp (- INR n).
Proof.
  induction n as [|n IH]; [cbn; rewrite Ropp_0, exp_0; lra|]. rewrite S_INR. replace (- (INR n + 1)) with (- INR n + - (1)) by ring.
  rewrite exp_plus. cbn [pow]. rewrite Rmult_comm. apply Rmult_le_compat; [apply pow_le; lra|lra|exact IH|].
  rewrite exp_Ropp. apply Rinv_le_contravar; [apply exp_pos|]. apply exp_le_3.
Qed.
Theorem C75_softplus_not_convex_refuted :
  exists v1 v2 v, n_objective ex_relu (bias_only (-20)) = Fin v1 /\ n_objective ex_relu (bias_only (-120)) = Fin v2 /\
  n_objective ex_relu (mixv (1 / 2) (bias_only (-20)) (bias_only (-120))) = Fin v /\ 1 / 2 * v1 + (1 - 1 / 2) * v2 < v.
Proof.
  assert (Em : mixv (1 / 2) (bias_only (-20)) (bias_only (-120)) = bias_only (-70)).
  { apply functional_extensionality. intros [|j]; unfold mixv; cbn; lra. }
  rewrite Em. do 3 eexists. do 3 (split; [apply ex_relu_obj|]).
  set (e := / 10 ^ 16).
  assert (He : 0 < e) by (apply Rinv_0_lt_compat, pow_lt; lra).
  assert (S0 : forall b, 0 < ln (1 + exp b) <= exp b).
  { intros b. pose proof (exp_pos b). split; [rewrite <- ln_1; apply ln_increasing; lra|].
    pose proof (ln_le_sub1 (x := 1 + exp b) ltac:(lra)). lra. }
  assert (Hb20 : exp (-20) <= 1 / 8). { replace (-20) with (- INR 20) by (cbn; lra). eapply Rle_trans; [apply exp_le_pow2|]. lra. }
  assert (Hl20 : / 10 ^ 10 <= ln (1 + exp (-20))).
  { pose proof (exp_pos (-20)) as Hp. assert (H : exp (-20) / 2 <= ln (1 + exp (-20))).
    { pose proof (@ln_tangent (1 + exp (-20)) 1 ltac:(lra) ltac:(lra)) as H. rewrite ln_1 in H.
      assert (E : (1 - (1 + exp (-20))) / (1 + exp (-20)) = - (exp (-20) / (1 + exp (-20)))) by (field; lra). rewrite E in H.
      assert (exp (-20) / 2 <= exp (-20) / (1 + exp (-20))); [|lra].
      apply Rmult_le_compat_l; [lra|]. apply Rinv_le_contravar; lra. }
    eapply Rle_trans; [|exact H]. assert (H3 : (/ 3) ^ 20 <= exp (-20)). { replace (-20) with (- INR 20) by (cbn; lra). apply exp_ge_pow3. }
    eapply Rle_trans; [|apply Rmult_le_compat_r; [lra|exact H3]]. lra. }
  assert (Hu70 : ln (1 + exp (-70)) <= e).
  { eapply Rle_trans; [apply S0|]. replace (-70) with (- INR 70) by (rewrite INR_IZR_INZ; cbn; lra). eapply Rle_trans; [apply exp_le_pow2|]. unfold e. lra. }
  assert (Hu120 : exp (-120) <= 1 / 8).
  { replace (-120) with (- INR 120) by (rewrite INR_IZR_INZ; cbn; lra). eapply Rle_trans; [apply exp_le_pow2|]. lra. }
  destruct (S0 (-20)) as (P1 & P1'). destruct (S0 (-70)) as (P2 & _). destruct (S0 (-120)) as (P3 & P3').
  assert (L1 : ln (/ 10 ^ 10) <= ln (e + ln (1 + exp (-20)))) by (apply ln_le_mono; [apply Rinv_0_lt_compat, pow_lt; lra|lra]).
  assert (L3 : ln e <= ln (e + ln (1 + exp (-120)))) by (apply ln_le_mono; lra).
  assert (L2 : ln (e + ln (1 + exp (-70))) <= ln (2 * e)) by (apply ln_le_mono; lra).
  rewrite ln_mult in L2 by lra. unfold e in L2, L3 at 1. rewrite ln_Rinv in L1, L2, L3 by (apply pow_lt; lra).
  fold e in L2, L3.
  assert (Lp : forall k, ln (10 ^ k) = INR k * ln 10).
  { induction k as [|k IH]; [cbn; rewrite ln_1; ring|]. rewrite S_INR. cbn [pow]. rewrite ln_mult, IH by (try apply pow_lt; lra). ring. }
  rewrite Lp in L1, L2, L3.
  replace (INR 10) with 10 in * by (rewrite INR_IZR_INZ; reflexivity). replace (INR 16) with 16 in * by (rewrite INR_IZR_INZ; reflexivity).
  assert (L2' : ln 2 <= ln 10) by (apply ln_le_mono; lra). pose proof ln_lt_2. lra.
Qed.
Print Assumptions C75_softplus_not_convex_refuted.

(* ------------------------------------------------------------------ *)
(** ** The hypotheses are met by concrete processes *)
Definition ex_data (k : nkind) : nnode := n_with_data (n_init k 1 1 1 None (Some (Fin 0)))
  [{| nd_T := 2; nd_F := fun _ _ => 1; nd_S := fun t => match t with O => 1%Z | _ => 0%Z end |}].
Example C57_objective_nonvacuous : forall k, 0 < n_total (ex_data k) /\ node_rates_pos (ex_data k) (fun _ => 1) /\
  sigma_prec (n_sigma (ex_data k)) 0 /\ n_lmbda (ex_data k) = Fin 0 /\ 0 < n_time (ex_data k).
Proof.
  intros k. split; [unfold n_total; cbn; lra|]. split; [|split; [left; split; reflexivity|split; [reflexivity|unfold n_time; cbn; lra]]].
  intros d t Hd Ht. destruct Hd as [<-|[]]. unfold node_rate, psi_fin, n_P. cbn. replace (0 + 1 * 1 + 1 * 1) with 2 by ring.
  destruct k; cbn [link_val]; try lra; [|apply exp_pos]. pose proof (exp_pos 2).
  assert (0 < ln (1 + exp 2)) by (rewrite <- ln_1; apply ln_increasing; lra). lra.
Qed.
Example C53_silent_nonvacuous : let n := n_with_data (n_init Expo 1 1 1 None None) [{| nd_T := 1; nd_F := fun _ _ => 1; nd_S := fun _ => 0%Z |}] in
  n_kind n = Expo /\ 0 < n_time n /\ n_total n = 0 /\ (forall d t, In d (n_data n) -> (t < nd_T d)%nat -> nd_F d t 0%nat = 1 /\ nd_S d t = 0%Z).
Proof. cbn. repeat split; try (unfold n_time, n_total; cbn; lra); destruct H as [<-|[]]; reflexivity. Qed.
Definition ex_proc : nproc := p_with_nodes (p_init Expo 2 1 1 None None 3 (fun _ _ => 1))
  (map (fun n => n_with_w n (fun _ => Fin 1)) (p_nodes (p_init Expo 2 1 1 None None 3 (fun _ _ => 1)))).
Example C57_rate_nonvacuous : p_shape ex_proc /\ fin_weights ex_proc (fun _ _ => 1) /\
  (forall k, (k < p_K ex_proc)%nat -> p_bias ex_proc k = Fin 1) /\
  (forall k1 k2, (k1 < p_K ex_proc)%nat -> (k2 < p_K ex_proc)%nat -> p_W ex_proc k1 k2 = Fin 1) /\
  (forall k1 k2 b, (k1 < p_K ex_proc)%nat -> (k2 < p_K ex_proc)%nat -> (b < p_B ex_proc)%nat -> p_G ex_proc k1 k2 b = Fin 1) /\ counts 2 2 (fun _ _ => 1%Z).
Proof.
  assert (Hf : fin_weights ex_proc (fun _ _ => 1)).
  { split; [reflexivity|]. intros k Hk. cbn in Hk. destruct k as [|[|k]]; [| |lia]; eexists; (split; [reflexivity|reflexivity]). }
  split; [split; [reflexivity|repeat constructor]|]. split; [exact Hf|].
  split; [intros k Hk; apply (@n_w_at_fin ex_proc (fun _ _ => 1)); auto|]. 
  assert (Hb : forall k1 k2, block_sum ex_proc (fun _ _ => 1) k1 k2 = 1) by (intros; unfold block_sum; cbn; lra).
  split; [intros; rewrite (@p_W_fin ex_proc (fun _ _ => 1)) by auto; now rewrite Hb|].
  split; [|intros t k _ _; lia]. intros k1 k2 b H1 H2 H3.
  destruct (@C57_G_rows_sum_to_one_partial ex_proc (fun _ _ => 1) k1 k2 Hf H2) as (E & _); [rewrite Hb; lra|].
  rewrite E, Hb. f_equal. field.
Qed.
