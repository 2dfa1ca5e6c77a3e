(** * Props_Query: interrupted queries (C107). *)
From Verif Require Import Prelude ExtReal Arrays M_Basis M_Parents M_Discrete M_Gibbs M_Network M_Sweep M_Standard M_Nonlinear M_Continuous M_Interrupt M_Query
  L_Discrete Spec_Discrete Props_Discrete Props_Network L_Standard Props_Standard Props_Standard2 Props_Nonlinear Props_Nonlinear2 Props_Continuous.
Set Implicit Arguments.
Open Scope R_scope.

Lemma qexec_app {St} (l1 l2 : list (St -> result St)) st :
  qexec (l1 ++ l2) st = match qexec l1 st with (Ok _, st') => qexec l2 st' | (Raise e, st') => (Raise e, st') end.
Proof.
  revert st. induction l1 as [|f l1 IH]; intros st; [reflexivity|]. cbn [app qexec]. destruct (f st) as [st'|e]; [apply IH|reflexivity].
Qed.
Lemma stopped_app {St} n (l1 l2 : list (St -> result St)) st :
  stopped n (l1 ++ l2) st = match qexec (firstn n l1) st with (Ok _, st') => stopped (n - length l1) l2 st' | (Raise e, st') => st' end.
Proof. unfold stopped. rewrite firstn_app, qexec_app. destruct (qexec (firstn n l1) st) as [[u|e] st']; reflexivity. Qed.

(* ---------------- standard model ---------------- *)
Definition s_added (m : smodel) (s : sval) (m' : smodel) : Prop :=
  exists d, sd_S d = sv_at s /\ sv_dims s = [sd_T d; sm_K m] /\ m' = sm_with_data m (sm_data m ++ [d]).
Lemma s_add_added m s m1 : s_add_data m s None None = Ok m1 -> s_added m s m1.
Proof.
  intros E. apply s_add_data_inv in E as (T & F & ps & Ed & _ & _ & _ & _ & Eb & ->). cbn [s_batches] in Eb. injection Eb as <-.
  eexists. split; [|split; [|reflexivity]]; [reflexivity|exact Ed].
Qed.
Lemma s_pop_added m s m1 : s_added m s m1 -> sm_with_data m1 (removelast (sm_data m1)) = m.
Proof. intros (d & _ & _ & ->). cbn [sm_data sm_with_data]. rewrite removelast_last. exact (sm_with_data_same m). Qed.

(* ---------------- nonlinear process ---------------- *)
Definition mixed_nodes (j : nat) (a b : list nnode) : list nnode := firstn j a ++ skipn j b.
Lemma mixed_0 a b : mixed_nodes 0 a b = b. Proof. reflexivity. Qed.
Lemma mixed_all (a b : list nnode) : length a = length b -> mixed_nodes (length a) a b = a.
Proof. intros E. unfold mixed_nodes. rewrite firstn_all, E, skipn_all, app_nil_r. reflexivity. Qed.
Lemma mixed_step : forall j (a b : list nnode) x, length a = length b -> nth_error a j = Some x ->
  set_nth j (fun _ => x) (mixed_nodes j a b) = mixed_nodes (S j) a b.
Proof.
  unfold mixed_nodes. induction j as [|j IH]; intros [|y a] [|z b] x E H; try discriminate.
  - cbn in H. injection H as ->. reflexivity.
  - cbn in E, H. injection E as E. change (y :: set_nth j (fun _ => x) (firstn j a ++ skipn j b) = y :: (firstn (S j) a ++ skipn (S j) b)).
    f_equal. now apply IH.
Qed.
Lemma mixed_nth : forall j (a b : list nnode), length a = length b -> nth_error (mixed_nodes j a b) j = nth_error b j.
Proof.
  unfold mixed_nodes. induction j as [|j IH]; intros [|y a] [|z b] E; try discriminate; try reflexivity.
  cbn in E. injection E as E. cbn [firstn app nth_error]. now apply IH.
Qed.
(** A loop of node assignments f 0, f 1, ... that turns the nodes b into a one by one. *)
Lemma loop_mixed (p : nproc) (a b : list nnode) (f : nat -> nproc -> result nproc) :
  length a = length b ->
  (forall k q, (k < length a)%nat -> p_nodes q = mixed_nodes k a b -> q = p_with_nodes p (mixed_nodes k a b) ->
     f k q = Ok (p_with_nodes p (mixed_nodes (S k) a b))) ->
  forall n j, (j + n <= length a)%nat ->
  qexec (map f (seq j n)) (p_with_nodes p (mixed_nodes j a b)) = (Ok tt, p_with_nodes p (mixed_nodes (j + n) a b)).
Proof.
  intros E Hf. induction n as [|n IH]; intros j Hj; [now rewrite Nat.add_0_r|].
  cbn [seq map qexec]. rewrite Hf by (reflexivity || lia). rewrite IH by lia. do 2 f_equal. f_equal. lia.
Qed.
Lemma firstn_map_seq {B} (f : nat -> B) n N : firstn n (map f (seq 0 N)) = map f (seq 0 (Nat.min n N)).
Proof.
  rewrite firstn_map. f_equal. destruct (Nat.le_ge_cases n N) as [L|L].
  - rewrite Nat.min_l by lia. replace N with (n + (N - n))%nat at 1 by lia. rewrite seq_app, firstn_app, seq_length, Nat.sub_diag.
    cbn [firstn]. rewrite app_nil_r. apply firstn_all2. now rewrite seq_length.
  - rewrite Nat.min_r by lia. apply firstn_all2. now rewrite seq_length.
Qed.
Lemma nodes_app_nth d ns : forall i k n, nth_error ns i = Some n ->
  nth_error (nodes_app d ns k) i = Some (n_with_data n (n_data n ++ [pd_col (k + i) d])).
Proof.
  induction ns as [|m ns IH]; intros [|i] k n H; try discriminate; cbn [nth_error nodes_app] in *.
  - injection H as ->. now rewrite Nat.add_0_r.
  - rewrite (IH i (S k) n H). do 5 f_equal. lia.
Qed.
Lemma prep_ok p s f d : p_request (p_K p) (p_B p) (p_L p) (p_bas p) s f = Ok d ->
  exists F, p_prepare p s f = Ok (pd_T d, F) /\ fm_rows F = pd_T d /\ fm_cols F = (1 + p_K p * p_B p)%nat /\
            fm_at F = pd_F d /\ pd_S d = sv_at s.
Proof.
  unfold p_request, p_prepare. destruct (check_S (p_K p) s) as [T|e]; cbn [bindr]; [|discriminate]. destruct f as [F|].
  - destruct (Nat.eqb_spec T (fm_rows F)) as [E|]; cbn [negb]; [|discriminate].
    destruct (Nat.eqb_spec (fm_cols F) (1 + p_K p * p_B p)) as [E2|]; [|discriminate]. intros [= <-]. cbn [bindr pd_T pd_F pd_S]. eauto 8.
  - destruct (convolve_with_basis T (p_K p) (sv_at s) (p_L p) (p_B p) (p_bas p)) as [F|e]; cbn [bindr]; [|discriminate].
    destruct (Nat.eqb (p_B p) 0); [discriminate|]. intros [= <-]. cbn [np_hstack_shape]. rewrite Nat.eqb_refl. cbn [bindr pd_T pd_F pd_S].
    eexists. split; [reflexivity|]. cbn [fm_rows fm_cols fm_at]. auto.
Qed.
Lemma prep_raise p s f e : p_request (p_K p) (p_B p) (p_L p) (p_bas p) s f = Raise e ->
  p_prepare p s f = Raise e \/ exists T F, p_prepare p s f = Ok (T, F) /\ (0 < p_K p)%nat /\
    forall n S_, n_K n = p_K p -> n_B n = p_B p -> n_add_data n F T true S_ = Raise e.
Proof.
  unfold p_request, p_prepare. destruct (check_S (p_K p) s) as [T|e'] eqn:EC; cbn [bindr]; [|intros [= <-]; auto].
  apply check_S_ok in EC as (_ & _ & _ & HK & _). destruct f as [F|].
  - intros H. right. exists T, F. split; [reflexivity|]. split; [lia|]. intros n S_ HnK HnB. unfold n_add_data. rewrite HnK, HnB.
    destruct (Nat.eqb T (fm_rows F)); cbn [negb andb guard bindr] in *; [|now injection H as <-].
    destruct (Nat.eqb_spec (fm_cols F) (1 + p_K p * p_B p)) as [E|E]; [discriminate|].
    destruct (Nat.eqb (fm_cols F) (p_K p * p_B p)); injection H as <-; reflexivity.
  - destruct (convolve_with_basis T (p_K p) (sv_at s) (p_L p) (p_B p) (p_bas p)) as [F|e']; cbn [bindr]; [|intros [= <-]; auto].
    destruct (Nat.eqb (p_B p) 0); [intros [= <-]; auto|discriminate].
Qed.

Section nonlinear.
Variables (p : nproc) (s : sval) (f : option fmat).
Hypothesis Hp : p_shape p.
Let ns := p_nodes p.

Lemma node_dims k n : nth_error ns k = Some n -> n_K n = p_K p /\ n_B n = p_B p.
Proof. intros H. destruct Hp as [_ HF]. rewrite Forall_forall in HF. apply HF. eapply nth_error_In; eauto. Qed.

Lemma add_loop d F : p_request (p_K p) (p_B p) (p_L p) (p_bas p) s f = Ok d ->
  fm_rows F = pd_T d -> fm_cols F = (1 + p_K p * p_B p)%nat -> fm_at F = pd_F d -> pd_S d = sv_at s ->
  forall n, (n <= length ns)%nat ->
  qexec (map (p_add_step (pd_T d) F (sv_at s)) (seq 0 n)) p = (Ok tt, p_with_nodes p (mixed_nodes n (nodes_app d ns 0) ns)).
Proof.
  intros _ HF1 HF2 HF3 HS n Hn.
  pose proof (@loop_mixed p (nodes_app d ns 0) ns (p_add_step (pd_T d) F (sv_at s)) (nodes_app_length d ns 0)) as H.
  transitivity (qexec (map (p_add_step (pd_T d) F (sv_at s)) (seq 0 n)) (p_with_nodes p (mixed_nodes 0 (nodes_app d ns 0) ns))).
  { rewrite mixed_0. unfold ns. now rewrite p_with_nodes_same. }
  apply (H) with (j := 0%nat); [|now rewrite nodes_app_length].
  intros k q Hk _ ->. unfold p_add_step, on_node. cbn [p_nodes p_with_nodes]. rewrite nodes_app_length in Hk.
  rewrite mixed_nth by apply nodes_app_length.
  destruct (nth_error ns k) as [x|] eqn:Ex; [|apply nth_error_None in Ex; lia].
  destruct (node_dims _ Ex) as [HxK HxB].
  rewrite (proj1 (@C56_add_data_partial x F (pd_T d) true (fun t => sv_at s t k))) by (rewrite ?HxK, ?HxB; congruence || reflexivity).
  cbn [bindr]. f_equal. unfold p_with_nodes at 1. cbn [p_K p_B p_L p_bas p_nodes p_with_nodes]. 
  change (p_with_nodes p (set_nth k (fun _ => n_with_data x (n_data x ++ [{| nd_T := fm_rows F; nd_F := fm_at F; nd_S := fun t => sv_at s t k |}]))
     (mixed_nodes k (nodes_app d ns 0) ns)) = p_with_nodes p (mixed_nodes (S k) (nodes_app d ns 0) ns)). f_equal.
  apply mixed_step; [apply nodes_app_length|]. rewrite (nodes_app_nth d ns k 0 Ex). cbn [plus]. unfold pd_col. now rewrite HF1, HF3, HS.
Qed.
Lemma del_loop d : forall n, (n <= length ns)%nat ->
  qexec (map (p_del_step (-1)) (seq 0 n)) (p_with_nodes p (nodes_app d ns 0)) = (Ok tt, p_with_nodes p (mixed_nodes n ns (nodes_app d ns 0))).
Proof.
  intros n Hn. pose proof (@loop_mixed p ns (nodes_app d ns 0) (p_del_step (-1)) (eq_sym (nodes_app_length d ns 0))) as H.
  apply (H) with (j := 0%nat); [|exact Hn].
  intros k q Hk _ ->. unfold p_del_step, on_node. cbn [p_nodes p_with_nodes].
  rewrite mixed_nth by (symmetry; apply nodes_app_length).
  destruct (nth_error ns k) as [x|] eqn:Ex; [|apply nth_error_None in Ex; lia].
  rewrite (nodes_app_nth d ns k 0 Ex). cbn [n_data n_with_data]. unfold del_nth. rewrite app_length. cbn [length].
  rewrite py_index_last, firstn_app, firstn_all, Nat.sub_diag. cbn [firstn]. rewrite app_nil_r.
  rewrite skipn_all2 by (rewrite app_length; cbn; lia). rewrite app_nil_r. cbn [bindr]. f_equal.
  match goal with |- p_with_nodes _ (set_nth k (fun _ => ?x') _) = _ => replace x' with x by (destruct x; reflexivity) end.
  change (p_with_nodes p (set_nth k (fun _ => x) (mixed_nodes k ns (nodes_app d ns 0))) = p_with_nodes p (mixed_nodes (S k) ns (nodes_app d ns 0))).
  f_equal. apply mixed_step; [symmetry; apply nodes_app_length|exact Ex].
Qed.

(** The state after n assignments, in closed form. *)
Lemma heldout_stopped n :
  match p_request (p_K p) (p_B p) (p_L p) (p_bas p) s f with
  | Raise _ => stopped n (p_heldout_steps p s f) p = p
  | Ok d => stopped n (p_heldout_steps p s f) p =
      p_with_nodes p (if Nat.leb n (length ns) then mixed_nodes n (nodes_app d ns 0) ns
                      else mixed_nodes (Nat.min (n - length ns - 1) (length ns)) ns (nodes_app d ns 0))
  end.
Proof.
  destruct (p_request (p_K p) (p_B p) (p_L p) (p_bas p) s f) as [d|e] eqn:E.
  - destruct (prep_ok p s f E) as (F & EP & HF1 & HF2 & HF3 & HS). unfold p_heldout_steps. rewrite EP. fold ns.
    rewrite stopped_app, firstn_map_seq, (@add_loop d F E HF1 HF2 HF3 HS) by lia.
    rewrite map_length, seq_length. destruct (Nat.leb_spec n (length ns)) as [L|L].
    + rewrite Nat.min_l by lia. replace (n - length ns)%nat with 0%nat by lia. reflexivity.
    + rewrite Nat.min_r by lia. assert (Em : mixed_nodes (length ns) (nodes_app d ns 0) ns = nodes_app d ns 0)
        by (rewrite <- (nodes_app_length d ns 0); apply mixed_all, nodes_app_length). rewrite Em.
      unfold stopped. destruct (n - length ns)%nat as [|n'] eqn:En; [lia|]. rewrite Nat.sub_succ, Nat.sub_0_r. cbn [app firstn qexec].
      unfold p_log_likelihood. cbn [p_nodes p_with_nodes]. rewrite (p_ll_last d ns 0).
      destruct (p_ll_none_ok (nodes_app d (map cleared ns) 0)) as (v & Ev). rewrite Ev. cbn [bindr].
      rewrite firstn_map_seq, (@del_loop d) by lia. reflexivity.
  - destruct (prep_raise p s f E) as [EP|(T & F & EP & HK & HR)]; unfold p_heldout_steps; rewrite EP.
    + unfold stopped. destruct n as [|[|n]]; reflexivity.
    + fold ns. destruct ns as [|x rest] eqn:En; [destruct Hp as [HL _]; fold ns in HL; rewrite En in HL; cbn in HL; lia|].
      unfold stopped. destruct n as [|n]; [reflexivity|]. cbn [length seq map app firstn qexec].
      unfold p_add_step at 1, on_node. fold ns. rewrite En. cbn [nth_error].
      destruct (@node_dims 0 x) as [HxK HxB]; [now rewrite En|]. rewrite HR by assumption. reflexivity.
Qed.
End nonlinear.

Lemma ct_add_added m S_ C_ T f m1 : ct_add_data m S_ C_ T f = Ok m1 -> exists d, m1 = cm_with_data m (cm_data m ++ [d]) /\
  cd_S d = tv_at S_ /\ cd_T d = T /\ tv_dims S_ = [cd_N d].
Proof.
  intros E. assert (Ha : acceptable (cm_K m) S_ C_ T f).
  { destruct (Classical_Prop.classic (acceptable (cm_K m) S_ C_ T f)) as [H|H]; [exact H|].
    destruct (proj2 (C78_add_data_accepts m S_ C_ T f) H) as (e & E'). congruence. }
  destruct (proj1 (C78_add_data_accepts m S_ C_ T f) Ha) as (d & E' & Ed & _ & HT & _).
  unfold ct_add_data in E. apply bindr_ok in E as (? & _ & E). apply bindr_ok in E as (n & En & E).
  repeat (apply bindr_ok in E as (? & _ & E)). injection E as <-.
  rewrite Ed in En. cbn [py_len] in En. injection En as <-. eexists. split; [reflexivity|]. cbn [cd_S cd_T cd_N]. auto.
Qed.
Lemma cm_pop m d : cm_with_data (cm_with_data m (cm_data m ++ [d])) (removelast (cm_data (cm_with_data m (cm_data m ++ [d])))) = m.
Proof. cbn [cm_data cm_with_data cm_set]. rewrite removelast_last. destruct m; reflexivity. Qed.

(** The assignment lists, run to the end, are the calls modelled elsewhere as functions. *)
Theorem C107_complete_queries :
  (forall m s, snd (qexec (s_heldout_steps s) m) = snd (s_heldout m s) /\
     match fst (s_heldout m s), fst (qexec (s_heldout_steps s) m) with Ok _, Ok _ => True | Raise e, Raise e' => e = e' | _, _ => False end) /\
  (forall order m S_ C_ T f, snd (qexec (ct_heldout_steps S_ C_ T f) m) = snd (ct_heldout order m S_ C_ T f)) /\
  (forall p s f, p_shape p -> stopped (length (p_heldout_steps p s f)) (p_heldout_steps p s f) p = fst (p_heldout p s f)) /\
  (forall p, stopped (length (p_copy_steps p)) (p_copy_steps p) p = fst (p_copy_sample p)).
Proof.
  split; [|split; [|split]].
  - intros m s. unfold s_heldout, s_heldout_steps. cbn [qexec]. destruct (s_add_data m s None None) as [m1|e]; cbn [fst snd]; [|auto].
    destruct (s_log_likelihood m1 (One (-1)) KNone) as [v|e]; cbn [bindr fst snd]; auto.
  - intros order m S_ C_ T f. unfold ct_heldout, ct_heldout_steps. cbn [qexec].
    destruct (ct_add_data m S_ C_ T f) as [m1|e] eqn:E; cbn [snd]; [|reflexivity].
    destruct (ct_add_added _ _ _ _ _ E) as (d & -> & _). rewrite cm_pop. cbn [cm_data cm_with_data cm_set].
    rewrite rev_app_distr. cbn [rev app snd]. rewrite rev_involutive. destruct m; reflexivity.
  - intros p s f Hp. rewrite (proj1 (C43_nonlinear_heldout s f Hp)).
    pose proof (@heldout_stopped p s f Hp (length (p_heldout_steps p s f))) as H.
    destruct (p_request (p_K p) (p_B p) (p_L p) (p_bas p) s f) as [d|e] eqn:E; [|exact H]. rewrite H.
    destruct (prep_ok p s f E) as (F & EP & _). unfold p_heldout_steps. rewrite EP, !app_length, !map_length, seq_length. cbn [length].
    destruct (Nat.leb_spec (length (p_nodes p) + (1 + length (p_nodes p))) (length (p_nodes p))); [lia|].
    rewrite Nat.min_r by lia. rewrite mixed_all by (symmetry; apply nodes_app_length). apply p_with_nodes_same.
  - intros p. unfold stopped. rewrite firstn_all. unfold p_copy_steps. rewrite qexec_app.
    assert (L : forall ks, (forall k, In k ks -> exists n, nth_error (p_nodes p) k = Some n) ->
      qexec (flat_map (fun k => p_copy_node_steps k (match nth_error (p_nodes p) k with Some n => n_data n | None => [] end)) ks) p = (Ok tt, p)).
    { induction ks as [|k ks IH]; intros Hk; [reflexivity|]. cbn [flat_map]. rewrite qexec_app.
      destruct (Hk k (or_introl eq_refl)) as (x & Ex). unfold p_copy_node_steps. cbn [qexec].
      unfold on_node at 1. rewrite Ex. cbn [bindr].
      assert (Hs : forall y z l, nth_error l k = Some x -> nth_error (set_nth k (fun _ : nnode => y) l) k = Some y /\
                 set_nth k (fun _ => z) (set_nth k (fun _ => y) l) = set_nth k (fun _ => z) l /\ set_nth k (fun _ => x) l = l).
      { clear. intros y z. induction k as [|k IHk]; intros [|a l] H; try discriminate; cbn in H |- *; [injection H as ->; auto|].
        destruct (IHk l H) as (A1 & A2 & A3). rewrite A2, A3. auto. }
      unfold on_node at 1. cbn [p_nodes p_with_nodes].
      destruct (Hs (n_with_data x []) x (p_nodes p) Ex) as (A1 & A2 & A3). rewrite A1. cbn [bindr].
      replace (n_with_data (n_with_data x []) (n_data x)) with x by (destruct x; reflexivity). rewrite A2, A3.
      replace (p_with_nodes (p_with_nodes p (set_nth k (fun _ => n_with_data x []) (p_nodes p))) (p_nodes p)) with p by (destruct p; reflexivity).
      apply IH. intros k' H'. apply Hk. now right. }
    rewrite L.
    + cbn [qexec snd fst p_copy_sample]. destruct p; reflexivity.
    + intros k Hk. apply in_seq in Hk. destruct (nth_error (p_nodes p) k) eqn:E; [eauto|]. apply nth_error_None in E. lia.
Qed.
Print Assumptions C107_complete_queries.

Lemma mixed_nth_in : forall j (a b : list nnode) k, length a = length b ->
  nth_error (mixed_nodes j a b) k = nth_error a k \/ nth_error (mixed_nodes j a b) k = nth_error b k.
Proof.
  unfold mixed_nodes. induction j as [|j IH]; intros [|y a] [|z b] k E; try discriminate; auto.
  cbn in E. injection E as E. destruct k as [|k]; cbn [firstn skipn app nth_error]; [auto|]. now apply IH.
Qed.
Lemma stopped_data p s f n : p_shape p -> exists nodes, stopped n (p_heldout_steps p s f) p = p_with_nodes p nodes /\
  forall k x, nth_error (p_nodes p) k = Some x -> exists y, nth_error nodes k = Some y /\
    (y = x \/ exists e, y = n_with_data x (n_data x ++ [e]) /\ nd_S e = (fun t => sv_at s t k)).
Proof.
  intros Hp. pose proof (@heldout_stopped p s f Hp n) as H.
  destruct (p_request (p_K p) (p_B p) (p_L p) (p_bas p) s f) as [d|e] eqn:E.
  - eexists. split; [exact H|]. intros k x Hx.
    destruct (prep_ok p s f E) as (F & _ & _ & _ & _ & HS).
    assert (Ha : nth_error (nodes_app d (p_nodes p) 0) k = Some (n_with_data x (n_data x ++ [pd_col k d]))) by exact (nodes_app_nth d _ k 0 Hx).
    assert (Hd : nd_S (pd_col k d) = (fun t => sv_at s t k)) by (cbn [pd_col nd_S]; now rewrite HS).
    destruct (Nat.leb n (length (p_nodes p))).
    + destruct (mixed_nth_in n (nodes_app d (p_nodes p) 0) (p_nodes p) k (nodes_app_length d _ 0)) as [Q|Q]; rewrite Q; [rewrite Ha|rewrite Hx]; eexists; (split; [reflexivity|]); eauto.
    + match goal with |- context [mixed_nodes ?j ?a ?b] => destruct (mixed_nth_in j a b k (eq_sym (nodes_app_length d _ 0))) as [Q|Q] end; rewrite Q; [rewrite Hx|rewrite Ha]; eexists; (split; [reflexivity|]); eauto.
  - exists (p_nodes p). split; [rewrite H; symmetry; apply p_with_nodes_same|]. intros k x Hx. eauto.
Qed.

(** Interrupted after any number of assignments, a held-out evaluation leaves the model as it was, or with exactly the held-out
    data set appended; no parameter and no older data set has changed.  In a nonlinear process every node is, separately, in one
    of these two states. *)
Theorem C107_heldout_partial :
  (forall m s n, let m' := stopped n (s_heldout_steps s) m in m' = m \/ s_added m s m') /\
  (forall m S_ C_ T f n, let m' := stopped n (ct_heldout_steps S_ C_ T f) m in
     m' = m \/ exists d, m' = cm_with_data m (cm_data m ++ [d]) /\ cd_S d = tv_at S_ /\ cd_T d = T /\ tv_dims S_ = [cd_N d]) /\
  (forall p s f n, p_shape p -> exists nodes, stopped n (p_heldout_steps p s f) p = p_with_nodes p nodes /\
     forall k x, nth_error (p_nodes p) k = Some x -> exists y, nth_error nodes k = Some y /\
       (y = x \/ exists e, y = n_with_data x (n_data x ++ [e]) /\ nd_S e = (fun t => sv_at s t k))).
Proof.
  split; [|split; [|intros; now apply stopped_data]].
  - intros m s n m'. subst m'. unfold stopped, s_heldout_steps. destruct n as [|n]; [left; reflexivity|]. cbn [firstn qexec].
    destruct (s_add_data m s None None) as [m1|e] eqn:E; [|left; reflexivity]. pose proof (s_add_added _ _ E) as Ha.
    destruct n as [|n]; [right; exact Ha|]. cbn [firstn qexec].
    destruct (s_log_likelihood m1 (One (-1)) KNone) as [v|e]; cbn [bindr]; [|right; exact Ha].
    destruct n as [|n]; [right; exact Ha|]. cbn [firstn qexec]. rewrite (s_pop_added Ha). left. destruct n; reflexivity.
  - intros m S_ C_ T f n m'. subst m'. unfold stopped, ct_heldout_steps. destruct n as [|n]; [left; reflexivity|]. cbn [firstn qexec].
    destruct (ct_add_data m S_ C_ T f) as [m1|e] eqn:E; [|left; reflexivity]. destruct (ct_add_added _ _ _ _ _ E) as (d & -> & H).
    destruct n as [|n]; [right; exists d; auto|]. cbn [firstn qexec]. rewrite cm_pop. left. destruct n; reflexivity.
Qed.
Print Assumptions C107_heldout_partial.

(** So over any history of interrupted held-out evaluations the parameters and the data sets already there stay, in place; only
    held-out data sets can have been added, at most one per interrupted call. *)
Theorem C107_heldout_histories_partial :
  (forall h m, exists extra, s_heldout_history h m = sm_with_data m (sm_data m ++ extra) /\ (length extra <= length h)%nat /\
     forall d, In d extra -> exists s n, In (s, n) h /\ sd_S d = sv_at s) /\
  (forall h m, exists extra, ct_heldout_history h m = cm_with_data m (cm_data m ++ extra) /\ (length extra <= length h)%nat /\
     forall d, In d extra -> exists S_ C_ T f n, In ((S_, C_), (T, f), n) h /\ cd_S d = tv_at S_ /\ cd_T d = T).
Proof.
  split.
  - induction h as [|[s n] h IH]; intros m.
    + exists []. rewrite app_nil_r. split; [symmetry; apply sm_with_data_same|]. split; [cbn; lia|intros d []].
    + cbn [s_heldout_history]. destruct (IH (stopped n (s_heldout_steps s) m)) as (ex & E & L & Hin). rewrite E.
      destruct (proj1 C107_heldout_partial m s n) as [Q|(d & Hd & _ & Q)]; cbv zeta in Q; rewrite Q.
      * exists ex. split; [reflexivity|]. split; [cbn; lia|]. intros d Hd. destruct (Hin d Hd) as (s' & n' & H1 & H2). exists s', n'. split; [now right|exact H2].
      * exists (d :: ex). cbn [sm_data sm_with_data]. rewrite <- app_assoc. split; [reflexivity|]. split; [cbn; lia|].
        intros d' [<-|Hd']; [exists s, n; split; [now left|exact Hd]|]. destruct (Hin d' Hd') as (s' & n' & H1 & H2). exists s', n'. split; [now right|exact H2].
  - induction h as [|[[[S_ C_] [T f]] n] h IH]; intros m.
    + exists []. rewrite app_nil_r. split; [destruct m; reflexivity|]. split; [cbn; lia|intros d []].
    + cbn [ct_heldout_history]. destruct (IH (stopped n (ct_heldout_steps S_ C_ T f) m)) as (ex & E & L & Hin). rewrite E.
      destruct (proj1 (proj2 C107_heldout_partial) m S_ C_ T f n) as [Q|(d & Q & Hd & HT & _)]; cbv zeta in Q; rewrite Q.
      * exists ex. split; [reflexivity|]. split; [cbn; lia|]. intros d Hd. destruct (Hin d Hd) as (s' & c' & t' & f' & n' & H1 & H2).
        exists s', c', t', f', n'. split; [now right|exact H2].
      * exists (d :: ex). cbn [cm_data cm_with_data cm_set]. rewrite <- app_assoc. split; [reflexivity|]. split; [cbn; lia|].
        intros d' [<-|Hd']; [exists S_, C_, T, f, n; split; [now left|auto]|]. destruct (Hin d' Hd') as (s' & c' & t' & f' & n' & H1 & H2).
        exists s', c', t', f', n'. split; [now right|exact H2].
Qed.
Print Assumptions C107_heldout_histories_partial.

(** Interrupted, copy_sample leaves the model as it was or without data; never with other parameters. *)
Theorem C107_copy_partial :
  (forall m n, let m' := stopped n (copy_steps sm_with_data (sm_data m)) m in m' = m \/ m' = sm_with_data m []) /\
  (forall m n, let m' := stopped n (copy_steps with_data (dm_data m)) m in m' = m \/ m' = with_data m []) /\
  (forall m n, let m' := stopped n (copy_steps cm_with_data (cm_data m)) m in m' = m \/ m' = cm_with_data m []).
Proof.
  split; [|split]; intros m n m'; subst m'; unfold stopped, copy_steps; destruct n as [|[|[|n]]]; cbn [firstn qexec snd]; auto;
    left; destruct n; destruct m; reflexivity.
Qed.
Print Assumptions C107_copy_partial.

(** The promise that a query leaves the model unchanged does not survive an interruption, on any model: the held-out recording
    becomes training data, a copy loses every data set, and the nodes of a nonlinear process disagree about how many data sets
    there are. *)
Theorem C107_unchanged_refuted :
  (forall m s m1, s_add_data m s None None = Ok m1 -> exists n, stopped n (s_heldout_steps s) m = m1 /\ m1 <> m) /\
  (forall m S_ C_ T f m1, ct_add_data m S_ C_ T f = Ok m1 -> exists n, stopped n (ct_heldout_steps S_ C_ T f) m = m1 /\ m1 <> m) /\
  (forall m, sm_data m <> [] -> exists n, sm_data (stopped n (copy_steps sm_with_data (sm_data m)) m) = []) /\
  (forall m, dm_data m <> [] -> exists n, dm_data (stopped n (copy_steps with_data (dm_data m)) m) = []) /\
  (forall m, cm_data m <> [] -> exists n, cm_data (stopped n (copy_steps cm_with_data (cm_data m)) m) = []) /\
  (forall p s f d, p_shape p -> (2 <= p_K p)%nat -> p_request (p_K p) (p_B p) (p_L p) (p_bas p) s f = Ok d ->
     (exists n0 n1, nth_error (p_nodes p) 0 = Some n0 /\ nth_error (p_nodes p) 1 = Some n1 /\ length (n_data n0) = length (n_data n1)) ->
     exists n n0 n1, let q := stopped n (p_heldout_steps p s f) p in
       nth_error (p_nodes q) 0 = Some n0 /\ nth_error (p_nodes q) 1 = Some n1 /\ length (n_data n0) <> length (n_data n1)).
Proof.
  split; [|split; [|split; [|split; [|split]]]].
  - intros m s m1 E. exists 1%nat. unfold stopped. cbn [firstn s_heldout_steps qexec]. rewrite E. split; [reflexivity|].
    destruct (s_add_added _ _ E) as (d & _ & _ & ->). intros H. apply (f_equal (fun x => length (sm_data x))) in H.
    cbn [sm_data sm_with_data] in H. rewrite app_length in H. cbn in H. lia.
  - intros m S_ C_ T f m1 E. exists 1%nat. unfold stopped. cbn [firstn ct_heldout_steps qexec]. rewrite E. split; [reflexivity|].
    destruct (ct_add_added _ _ _ _ _ E) as (d & -> & _). intros H. apply (f_equal (fun x => length (cm_data x))) in H.
    cbn [cm_data cm_with_data cm_set] in H. rewrite app_length in H. cbn in H. lia.
  - intros m _. exists 1%nat. reflexivity.
  - intros m _. exists 1%nat. reflexivity.
  - intros m _. exists 1%nat. reflexivity.
  - intros p s f d Hp HK E (n0 & n1 & E0 & E1 & EL).
    exists 1%nat, (n_with_data n0 (n_data n0 ++ [pd_col 0 d])), n1. cbv zeta.
    pose proof (@heldout_stopped p s f Hp 1) as H. rewrite E in H. destruct Hp as [HL _].
    destruct (Nat.leb_spec 1 (length (p_nodes p))); [|lia]. rewrite H. cbn [p_nodes p_with_nodes].
    destruct (p_nodes p) as [|x [|y rest]]; try discriminate. cbn in E0, E1. injection E0 as ->. injection E1 as ->.
    cbn [nodes_app mixed_nodes firstn skipn app nth_error n_data n_with_data]. split; [reflexivity|]. split; [reflexivity|].
    rewrite app_length. cbn. lia.
Qed.
Print Assumptions C107_unchanged_refuted.

Example C107_nonvacuous : exists m1, s_add_data ex_sm (sval_of 3 2 ex_S) None None = Ok m1 /\ length (sm_data m1) = 1%nat.
Proof.
  destruct (@s_add_data_ok ex_sm 3 ex_S ltac:(cbn; lia) ltac:(cbn; lia) ltac:(cbn; lia) ltac:(cbn; lia) ex_counts None ltac:(discriminate)) as (m1 & E1).
  exists m1. split; [exact E1|]. destruct (s_add_added _ _ E1) as (d & _ & _ & ->). reflexivity.
Qed.
