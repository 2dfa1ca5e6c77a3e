(** * Props_Heap: aliasing properties C29 (purity), C40, C41, C42, C49. *)
From Verif Require Import Prelude Arrays M_Heap L_Heap Props_Network.
From Coq Require Import String FunctionalExtensionality.
Set Implicit Arguments.
Open Scope R_scope.
Open Scope string_scope.

(** ** C40: copy_sample

    [observe h l p] is what a program sees at the end of the attribute path [p] from object [l].
    For every later history of updates of the original (any sequence of attribute rebindings, in-place
    array writes and list appends, Gibbs or other): every path of the copy that does not go through a
    data list shows what it showed on the original when the copy was taken, and the copy has no data. *)
Theorem C40_copy_is_snapshot :
  forall h m h' c, heap_wf h -> copy_sample h m h' c ->
  forall ops h'', exec_all ops h' m = Ok h'' ->
  (forall p, ~ In (Fld "data_list") p -> observe h'' c p = observe h m p) /\
  observe h'' c [Fld "data_list"] = Some (SLst 0).
Proof.
  intros h m h' c Hw Hc ops h'' Hx.
  destruct (copy_unfold Hw Hc) as (fs & dl & items & h3 & h4 & rho & Em & Ed & El & W3 & En & Hsame & Em3 & EN & ESN & Hm & -> & R1 & R2 & R4 & R5 & R6 & ->).
  set (prot := fun y => (h_next h3 <= y < h_next h4)%nat).
  assert (G : guarded prot h4 h4).
  { constructor; [reflexivity|unfold prot; lia|]. intros x o y Ex Hx' Hy.
    destruct (Nat.lt_ge_cases x (h_next h3)) as [Hlt|Hge].
    - rewrite R4 in Ex by exact Hlt. destruct W3 as [_ W3]. specialize (W3 x o y Ex Hy). unfold prot. lia.
    - unfold prot in Hx'. rewrite R6 in Ex by lia. discriminate. }
  assert (Hmp : ~ prot m) by (unfold prot; lia).
  assert (E4 : h_at h4 m = Some (Rec (set_field fs "data_list" (VRef (S (h_next h)))))) by (rewrite R4 by lia; exact Em3).
  assert (G' : guarded prot h4 (store h4 m (Rec (set_field (set_field fs "data_list" (VRef (S (h_next h)))) "data_list" (VRef (h_next h)))))).
  { apply guarded_store; [exact G|exact Hmp|]. intros y Hy.
    apply set_field_refers in Hy as [(l & [= <-] & ->)|Hy]; [unfold prot; lia|]. exact (gd_ref G _ _ E4 Hmp Hy). }
  assert (G'' := @guarded_exec_all prot h4 m ops _ h'' G' Hmp Hx).
  assert (Hcp : forall x, reach h3 m x -> h_at h'' (rho x) = option_map (rename rho) (h_at h3 x)).
  { intros x Hr. rewrite (gd_same G'') by (apply R2; exact Hr). auto. }
  assert (Hobs := @rename_observe rho h3 m h'' Hcp).
  split.
  - intros p Hp. rewrite Hobs. unfold observe.
    assert (Hwalk : forall p v, ~ In (Fld "data_list") p -> (forall y, v = VRef y -> (y < h_next h)%nat) ->
       walk h3 v p = walk h v p /\ (forall y, walk h v p = Some (VRef y) -> (y < h_next h)%nat)).
    { clear p Hp. induction p as [|s p IH]; intros v Hp Hv; cbn [walk]; [split; [reflexivity|intros y [= ->]; auto]|].
      assert (Es : step_from h3 v s = step_from h v s).
      { destruct v as [| |x]; try reflexivity. specialize (Hv x eq_refl). cbn [step_from].
        destruct (Nat.eq_dec x m) as [->|Hn]; [|now rewrite Hsame]. rewrite Em3, Em. destruct s as [f|i]; [|reflexivity].
        unfold set_field. destruct (String.eqb_spec f "data_list") as [->|_]; [|reflexivity]. destruct Hp. now left. }
      rewrite Es. destruct (step_from h v s) as [u|] eqn:E; [|split; [reflexivity|discriminate]].
      apply IH; [intros H; apply Hp; now right|]. intros y ->. destruct v as [| |x]; try discriminate. cbn [step_from] in E.
      destruct (h_at h x) as [o|] eqn:Ex; [|discriminate]. destruct Hw as [_ Hw]. apply (Hw x o y Ex).
      destruct o as [fs'| |vs]; destruct s as [f|i]; try discriminate; cbn; [exists f; exact E|eapply nth_error_In; eauto]. }
    destruct (Hwalk p (VRef m) Hp) as [-> Hlt]; [intros y [= <-]; exact Hm|].
    destruct (walk h (VRef m) p) as [v|]; [|reflexivity]. destruct v as [| |y]; try reflexivity. specialize (Hlt y eq_refl). cbn.
    destruct (Nat.eq_dec y m) as [->|Hn]; [now rewrite Em3, Em|now rewrite Hsame].
  - rewrite Hobs. unfold observe. cbn [walk step_from]. rewrite Em3. unfold set_field. cbn. now rewrite ESN.
Qed.
Print Assumptions C40_copy_is_snapshot.

(** The original shows the same along every path, data included, and its data sets are the same objects. *)
Theorem C40_original_kept :
  forall h m h' c, heap_wf h -> copy_sample h m h' c ->
  (forall p, observe h' m p = observe h m p) /\
  (forall i, walk h' (VRef m) [Fld "data_list"; Idx i] = walk h (VRef m) [Fld "data_list"; Idx i]).
Proof.
  intros h m h' c Hw Hc.
  destruct (copy_unfold Hw Hc) as (fs & dl & items & h3 & h4 & rho & Em & Ed & El & W3 & En & Hsame & Em3 & EN & ESN & Hm & -> & R1 & R2 & R4 & R5 & R6 & ->).
  assert (Hdl := @wf_dom h _ _ Hw El).
  set (h' := store h4 m _).
  assert (A1 : forall y, (y < h_next h)%nat -> y <> m -> h_at h' y = h_at h y).
  { intros y Hy Hn. unfold h'. rewrite store_at. destruct (Nat.eqb_spec y m); [contradiction|]. rewrite R4 by lia. auto. }
  assert (A2 : exists fs', h_at h' m = Some (Rec fs') /\ (forall f, f <> "data_list" -> fs' f = fs f) /\ fs' "data_list" = Some (VRef (h_next h))).
  { unfold h'. rewrite store_at, Nat.eqb_refl. eexists. split; [reflexivity|]. split; [|reflexivity]. intros f Hf. unfold set_field.
    destruct (String.eqb_spec f "data_list"); [contradiction|reflexivity]. }
  destruct A2 as (fs' & Em' & Hf & Hfd).
  assert (A3 : h_at h' (h_next h) = Some (Lst items)).
  { unfold h'. rewrite store_at. destruct (Nat.eqb_spec (h_next h) m); [lia|]. rewrite R4 by lia. exact EN. }
  assert (Hndl : dl <> m) by (intros ->; congruence).
  clearbody h'.
  set (sim := fun v v' => (v = v' /\ forall y, v = VRef y -> (y < h_next h)%nat) \/ (v = VRef dl /\ v' = VRef (h_next h))).
  assert (Hold : forall x o s u, h_at h x = Some o -> step_from h (VRef x) s = Some u -> forall y, u = VRef y -> (y < h_next h)%nat).
  { intros x o s u Ex E y ->. destruct Hw as [_ Hw]. apply (Hw x o y Ex). cbn [step_from] in E. rewrite Ex in E.
    destruct o as [fs2| |vs]; destruct s as [f|i]; try discriminate; cbn; [exists f; exact E|eapply nth_error_In; eauto]. }
  assert (Hstep : forall v v' s, sim v v' -> match step_from h v s, step_from h' v' s with
            | Some u, Some u' => sim u u' | None, None => True | _, _ => False end).
  { intros v v' s [[<- Hv]|[-> ->]].
    - destruct v as [| |x]; try exact I. specialize (Hv x eq_refl).
      destruct (h_at h x) as [o|] eqn:Ex; [|exfalso; destruct Hw as [Hw _]; now apply (Hw x) in Hv].
      destruct (Nat.eq_dec x m) as [->|Hn].
      + rewrite Em in Ex. injection Ex as <-. cbn [step_from]. rewrite Em, Em'. destruct s as [f|i]; [|exact I].
        destruct (String.eqb_spec f "data_list") as [->|Hne]; [rewrite Ed, Hfd; right; auto|].
        rewrite Hf by exact Hne. destruct (fs f) as [u|] eqn:Eu; [|exact I]. left. split; [reflexivity|].
        apply (Hold m (Rec fs) (Fld f) u Em). cbn [step_from]. now rewrite Em.
      + assert (Es : step_from h' (VRef x) s = step_from h (VRef x) s) by (cbn [step_from]; now rewrite A1).
        rewrite Es. destruct (step_from h (VRef x) s) as [u|] eqn:Eu; [|exact I]. left. split; [reflexivity|eapply Hold; eauto].
    - assert (Es : step_from h' (VRef (h_next h)) s = step_from h (VRef dl) s) by (cbn [step_from]; now rewrite A3, El).
      rewrite Es. destruct (step_from h (VRef dl) s) as [u|] eqn:Eu; [|exact I]. left. split; [reflexivity|eapply Hold; eauto]. }
  assert (Hwalk : forall p v v', sim v v' -> match walk h v p, walk h' v' p with Some u, Some u' => sim u u' | None, None => True | _, _ => False end).
  { induction p as [|s p IH]; intros v v' Hs; cbn [walk]; [exact Hs|]. specialize (Hstep v v' s Hs).
    destruct (step_from h v s), (step_from h' v' s); try contradiction; [apply IH; exact Hstep|exact I]. }
  assert (Hmm : sim (VRef m) (VRef m)) by (left; split; [reflexivity|intros y [= <-]; exact Hm]).
  split.
  - intros p. unfold observe. specialize (Hwalk p _ _ Hmm).
    destruct (walk h (VRef m) p) as [u|], (walk h' (VRef m) p) as [u'|]; try contradiction; [|reflexivity].
    destruct Hwalk as [[<- Hu]|[-> ->]].
    + destruct u as [| |y]; try reflexivity. specialize (Hu y eq_refl). cbn.
      destruct (Nat.eq_dec y m) as [->|Hn]; [now rewrite Em, Em'|now rewrite A1].
    + cbn. now rewrite A3, El.
  - intros i. cbn [walk step_from]. rewrite Em', Em, Hfd, Ed. cbn [step_from]. now rewrite A3, El.
Qed.
Print Assumptions C40_original_kept.

(** Symmetrically, no history of updates of the copy changes what the original shows. *)
Theorem C40_copy_updates_leave_original :
  forall h m h' c, heap_wf h -> copy_sample h m h' c ->
  forall ops h'', exec_all ops h' c = Ok h'' -> forall p, observe h'' m p = observe h m p.
Proof.
  intros h m h' c Hw Hc ops h'' Hx p.
  rewrite <- (proj1 (C40_original_kept Hw Hc) p).
  destruct (copy_unfold Hw Hc) as (fs & dl & items & h3 & h4 & rho & Em & Ed & El & W3 & En & Hsame & Em3 & EN & ESN & Hm & -> & R1 & R2 & R4 & R5 & R6 & E').
  set (prot := fun y => (y < h_next h3)%nat).
  set (img := fun y => exists x, reach h3 m x /\ y = rho x).
  set (pr := fun y => (y < h_next h4)%nat /\ ~ img y).
  assert (E4 : h_at h4 m = Some (Rec (set_field fs "data_list" (VRef (S (h_next h)))))) by (rewrite R4 by lia; exact Em3).
  assert (Himg : forall y, img y -> (h_next h3 <= y < h_next h4)%nat) by (intros y (x & Hr & ->); auto).
  assert (G : guarded pr h' h').
  { constructor; [reflexivity|subst h'; intros y [Hy _]; exact Hy|]. intros x o y Ex Hxp Hy.
    assert (Hxi : img x).
    { destruct (Nat.lt_ge_cases x (h_next h4)) as [Hlt|Hge].
      - destruct (Classical_Prop.classic (img x)); [auto|]. destruct Hxp. split; auto.
      - subst h'. rewrite store_at in Ex. destruct (Nat.eqb_spec x m); [lia|]. rewrite R6 in Ex by lia. discriminate. }
    destruct Hxi as (x0 & Hr & ->). assert (Hr2 := R2 x0 Hr).
    subst h'. rewrite store_at in Ex. destruct (Nat.eqb_spec (rho x0) m); [lia|]. rewrite R1 in Ex by exact Hr.
    destruct (h_at h3 x0) as [o0|] eqn:E0; [|discriminate]. injection Ex as <-.
    intros [_ Hni]. apply Hni. clear - Hy Hr E0.
    assert (H : exists y0, y = rho y0 /\ refers o0 y0).
    { destruct o0 as [f0| |vs]; cbn in Hy.
      - destruct Hy as [f Hf]. destruct (f0 f) as [[| |y0]|] eqn:Ef; try discriminate. injection Hf as <-. exists y0. split; [reflexivity|]. exists f; exact Ef.
      - contradiction.
      - apply in_map_iff in Hy as ([| |y0] & [= <-] & Hin). exists y0. split; [reflexivity|exact Hin]. }
    destruct H as (y0 & -> & Href). exists y0. split; [|reflexivity]. eapply reach_step; eauto. }
  assert (Hcp : ~ pr (rho m)). { intros [_ Hn]. apply Hn. exists m. split; [constructor|reflexivity]. }
  assert (G'' := @guarded_exec_all pr h' (rho m) ops h' h'' G Hcp Hx).
  assert (Hs : forall y, (y < h_next h3)%nat -> h_at h'' y = h_at h' y).
  { intros y Hy. apply (gd_same G''). split; [lia|]. intros Hi. apply Himg in Hi. lia. }
  assert (W' : forall x o y, (x < h_next h3)%nat -> h_at h' x = Some o -> refers o y -> (y < h_next h3)%nat).
  { intros x o y Hlt Ex Hy. subst h'. rewrite store_at in Ex. destruct (Nat.eqb_spec x m) as [->|Hn].
    - injection Ex as <-. apply set_field_refers in Hy as [(l & [= <-] & ->)|Hy]; [lia|].
      destruct W3 as [_ W3]. exact (W3 m _ y Em3 Hy).
    - rewrite R4 in Ex by exact Hlt. destruct W3 as [_ W3]. exact (W3 x o y Ex Hy). }
  assert (Hwalk : forall q v, (forall y, v = VRef y -> (y < h_next h3)%nat) ->
       walk h'' v q = walk h' v q /\ (forall y, walk h' v q = Some (VRef y) -> (y < h_next h3)%nat)).
  { induction q as [|s q IH]; intros v Hv; cbn [walk]; [split; [reflexivity|intros y [= ->]; auto]|].
    assert (Es : step_from h'' v s = step_from h' v s).
    { destruct v as [| |x]; try reflexivity. cbn [step_from]. now rewrite Hs by (apply Hv; reflexivity). }
    rewrite Es. destruct (step_from h' v s) as [u|] eqn:E; [|split; [reflexivity|discriminate]]. apply IH. intros y ->.
    destruct v as [| |x]; try discriminate. cbn [step_from] in E. destruct (h_at h' x) as [o|] eqn:Ex; [|discriminate].
    apply (W' x o y (Hv x eq_refl) Ex).
    destruct o as [fs2| |vs]; destruct s as [f|i]; try discriminate; cbn; [exists f; exact E|eapply nth_error_In; eauto]. }
  unfold observe. destruct (Hwalk p (VRef m)) as [-> Hlt]; [intros y [= <-]; lia|].
  destruct (walk h' (VRef m) p) as [[| |y]|]; try reflexivity. cbn. now rewrite Hs by auto.
Qed.
Print Assumptions C40_copy_updates_leave_original.

(** copy_sample can be called on every model object that has a data list. *)
Theorem C40_copy_exists :
  forall h m fs dl items, heap_wf h -> h_at h m = Some (Rec fs) -> fs "data_list" = Some (VRef dl) -> h_at h dl = Some (Lst items) ->
  exists h' c, copy_sample h m h' c.
Proof.
  intros h m fs dl items Hw Em Ed El. assert (Hm := @wf_dom h _ _ Hw Em).
  destruct (alloc h (Lst items)) as [h1 dl2] eqn:A1. destruct (alloc h1 (Lst [])) as [h2 e] eqn:A2.
  assert (W1 : heap_wf h1). { change h1 with (fst (h1, dl2)). rewrite <- A1. apply wf_alloc; [exact Hw|]. intros y Hy. destruct Hw as [_ H2]. eapply H2; eauto. }
  assert (W2 : heap_wf h2). { change h2 with (fst (h2, e)). rewrite <- A2. apply wf_alloc; [exact W1|intros y []]. }
  pose proof A1 as A1'. injection A1' as <- <-. pose proof A2 as A2'. cbn [alloc h_next h_at] in A2'. injection A2' as <- <-.
  set (h2 := {| h_next := _; h_at := _ |}) in W2 |- *.
  assert (E2 : h_at h2 m = Some (Rec fs)). { cbn. destruct (Nat.eqb_spec m (S (h_next h))); [lia|]. destruct (Nat.eqb_spec m (h_next h)); [lia|exact Em]. }
  assert (S3 := @set_attr_ok h2 m "data_list" (VRef (S (h_next h))) fs E2). set (h3 := store h2 m _) in S3.
  assert (W3 : heap_wf h3). { eapply wf_set_attr; [exact W2| |exact S3]. intros y [= <-]. cbn. lia. }
  destruct (@deepcopy_exists h3 m W3) as (h4 & c & HD); [cbn; lia|].
  assert (E4 : h_at h4 m = h_at h3 m) by (destruct HD as (rho & _ & _ & _ & _ & R4 & _); apply R4; cbn; lia).
  assert (E4' : h_at h4 m = Some (Rec (set_field fs "data_list" (VRef (S (h_next h)))))) by (rewrite E4; cbn; now rewrite Nat.eqb_refl).
  eexists _, c. unfold copy_sample. exists fs, dl, items, h3, h4. split; [exact Em|]. split; [exact Ed|]. split; [exact El|].
  cbn [alloc h_next h_at]. split; [exact S3|]. split; [exact HD|]. apply set_attr_ok; exact E4'.
Qed.
Print Assumptions C40_copy_exists.

(** ** C41: get_parameters

    The six values are the model's own objects.  The updates that write in place -- impulse responses, the serial
    adjacency update, the block model's p and v -- overwrite the arrays the caller holds. *)
Definition inplace_of (i : nat) (d : nat -> R) : option hop :=
  match i with
  | 0%nat => Some (op_A_serial d)
  | 2%nat => Some (op_g d)
  | 4%nat => Some (op_p d)
  | 5%nat => Some (op_v d)
  | _ => None
  end.
Lemma read_all_nth h m ps : forall vs, read_all h m ps = Ok vs -> forall i p, nth_error ps i = Some p ->
  exists v, nth_error vs i = Some v /\ walk h (VRef m) p = Some v.
Proof.
  induction ps as [|q ps IH]; intros vs E i p; [now destruct i|]. cbn [read_all] in E.
  destruct (walk h (VRef m) q) as [v|] eqn:Ew; [|discriminate]. apply bindr_ok in E as (ws & Er & E). injection E as <-.
  destruct i as [|i]; cbn [nth_error]; [intros [= <-]; eauto|]. apply IH. exact Er.
Qed.
Theorem C41_snapshot_refuted :
  forall h m ps i l dims x d o h',
  get_parameters h m = Ok ps -> nth_error ps i = Some (VRef l) -> h_at h l = Some (Arr dims x) ->
  inplace_of i d = Some o -> exec o h m = Ok h' -> look h' (VRef l) = Some (SArr dims d).
Proof.
  intros h m ps i l dims x d o h' Hp Hi Hl Ho Hx. unfold get_parameters in Hp.
  assert (Hn := @read_all_nth h m param_paths ps Hp i).
  assert (H : exists p, o = Inplace p d /\ nth_error param_paths i = Some p).
  { destruct i as [|[|[|[|[|[|i]]]]]]; try discriminate; injection Ho as <-; eexists; (split; [reflexivity|reflexivity]). }
  destruct H as (p & -> & Ep). destruct (Hn p Ep) as (v & Ev & Ew). rewrite Hi in Ev. injection Ev as <-.
  cbn [exec] in Hx. rewrite Ew, Hl in Hx. injection Hx as <-. cbn. now rewrite Nat.eqb_refl.
Qed.
Print Assumptions C41_snapshot_refuted.

(** What does hold: an array that no in-place update targets -- W and lambda0, which the samplers rebind -- keeps its
    contents through every history of Gibbs updates and data additions. *)
Definition inplace_paths : list (list step) :=
  [[Fld "impulse_model"; Fld "g"]; [Fld "weight_model"; Fld "A"]; [Fld "network"; Fld "p"]; [Fld "network"; Fld "v"]; [Fld "network"; Fld "c"]].
Definition not_target (h : heap) (m l : loc) : Prop :=
  (forall p, In p inplace_paths -> walk h (VRef m) p <> Some (VRef l)) /\
  (forall i k, walk h (VRef m) [Fld "data_list"; Idx i; Fld "_Z"; Idx k] <> Some (VRef l)).

Definition voldb (N : nat) (v : val) : Prop := match v with VRef l => (l < N)%nat | _ => True end.
(** [fresh_from N hh v]: v is a number or leads only to objects allocated at or after N, except through `model`. *)
Definition closed_new (N : nat) (hh : heap) : Prop :=
  forall x s u, (N <= x)%nat -> step_from hh (VRef x) s = Some u -> s <> Fld "model" -> match u with VRef y => (N <= y)%nat | _ => True end.
Definition vnew (N : nat) (v : val) : Prop := match v with VRef y => (N <= y)%nat | _ => True end.
Lemma walk_new N hh p : closed_new N hh -> ~ In (Fld "model") p -> forall v, vnew N v -> forall u, walk hh v p = Some u -> vnew N u.
Proof.
  intros Hc. induction p as [|s p IH]; intros Hp v Hv u; cbn [walk]; [intros [= <-]; exact Hv|].
  destruct (step_from hh v s) as [w|] eqn:E; [|discriminate]. apply IH; [intros H; apply Hp; now right|].
  destruct v as [| |x]; try discriminate. apply (Hc x s w Hv E). intros ->. apply Hp. now left.
Qed.

(** Allocations: [ext N h h1]: h1 extends h by objects at or after N whose references (other than `model`) are at or after N. *)
Record ext (h h1 : heap) : Prop := {
  ex_next : (h_next h <= h_next h1)%nat;
  ex_old : forall y, (y < h_next h)%nat -> h_at h1 y = h_at h y;
  ex_wf : heap_wf h1;
  ex_new : closed_new (h_next h) h1 }.
Lemma ext_refl h : heap_wf h -> ext h h.
Proof.
  intros Hw. constructor; auto. intros x s u Hx E. exfalso. cbn in E. destruct (h_at h x) as [o|] eqn:Ex; [|discriminate].
  apply (@wf_dom _ _ _ Hw) in Ex. lia.
Qed.
Lemma ext_alloc h h1 o h2 l : ext h h1 -> (forall y, refers o y -> (y < h_next h1)%nat) ->
  (forall s u, (match o, s with Rec fs, Fld f => fs f | Lst vs, Idx i => nth_error vs i | _, _ => None end) = Some u -> s <> Fld "model" -> vnew (h_next h) u) ->
  alloc h1 o = (h2, l) -> ext h h2 /\ (h_next h <= l < h_next h2)%nat.
Proof.
  intros [E1 E2 E3 E4] Ho Hs A. assert (W := @wf_alloc h1 o E3 Ho). rewrite A in W. cbn [fst] in W. injection A as <- <-.
  split; [|cbn; lia]. constructor; cbn [h_next h_at].
  - lia.
  - intros y Hy. destruct (Nat.eqb_spec y (h_next h1)); [lia|auto].
  - exact W.
  - intros x s u Hx. cbn [step_from h_at]. destruct (Nat.eqb_spec x (h_next h1)) as [->|Hn].
    + intros E Hne. apply (Hs s u); [|exact Hne]. destruct o; destruct s; exact E.
    + intros E Hne. apply (E4 x s u Hx E Hne).
Qed.
Lemma ext_alloc_all h xs : forall h1 h2 vs, ext h h1 -> alloc_all h1 xs = (h2, vs) ->
  ext h h2 /\ (h_next h1 <= h_next h2)%nat /\ forall v, In v vs -> exists l, v = VRef l /\ (h_next h <= l < h_next h2)%nat.
Proof.
  induction xs as [|[d x] xs IH]; intros h1 h2 vs E; cbn [alloc_all]; [intros [= <- <-]; split; [auto|split; [lia|intros v []]]|].
  destruct (alloc h1 (Arr d x)) as [h3 l] eqn:A. destruct (alloc_all h3 xs) as [h4 ws] eqn:A2. intros [= <- <-].
  destruct (@ext_alloc h h1 (Arr d x) h3 l E) as [E3 Hl]; [intros y []|intros s u; destruct s; discriminate|exact A|].
  destruct (IH h3 h4 ws E3 A2) as (E4 & Hn & Hw). injection A as <- <-. cbn in Hn, Hl. split; [exact E4|]. split; [lia|].
  intros v [<-|Hv]; [eexists; split; [reflexivity|lia]|auto].
Qed.
Lemma ext_build h h1 x h2 v : ext h h1 -> build h1 x = (h2, v) -> ext h h2 /\ vnew (h_next h) v /\ voldb (h_next h2) v.
Proof.
  intros E. destruct x as [r|d a|xs]; cbn [build].
  - intros [= <- <-]. split; [exact E|split; exact I].
  - destruct (alloc h1 (Arr d a)) as [h3 l] eqn:A. intros [= <- <-].
    destruct (@ext_alloc h h1 (Arr d a) h3 l E) as [E3 Hl]; [intros y []|intros s u; destruct s; discriminate|exact A|].
    split; [exact E3|]. cbn. lia.
  - destruct (alloc_all h1 xs) as [h3 vs] eqn:A. destruct (alloc h3 (Lst vs)) as [h4 l] eqn:A2. intros [= <- <-].
    destruct (@ext_alloc_all h xs h1 h3 vs E A) as (E3 & _ & Hv).
    destruct (@ext_alloc h h3 (Lst vs) h4 l E3) as [E4 Hl].
    + intros y Hy. destruct (Hv _ Hy) as (l' & [= ->] & H). lia.
    + intros s u Hs _. destruct s as [f|i]; [discriminate|]. apply nth_error_In in Hs. destruct (Hv u Hs) as (l' & -> & H). cbn. lia.
    + exact A2.
    + split; [exact E4|]. cbn. lia.
Qed.
Lemma ext_build_rec h fs : forall h1 acc h2 r, ext h h1 ->
  (forall y, refers (Rec acc) y -> (y < h_next h1)%nat) -> (forall f u, acc f = Some u -> f <> "model" -> vnew (h_next h) u) ->
  build_rec h1 fs acc = (h2, r) ->
  ext h h2 /\ (forall y, refers (Rec r) y -> (y < h_next h2)%nat) /\ (forall f u, r f = Some u -> f <> "model" -> vnew (h_next h) u).
Proof.
  induction fs as [|[f x] fs IH]; intros h1 acc h2 r E Ha Hn; cbn [build_rec]; [intros [= <- <-]; auto|].
  destruct (build h1 x) as [h3 v] eqn:B. destruct (@ext_build h h1 x h3 v E B) as (E3 & Hv & Hv2).
  assert (Hmono : (h_next h1 <= h_next h3)%nat).
  { clear - B E. destruct x as [r|d a|xs]; cbn [build] in B.
    - injection B as <- <-. lia.
    - injection B as <- <-. cbn. lia.
    - destruct (alloc_all h1 xs) as [h4 vs] eqn:A. apply (@ext_alloc_all h xs h1 h4 vs E) in A as (_ & H & _). injection B as <- <-. cbn. lia. }
  apply (IH h3 (set_field acc f v)); [exact E3| |].
  - intros y Hy. apply set_field_refers in Hy as [(l & -> & ->)|Hy]; [exact Hv2|]. specialize (Ha y Hy). lia.
  - intros g u. unfold set_field. destruct (String.eqb_spec g f); [intros [= <-] _; exact Hv|apply Hn].
Qed.

(** Old objects keep their steps or now step to something new; new objects step only to new ones. *)
Record post (h h' : heap) : Prop := {
  po_next : (h_next h <= h_next h')%nat;
  po_wf : heap_wf h';
  po_new : closed_new (h_next h) h';
  po_step : forall x s u, (x < h_next h)%nat -> step_from h' (VRef x) s = Some u -> step_from h (VRef x) s = Some u \/ vnew (h_next h) u }.
Lemma step_lt h x s y : heap_wf h -> step_from h (VRef x) s = Some (VRef y) -> (y < h_next h)%nat.
Proof.
  intros [_ Hw] E. cbn [step_from] in E. destruct (h_at h x) as [o|] eqn:Ex; [|discriminate]. apply (Hw x o y Ex).
  destruct o as [fs2| |vs]; destruct s as [f|i]; try discriminate; cbn; [exists f; exact E|eapply nth_error_In; eauto].
Qed.
Lemma walk_lt h p : heap_wf h -> forall v, voldb (h_next h) v -> forall u, walk h v p = Some u -> voldb (h_next h) u.
Proof.
  intros Hw. induction p as [|s p IH]; intros v Hv u; cbn [walk]; [intros [= <-]; exact Hv|].
  destruct (step_from h v s) as [w|] eqn:E; [|discriminate]. apply IH. destruct v as [| |x]; try discriminate.
  destruct w as [| |y]; try exact I. eapply step_lt; eauto.
Qed.
Lemma post_walk h h' p : heap_wf h -> post h h' -> ~ In (Fld "model") p -> forall v l, voldb (h_next h) v -> (l < h_next h)%nat ->
  walk h' v p = Some (VRef l) -> walk h v p = Some (VRef l).
Proof.
  intros Hw [P1 P2 P3 P4]. induction p as [|s p IH]; intros Hp v l Hv Hl; cbn [walk]; [auto|].
  assert (Hp' : ~ In (Fld "model") p) by (intros H; apply Hp; now right).
  destruct (step_from h' v s) as [w|] eqn:E; [|discriminate]. destruct v as [| |x]; try discriminate. intros Hwk.
  destruct (P4 x s w Hv E) as [E'|Hnew].
  - rewrite E'. apply IH; auto. destruct w as [| |y]; try exact I. eapply step_lt; eauto.
  - pose proof (@walk_new (h_next h) h' p P3 Hp' w Hnew _ Hwk) as H. cbn in H. lia.
Qed.

Lemma exec_post o h m h' : heap_wf h -> (m < h_next h)%nat -> exec o h m = Ok h' -> post h h'.
Proof.
  intros Hw Hm. assert (E0 := ext_refl Hw).
  destruct o as [p f x|p d|p fs]; cbn [exec]; destruct (walk h (VRef m) p) as [[| |l]|] eqn:Ew; try discriminate;
    pose proof (@walk_lt h p Hw (VRef m) Hm _ Ew) as Hl; cbn in Hl.
  - destruct (build h x) as [h1 v] eqn:B. destruct (@ext_build h h x h1 v E0 B) as ([E1 E2 E3 E4] & Hv & Hv2).
    unfold set_attr. rewrite E2 by exact Hl. destruct (h_at h l) as [[fs| |]|] eqn:El; try discriminate. intros [= <-]. constructor.
    + exact E1.
    + apply (@wf_set_attr h1 l f v); [exact E3| |unfold set_attr; rewrite E2 by exact Hl; now rewrite El].
      intros y ->. exact Hv2.
    + intros y s u Hy. cbn [step_from]. rewrite store_at. destruct (Nat.eqb_spec y l); [lia|]. apply (E4 y s u Hy).
    + intros y s u Hy. cbn [step_from]. rewrite store_at. destruct (Nat.eqb_spec y l) as [->|_].
      * rewrite El. destruct s as [g|i]; [|discriminate]. unfold set_field. destruct (String.eqb g f); [intros [= <-]; now right|now left].
      * rewrite E2 by exact Hy. now left.
  - destruct (h_at h l) as [[|ds a|]|] eqn:El; try discriminate. intros [= <-]. constructor.
    + cbn. lia.
    + eapply wf_store; eauto. intros y [].
    + intros y s u Hy. cbn [step_from]. rewrite store_at. destruct (Nat.eqb_spec y l); [lia|]. intros Es. exact (@ex_new _ _ E0 y s u Hy Es).
    + intros y s u Hy. cbn [step_from]. rewrite store_at. destruct (Nat.eqb_spec y l) as [->|_]; [destruct s; discriminate|now left].
  - destruct (h_at h l) as [[| |vs]|] eqn:El; try discriminate.
    destruct (build_rec h fs _) as [h1 r] eqn:B. destruct (alloc h1 (Rec r)) as [h2 n] eqn:A. intros [= <-].
    destruct (@ext_build_rec h fs h (set_field (fun _ => None) "model" (VRef m)) h1 r E0) as (E1 & Hr1 & Hr2).
    { intros y Hy. apply set_field_refers in Hy as [(l' & [= <-] & ->)|[g Hg]]; [exact Hm|discriminate]. }
    { intros g u. unfold set_field. destruct (String.eqb_spec g "model"); [contradiction|discriminate]. }
    { exact B. }
    destruct (@ext_alloc h h1 (Rec r) h2 n E1 Hr1) as ([F1 F2 F3 F4] & Hn).
    { intros s u Hs Hne. destruct s as [g|i]; [|discriminate]. apply (Hr2 g u Hs). congruence. }
    { exact A. }
    constructor.
    + exact F1.
    + eapply wf_store; [exact F3|rewrite F2 by exact Hl; exact El|]. cbn [refers]. intros y Hy.
      apply in_app_or in Hy as [Hy|[[= <-]|[]]]; [|lia]. destruct Hw as [_ Hw]. specialize (Hw l (Lst vs) y El Hy). lia.
    + intros y s u Hy. cbn [step_from]. rewrite store_at. destruct (Nat.eqb_spec y l); [lia|]. apply (F4 y s u Hy).
    + intros y s u Hy. cbn [step_from]. rewrite store_at. destruct (Nat.eqb_spec y l) as [->|_].
      * rewrite El. destruct s as [g|i]; [discriminate|]. intros Hi. destruct (Nat.lt_ge_cases i (List.length vs)) as [Hlt|Hge].
        -- rewrite nth_error_app1 in Hi by exact Hlt. now left.
        -- rewrite nth_error_app2 in Hi by exact Hge. right. destruct (i - List.length vs)%nat as [|j]; [injection Hi as <-; cbn; lia|destruct j; discriminate].
      * rewrite F2 by exact Hy. now left.
Qed.
Lemma exec_arr o h m h' l dims x : heap_wf h -> (m < h_next h)%nat -> exec o h m = Ok h' -> h_at h l = Some (Arr dims x) ->
  (forall p d, o = Inplace p d -> walk h (VRef m) p <> Some (VRef l)) -> h_at h' l = Some (Arr dims x).
Proof.
  intros Hw Hm Hx Hl Hn. assert (Hlt := @wf_dom h _ _ Hw Hl). assert (E0 := ext_refl Hw).
  destruct o as [p f v0|p d|p fs]; cbn [exec] in Hx; destruct (walk h (VRef m) p) as [[| |l']|] eqn:Ew; try discriminate;
    pose proof (@walk_lt h p Hw (VRef m) Hm _ Ew) as Hl'; cbn in Hl'.
  - destruct (build h v0) as [h1 v] eqn:B. destruct (@ext_build h h v0 h1 v E0 B) as ([E1 E2 E3 E4] & _).
    unfold set_attr in Hx. rewrite E2 in Hx by exact Hl'. destruct (h_at h l') as [[fs| |]|] eqn:El; try discriminate. injection Hx as <-.
    rewrite store_at. destruct (Nat.eqb_spec l l') as [->|_]; [congruence|]. rewrite E2; auto.
  - destruct (h_at h l') as [[|ds a|]|] eqn:El; try discriminate. injection Hx as <-. rewrite store_at.
    destruct (Nat.eqb_spec l l') as [->|_]; [|exact Hl]. exfalso. exact (Hn p d eq_refl Ew).
  - destruct (h_at h l') as [[| |vs]|] eqn:El; try discriminate.
    destruct (build_rec h fs _) as [h1 r] eqn:B. destruct (alloc h1 (Rec r)) as [h2 n] eqn:A. injection Hx as <-.
    destruct (@ext_build_rec h fs h (set_field (fun _ => None) "model" (VRef m)) h1 r E0) as (E1 & Hr1 & Hr2).
    { intros y Hy. apply set_field_refers in Hy as [(l2 & [= <-] & ->)|[g Hg]]; [exact Hm|discriminate]. }
    { intros g u. unfold set_field. destruct (String.eqb_spec g "model"); [contradiction|discriminate]. }
    { exact B. }
    destruct (@ext_alloc h h1 (Rec r) h2 n E1 Hr1) as ([F1 F2 F3 F4] & Hn').
    { intros s u Hs Hne. destruct s as [g|i]; [|discriminate]. apply (Hr2 g u Hs). congruence. }
    { exact A. }
    rewrite store_at. destruct (Nat.eqb_spec l l') as [->|_]; [congruence|]. rewrite F2; auto.
Qed.

Theorem C41_rebound_arrays_partial :
  forall ops h m l dims x h', heap_wf h -> (m < h_next h)%nat -> h_at h l = Some (Arr dims x) -> not_target h m l ->
  (forall o, In o ops -> gibbs_op o) -> exec_all ops h m = Ok h' ->
  look h' (VRef l) = Some (SArr dims x).
Proof.
  induction ops as [|o ops IH]; intros h m l dims x h' Hw Hm Hl Hn Ho; cbn [exec_all].
  - intros [= <-]. cbn. now rewrite Hl.
  - intros Hx. apply bindr_ok in Hx as (h1 & E & Hx).
    assert (P := @exec_post o h m h1 Hw Hm E). assert (Hlt := @wf_dom h _ _ Hw Hl).
    apply (IH h1 m l dims x h'); [exact (po_wf P)| | | | |exact Hx].
    + pose proof (po_next P). lia.
    + apply (@exec_arr o h m h1 l dims x Hw Hm E Hl). intros p d ->. destruct Hn as [Hn1 Hn2].
      specialize (Ho _ (or_introl eq_refl)). unfold gibbs_op in Ho.
      destruct Ho as [(K & d' & H)|[(d' & H)|[(d' & H)|[(K & d' & H)|[(K & d' & H)|[(d' & [H|[H|H]])|[(C & d' & H)|[(r & H)|[(i & xs & H)|[(i & k & d' & H)|(fs & H)]]]]]]]]]]; try discriminate;
        injection H as -> _; [apply Hn1; cbn; auto 10..|apply Hn2].
    + destruct Hn as [Hn1 Hn2]. split.
      * intros p Hp Hwk. apply (Hn1 p Hp). apply (@post_walk h h1 p Hw P); auto.
        cbn in Hp. destruct Hp as [<-|[<-|[<-|[<-|[<-|[]]]]]]; cbn; intros [H|[H|[]]]; discriminate.
      * intros i k Hwk. apply (Hn2 i k). apply (@post_walk h h1 _ Hw P); auto. cbn. intros [H|[H|[H|[H|[]]]]]; discriminate.
    + intros o' Hin. apply Ho. now right.
Qed.
Print Assumptions C41_rebound_arrays_partial.

(** ** C42: set_parameters(get_parameters()) always raises, whatever the model. *)
Theorem C42_round_trip_refuted :
  forall K B h m ps, get_parameters h m = Ok ps -> set_parameters K B h m ps = Raise ValueError.
Proof.
  intros K B h m ps H. unfold get_parameters in H.
  assert (HL : forall qs vs, read_all h m qs = Ok vs -> List.length vs = List.length qs).
  { induction qs as [|q qs IH]; cbn [read_all]; [intros vs [= <-]; reflexivity|]. intros vs.
    destruct (walk h (VRef m) q); [|discriminate]. intros E. apply bindr_ok in E as (ws & Er & E). injection E as <-. cbn. now rewrite (IH ws Er). }
  apply HL in H. destruct ps as [|? [|? [|? [|? [|? [|? [|? ?]]]]]]]; try discriminate. reflexivity.
Qed.
Print Assumptions C42_round_trip_refuted.

(** What does hold: with the eight attributes A, W, g, lambda0, c, p, v, m read from a block-model network, of the right
    shapes, set_parameters succeeds and changes nothing at all. *)
Definition eight_paths : list (list step) :=
  [[Fld "weight_model"; Fld "A"]; [Fld "weight_model"; Fld "W"]; [Fld "impulse_model"; Fld "g"]; [Fld "bias_model"; Fld "lambda0"];
   [Fld "network"; Fld "c"]; [Fld "network"; Fld "p"]; [Fld "network"; Fld "v"]; [Fld "network"; Fld "m"]].
Lemma set_same h m p f v : walk h (VRef m) (p ++ [Fld f]) = Some v -> set_at h m p f v = Ok h.
Proof.
  assert (H : forall p u v, walk h u (p ++ [Fld f]) = Some v -> exists w, walk h u p = Some w /\ step_from h w (Fld f) = Some v).
  { clear. induction p as [|s p IH]; intros u v; cbn [walk app].
    - destruct (step_from h u (Fld f)) as [w|] eqn:E; [|discriminate]. intros [= <-]. eauto.
    - destruct (step_from h u s); [apply IH|discriminate]. }
  intros Hw. apply H in Hw as (w & Ew & Es). unfold set_at. rewrite Ew. destruct w as [| |l]; try discriminate.
  cbn [step_from] in Es. unfold set_attr. destruct (h_at h l) as [[fs| |]|] eqn:El; try discriminate. f_equal.
  assert (Ef : set_field fs f v = fs).
  { apply functional_extensionality. intros g. unfold set_field. destruct (String.eqb_spec g f) as [->|_]; congruence. }
  rewrite Ef. unfold store. destruct h as [n a]. cbn in *. f_equal. apply functional_extensionality. intros x.
  destruct (Nat.eqb_spec x l) as [->|_]; congruence.
Qed.
Theorem C42_eight_attributes_partial :
  forall K B h m A W g lambda0 c p v mm,
  read_all h m eight_paths = Ok [A; W; g; lambda0; c; p; v; mm] ->
  (exists l x, A = VRef l /\ h_at h l = Some (Arr [K; K] x)) ->
  (exists l x, W = VRef l /\ h_at h l = Some (Arr [K; K] x) /\ forall i, (i < K * K)%nat -> 0 <= x i) ->
  (exists l x, g = VRef l /\ h_at h l = Some (Arr [K; K; B] x) /\ forall i, (i < K * K)%nat -> Rsum B (fun b => x (i * B + b)%nat) = 1) ->
  (exists l x, lambda0 = VRef l /\ h_at h l = Some (Arr [K] x) /\ forall k, (k < K)%nat -> 0 <= x k) ->
  set_parameters K B h m [A; W; g; lambda0; c; p; v; mm] = Ok h.
Proof.
  intros K B h m A W g lambda0 c p v mm HR (la & xa & -> & Ea) (lw & xw & -> & Ew & Hw) (lg & xg & -> & Eg & Hg) (ll & xl & -> & El & Hl).
  assert (Hn := @read_all_nth h m eight_paths _ HR).
  assert (HP : forall i q u, nth_error eight_paths i = Some q -> nth_error [VRef la; VRef lw; VRef lg; VRef ll; c; p; v; mm] i = Some u -> walk h (VRef m) q = Some u).
  { intros i q u Hq Hu. destruct (Hn i q Hq) as (u' & E & Hwk). congruence. }
  unfold set_parameters.
  assert (Gn : forall n x, (forall i, (i < n)%nat -> 0 <= x i) -> amin_nonneg n x = true).
  { intros n x H. unfold amin_nonneg, forall_lt. apply forallb_forall. intros i Hi. apply in_seq in Hi. unfold Rleb. destruct (Rle_dec 0 (x i)) as [|Hc]; [reflexivity|]. destruct Hc. apply H. lia. }
  assert (G1 : is_arr h (VRef la) [K; K] (fun _ => true) = true) by (cbn [is_arr]; rewrite Ea; destruct (list_eq_dec _ _ _); congruence).
  assert (G2 : is_arr h (VRef lw) [K; K] (amin_nonneg (K * K)) = true) by (cbn [is_arr]; rewrite Ew; destruct (list_eq_dec _ _ _); [apply Gn; exact Hw|congruence]).
  assert (G3 : is_arr h (VRef lg) [K; K; B] (rows_close1 K B) = true).
  { cbn [is_arr]; rewrite Eg; destruct (list_eq_dec _ _ _); [|congruence]. unfold rows_close1, forall_lt. apply forallb_forall. intros i Hi. apply in_seq in Hi.
    unfold close1. rewrite Hg by lia. replace (1 - 1) with 0 by ring. rewrite Rabs_R0. unfold Rleb. destruct (Rle_dec _ _) as [|Hc]; [reflexivity|]. destruct Hc.
    assert (0 < / 10 ^ 8) by (apply Rinv_0_lt_compat, pow_lt; lra). assert (0 < / 10 ^ 5) by (apply Rinv_0_lt_compat, pow_lt; lra). lra. }
  assert (G4 : is_arr h (VRef ll) [K] (amin_nonneg K) = true) by (cbn [is_arr]; rewrite El; destruct (list_eq_dec _ _ _); [apply Gn; exact Hl|congruence]).
  rewrite G1, G2, G3, G4. cbn [guard bindr].
  rewrite (@set_same h m [Fld "weight_model"] "A" (VRef la)) by (apply (HP 0%nat); reflexivity). cbn [bindr].
  rewrite (@set_same h m [Fld "weight_model"] "W" (VRef lw)) by (apply (HP 1%nat); reflexivity). cbn [bindr].
  rewrite (@set_same h m [Fld "impulse_model"] "g" (VRef lg)) by (apply (HP 2%nat); reflexivity). cbn [bindr].
  rewrite (@set_same h m [Fld "bias_model"] "lambda0" (VRef ll)) by (apply (HP 3%nat); reflexivity). cbn [bindr].
  rewrite (@set_same h m [Fld "network"] "c" c) by (apply (HP 4%nat); reflexivity). cbn [bindr].
  rewrite (@set_same h m [Fld "network"] "p" p) by (apply (HP 5%nat); reflexivity). cbn [bindr].
  rewrite (@set_same h m [Fld "network"] "v" v) by (apply (HP 6%nat); reflexivity). cbn [bindr].
  rewrite (@set_same h m [Fld "network"] "m" mm) by (apply (HP 7%nat); reflexivity). reflexivity.
Qed.
Print Assumptions C42_eight_attributes_partial.

(** ** C49: reading G divides the stored weights in place. *)
Lemma w_pos_inj K B k k' b i i' c : (k' < K)%nat -> (b < B)%nat -> (i' < K)%nat -> (c < B)%nat ->
  w_pos K B k k' b = w_pos K B i i' c -> k = i /\ k' = i' /\ b = c.
Proof.
  unfold w_pos. intros H1 H2 H3 H4 E.
  assert (A1 : (k' * B + b < K * B)%nat) by nia. assert (A2 : (i' * B + c < K * B)%nat) by nia.
  assert (Ek : k = i) by nia. subst i. assert (E2 : (k' * B + b = i' * B + c)%nat) by lia.
  assert (k' = i') by nia. subst. split; [reflexivity|]. split; [reflexivity|lia].
Qed.
Definition G_view (l : loc) (K B : nat) : view := split_last (slice_from1 (weights_view l K B)) K B.
Lemma G_get h l K B d x k k' b : h_at h l = Some (Arr d x) -> v_get h (G_view l K B) [k; k'; b] = x (w_pos K B k k' b).
Proof. intros E. unfold v_get, G_view, w_pos. cbn [slice_from1 weights_view split_last v_loc v_off v_dims v_strides dot_idx]. rewrite E. f_equal. lia. Qed.
Lemma G_set h l K B d x y : h_at h l = Some (Arr d x) ->
  exists x', h_at (v_set3 h (G_view l K B) y) l = Some (Arr d x') /\
    (forall k k' b, (k < K)%nat -> (k' < K)%nat -> (b < B)%nat -> x' (w_pos K B k k' b) = y k k' b) /\
    (forall i, (forall k k' b, (k < K)%nat -> (k' < K)%nat -> (b < B)%nat -> i <> w_pos K B k k' b) -> x' i = x i) /\
    (forall z, z <> l -> h_at (v_set3 h (G_view l K B) y) z = h_at h z) /\ h_next (v_set3 h (G_view l K B) y) = h_next h.
Proof.
  intros E. unfold v_set3, G_view. cbn [slice_from1 weights_view split_last v_loc v_off v_dims v_strides]. rewrite E.
  set (pos := fun t : nat * nat * nat => (0 + 1 + (fst (fst t) * (1 + K * B) + (snd (fst t) * (B * 1) + snd t * 1)))%nat).
  assert (Hpos : forall a a' c, pos (a, a', c) = w_pos K B a a' c) by (intros; unfold pos, w_pos; cbn [fst snd]; lia).
  eexists. split; [rewrite store_at, Nat.eqb_refl; reflexivity|]. split; [|split; [|split]].
  - intros k k' b Hk Hk' Hb. destruct (find _ _) as [[[a a'] c]|] eqn:F.
    + apply find_some in F as [Hin Heq]. apply Nat.eqb_eq in Heq. change (w_pos K B k k' b = pos (a, a', c)) in Heq. rewrite Hpos in Heq.
      apply in_prod_iff in Hin as [Hin Hc]. apply in_prod_iff in Hin as [Ha Ha']. apply in_seq in Ha, Ha', Hc.
      apply w_pos_inj in Heq as (-> & -> & ->); try lia. reflexivity.
    + exfalso. assert (Hin : In (k, k', b) (list_prod (list_prod (seq 0 K) (seq 0 K)) (seq 0 B))).
      { apply in_prod_iff. split; [apply in_prod_iff; split|]; apply in_seq; lia. }
      pose proof (find_none _ _ F (k, k', b) Hin) as Hne. apply Nat.eqb_neq in Hne. apply Hne.
      change (w_pos K B k k' b = pos (k, k', b)). now rewrite Hpos.
  - intros i Hi. destruct (find _ _) as [[[a a'] c]|] eqn:F; [|reflexivity].
    apply find_some in F as [Hin Heq]. apply Nat.eqb_eq in Heq. change (i = pos (a, a', c)) in Heq. rewrite Hpos in Heq.
    apply in_prod_iff in Hin as [Hin Hc]. apply in_prod_iff in Hin as [Ha Ha']. apply in_seq in Ha, Ha', Hc.
    exfalso. apply (Hi a a' c); lia.
  - intros z Hz. rewrite store_at. destruct (Nat.eqb_spec z l); [contradiction|reflexivity].
  - reflexivity.
Qed.

(** After one read of G every stored weight has been divided by its connection's total and every total weight W that the
    model reports is 1; only the background column survives. *)
Theorem C49_reading_G_refuted :
  forall K B h m l d x h' G,
  (0 < K)%nat -> (0 < B)%nat ->
  walk h (VRef m) [Fld "weights"] = Some (VRef l) -> h_at h l = Some (Arr d x) ->
  (forall k k', (k < K)%nat -> (k' < K)%nat -> Rsum B (fun b => x (w_pos K B k k' b)) <> 0) ->
  std_read_G K B h m = Ok (h', G) ->
  (forall k k' b, (k < K)%nat -> (k' < K)%nat -> (b < B)%nat ->
     G k' k b = x (w_pos K B k k' b) / Rsum B (fun b => x (w_pos K B k k' b))) /\
  (exists x', h_at h' l = Some (Arr d x') /\
     (forall k k' b, (k < K)%nat -> (k' < K)%nat -> (b < B)%nat ->
        x' (w_pos K B k k' b) = x (w_pos K B k k' b) / Rsum B (fun b => x (w_pos K B k k' b))) /\
     (forall k, (k < K)%nat -> x' (k * (1 + K * B))%nat = x (k * (1 + K * B))%nat)) /\
  (exists h'' W, std_read_W K B h' m = Ok (h'', W) /\ forall k' k, (k < K)%nat -> (k' < K)%nat -> W k' k = 1).
Proof.
  intros K B h m l d x h' G HK HB Hw Hl Hs. unfold std_read_G. rewrite Hw. change (split_last (slice_from1 (weights_view l K B)) K B) with (G_view l K B).
  cbv zeta. intros [= <- <-].
  set (y := fun k k' b => v_get h (G_view l K B) [k; k'; b] / Rsum B (fun b => v_get h (G_view l K B) [k; k'; b])).
  destruct (@G_set h l K B d x y Hl) as (x' & Ex & X1 & X2 & X3 & X4).
  assert (Ey : forall k k' b, y k k' b = x (w_pos K B k k' b) / Rsum B (fun b => x (w_pos K B k k' b))).
  { intros k k' b. unfold y. rewrite (@G_get h l K B d x) by exact Hl. f_equal. apply Rsum_ext. intros i _. apply (@G_get h l K B d x). exact Hl. }
  change (fun k k' b => v_get h (G_view l K B) [k; k'; b] / Rsum B (fun b0 => v_get h (G_view l K B) [k; k'; b0])) with y.
  set (h' := v_set3 h (G_view l K B) y) in *.
  split; [|split].
  - intros k k' b Hk Hk' Hb. rewrite (@G_get h' l K B d x') by exact Ex. rewrite X1 by auto. apply Ey.
  - exists x'. split; [exact Ex|]. split; [intros k k' b Hk Hk' Hb; rewrite X1 by auto; apply Ey|].
    intros k Hk. apply X2. intros a a' c Ha Ha' Hc. unfold w_pos.
    assert (A1 : (a' * B + c < K * B)%nat) by nia. revert A1. generalize (a' * B + c)%nat (K * B)%nat. intros r M HM.
    destruct (Nat.le_gt_cases k a); nia.
  - assert (Hml : m <> l). { intros ->. cbn [walk step_from] in Hw. rewrite Hl in Hw. discriminate. }
    assert (Hw' : walk h' (VRef m) [Fld "weights"] = Some (VRef l)).
    { cbn [walk step_from] in Hw |- *. rewrite (X3 m Hml). exact Hw. }
    unfold std_read_W. rewrite Hw'. destruct (Nat.eqb_spec K 0); [lia|]. destruct (Nat.eqb_spec B 0); [lia|]. cbn [orb].
    eexists _, _. split; [reflexivity|]. intros k' k Hk Hk'. cbv beta.
    change (split_last (slice_from1 (weights_view l K B)) K B) with (G_view l K B).
    rewrite (@Rsum_ext B _ (fun b => x (w_pos K B k k' b) / Rsum B (fun b => x (w_pos K B k k' b)))).
    + rewrite Rsum_div. field. apply Hs; auto.
    + intros b Hb. rewrite (@G_get h' l K B d x') by exact Ex. rewrite X1 by auto. apply Ey.
Qed.
Print Assumptions C49_reading_G_refuted.

(** Reading W or the bias changes no existing object. *)
Theorem C49_W_and_bias_partial :
  forall K B h m, 
  (forall h' W, std_read_W K B h m = Ok (h', W) -> forall y, (y < h_next h)%nat -> h_at h' y = h_at h y) /\
  (forall h' b, std_read_bias K B h m = Ok (h', b) -> h' = h).
Proof.
  intros K B h m. split.
  - intros h' W. unfold std_read_W. destruct (walk h (VRef m) _) as [[| |l]|]; try discriminate. destruct (_ || _)%bool; [discriminate|].
    cbn [alloc]. intros [= <- _] y Hy. cbn. destruct (Nat.eqb_spec y (h_next h)); [lia|reflexivity].
  - intros h' b. unfold std_read_bias. destruct (walk h (VRef m) _) as [[| |l]|]; try discriminate. now intros [= <- _].
Qed.
Print Assumptions C49_W_and_bias_partial.

(** ** C29, second half: reading P and V changes no existing object, and the array returned is new. *)
Theorem C29_reading_P_V_is_pure :
  forall C K f z h net,
  (forall h' l, read_block C K f z h net = Ok (h', l) -> l = h_next h /\ forall y, (y < h_next h)%nat -> h_at h' y = h_at h y) /\
  (forall h' l, read_er K f z h net = Ok (h', l) -> l = h_next h /\ forall y, (y < h_next h)%nat -> h_at h' y = h_at h y).
Proof.
  intros C K f z h net. split; intros h' l.
  - unfold read_block. destruct (walk h (VRef net) [Fld f]) as [[| |lp]|]; try discriminate. destruct (walk h (VRef net) [Fld "c"]) as [[| |lc]|]; try discriminate.
    destruct (h_at h lp) as [[|dp p|]|]; try discriminate. destruct (h_at h lc) as [[|dc c|]|]; try discriminate. cbn [alloc].
    destruct z; intros [= <- <-]; (split; [reflexivity|]); intros y Hy; cbn; destruct (Nat.eqb_spec y (h_next h)); try lia; reflexivity.
  - unfold read_er. destruct (walk h (VRef net) [Fld f]) as [[|p|]|]; try discriminate. cbn [alloc].
    destruct z; intros [= <- <-]; (split; [reflexivity|]); intros y Hy; cbn; destruct (Nat.eqb_spec y (h_next h)); try lia; reflexivity.
Qed.
Print Assumptions C29_reading_P_V_is_pure.

(** ** A concrete object graph (K = B = C = 1, one data set) meets all the hypotheses above. *)
Fixpoint assoc (l : list (string * val)) (f : string) : option val :=
  match l with [] => None | (g, v) :: l' => if String.eqb f g then Some v else assoc l' f end.
Lemma assoc_in l f v : assoc l f = Some v -> In (f, v) l.
Proof.
  induction l as [|[g u] l IH]; cbn; [discriminate|]. destruct (String.eqb_spec f g) as [->|_]; [intros [= ->]; now left|auto].
Qed.
Inductive oshape := SR (l : list (string * val)) | SA (d : list nat) (x : R) | SL (l : list val).
Definition shape_obj (s : oshape) : obj := match s with SR l => Rec (assoc l) | SA d x => Arr d (fun _ => x) | SL l => Lst l end.
Definition heap_of (l : list oshape) : heap := {| h_next := List.length l; h_at := fun x => option_map shape_obj (nth_error l x) |}.
Definition val_lt (n : nat) (v : val) : bool := match v with VRef y => Nat.ltb y n | _ => true end.
Definition shape_lt (n : nat) (s : oshape) : bool :=
  match s with SR l => forallb (fun p => val_lt n (snd p)) l | SA _ _ => true | SL l => forallb (val_lt n) l end.
Lemma heap_of_wf l : forallb (shape_lt (List.length l)) l = true -> heap_wf (heap_of l).
Proof.
  intros H. rewrite forallb_forall in H. split; cbn.
  - intros x. rewrite <- nth_error_Some. destruct (nth_error l x); cbn; split; congruence.
  - intros x o y E Hy. destruct (nth_error l x) as [s|] eqn:Es; [|discriminate]. injection E as <-. apply nth_error_In in Es. specialize (H s Es).
    destruct s as [fs| |vs]; cbn in *.
    + destruct Hy as [f Hf]. apply assoc_in in Hf. rewrite forallb_forall in H. specialize (H _ Hf). cbn in H. now apply Nat.ltb_lt.
    + contradiction.
    + rewrite forallb_forall in H. specialize (H _ Hy). now apply Nat.ltb_lt.
Qed.
Local Arguments VRef l%nat_scope.
Definition ex_heap : heap := heap_of
  [SR [("data_list", VRef 1); ("bias_model", VRef 2); ("weight_model", VRef 3); ("impulse_model", VRef 4); ("network", VRef 5)];
   SL [VRef 12];
   SR [("lambda0", VRef 6); ("model", VRef 0)];
   SR [("A", VRef 7); ("W", VRef 8); ("model", VRef 0); ("network", VRef 5)];
   SR [("g", VRef 9); ("model", VRef 0)];
   SR [("p", VRef 10); ("v", VRef 11); ("c", VRef 13); ("m", VRef 14)];
   SA [1]%nat 2; SA [1;1]%nat 1; SA [1;1]%nat 3; SA [1;1;1]%nat 1; SA [1;1]%nat (1/2); SA [1;1]%nat 5;
   SR [("model", VRef 0); ("S", VRef 15)];
   SA [1]%nat 0; SA [1]%nat 1; SA [4;1]%nat 2].
Example C40_nonvacuous :
  heap_wf ex_heap /\ (exists h' c, copy_sample ex_heap 0%nat h' c) /\
  (exists h'', exec_all [op_g (fun _ => 7); op_W 1 (fun _ => 9); op_Z 0 [([1%nat], fun _ => 1)]; op_add_data [("S", NewArr [2%nat] (fun _ => 1))]] ex_heap 0%nat = Ok h''
     /\ observe h'' 0%nat [Fld "weight_model"; Fld "W"] = Some (SArr [1;1]%nat (fun _ => 9)) /\ observe h'' 0%nat [Fld "data_list"] = Some (SLst 2)).
Proof.
  assert (Hw : heap_wf ex_heap) by (apply heap_of_wf; reflexivity).
  split; [exact Hw|]. split; [eapply C40_copy_exists; [exact Hw|reflexivity|reflexivity|reflexivity]|].
  eexists. split; [reflexivity|]. split; reflexivity.
Qed.
Example C41_nonvacuous :
  (exists ps h', get_parameters ex_heap 0%nat = Ok ps /\ nth_error ps 2 = Some (VRef 9) /\ look ex_heap (VRef 9) = Some (SArr [1;1;1]%nat (fun _ => 1)) /\
     exec (op_g (fun _ => 1/3)) ex_heap 0%nat = Ok h' /\ look h' (VRef 9) = Some (SArr [1;1;1]%nat (fun _ => 1/3))) /\
  not_target ex_heap 0%nat 8%nat /\ not_target ex_heap 0%nat 6%nat /\ nth_error (match get_parameters ex_heap 0%nat with Ok ps => ps | _ => [] end) 1 = Some (VRef 8).
Proof.
  split; [eexists _, _; repeat (split; [reflexivity|]); reflexivity|].
  assert (H : forall l, l = 8%nat \/ l = 6%nat -> not_target ex_heap 0%nat l).
  { intros l Hl. split.
    - intros p Hp. cbn in Hp. destruct Hp as [<-|[<-|[<-|[<-|[<-|[]]]]]]; cbn; intros [= E]; lia.
    - intros i k. cbn. destruct i as [|i]; cbn; [discriminate|]. destruct i; discriminate. }
  split; [auto|]. split; [auto|]. reflexivity.
Qed.
Example C42_nonvacuous :
  exists ps, get_parameters ex_heap 0%nat = Ok ps /\ List.length ps = 6%nat /\
  read_all ex_heap 0%nat eight_paths = Ok [VRef 7; VRef 8; VRef 9; VRef 6; VRef 13; VRef 10; VRef 11; VRef 14] /\
  set_parameters 1 1 ex_heap 0%nat [VRef 7; VRef 8; VRef 9; VRef 6; VRef 13; VRef 10; VRef 11; VRef 14] = Ok ex_heap.
Proof.
  eexists. split; [reflexivity|]. split; [reflexivity|]. split; [reflexivity|].
  apply C42_eight_attributes_partial; [reflexivity| | | |].
  - exists 7%nat, (fun _ => 1). split; reflexivity.
  - exists 8%nat, (fun _ => 3). split; [reflexivity|]. split; [reflexivity|]. intros. lra.
  - exists 9%nat, (fun _ => 1). split; [reflexivity|]. split; [reflexivity|]. intros. cbn. lra.
  - exists 6%nat, (fun _ => 2). split; [reflexivity|]. split; [reflexivity|]. intros. lra.
Qed.
(** K = 2, B = 2, all weights 3: reading G turns them into 1/2. *)
Definition ex_std_heap : heap := heap_of [SR [("weights", VRef 1)]; SA [2;5]%nat 3].
Example C49_nonvacuous :
  (forall k k', Rsum 2 (fun b => (fun _ : nat => 3) (w_pos 2 2 k k' b)) <> 0) /\
  exists h' G, std_read_G 2 2 ex_std_heap 0%nat = Ok (h', G) /\ walk ex_std_heap (VRef 0%nat) [Fld "weights"] = Some (VRef 1) /\
    h_at ex_std_heap 1%nat = Some (Arr [2;5]%nat (fun _ => 3)).
Proof. split; [intros; cbn; lra|]. eexists _, _. split; [reflexivity|]. split; reflexivity. Qed.
Example C29_pure_nonvacuous : exists h' l, read_block 1 1 "p" true ex_heap 5%nat = Ok (h', l).
Proof. eexists _, _. reflexivity. Qed.
