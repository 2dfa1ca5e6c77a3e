(** * L_Heap: frame lemmas for the heap model. *)
From Verif Require Import Prelude Arrays M_Heap.
From Coq Require Import String FunctionalExtensionality.
Set Implicit Arguments.
Open Scope R_scope.
Open Scope string_scope.

Definition vout (prot : loc -> Prop) (v : val) : Prop := match v with VRef l => ~ prot l | _ => True end.

(** [prot] is untouched since [h0] and cannot be reached from outside it. *)
Record guarded (prot : loc -> Prop) (h0 hh : heap) : Prop := {
  gd_same : forall y, prot y -> h_at hh y = h_at h0 y;
  gd_old : forall y, prot y -> (y < h_next hh)%nat;
  gd_ref : forall x o y, h_at hh x = Some o -> ~ prot x -> refers o y -> ~ prot y }.

Lemma store_at h l o x : h_at (store h l o) x = if Nat.eqb x l then Some o else h_at h x.
Proof. reflexivity. Qed.

Lemma guarded_store prot h0 h l o : guarded prot h0 h -> ~ prot l -> (forall y, refers o y -> ~ prot y) -> guarded prot h0 (store h l o).
Proof.
  intros [G1 G2 G3] Hl Ho. constructor; cbn [store h_at h_next].
  - intros y Hy. destruct (Nat.eqb_spec y l) as [->|_]; [contradiction|auto].
  - exact G2.
  - intros x o' y. destruct (Nat.eqb_spec x l) as [->|_]; [intros [= <-] _; apply Ho|apply G3].
Qed.
Lemma guarded_alloc prot h0 h o h1 l : guarded prot h0 h -> (forall y, refers o y -> ~ prot y) -> alloc h o = (h1, l) ->
  guarded prot h0 h1 /\ ~ prot l.
Proof.
  intros [G1 G2 G3] Ho [= <- <-].
  assert (Hn : ~ prot (h_next h)) by (intros H; apply G2 in H; lia).
  split; [|exact Hn]. constructor; cbn [h_at h_next].
  - intros y Hy. destruct (Nat.eqb_spec y (h_next h)) as [->|_]; [contradiction|auto].
  - intros y Hy. apply G2 in Hy. lia.
  - intros x o' y. destruct (Nat.eqb_spec x (h_next h)) as [->|_]; [intros [= <-] _; apply Ho|apply G3].
Qed.
Lemma guarded_alloc_all prot h0 xs : forall h h1 vs, guarded prot h0 h -> alloc_all h xs = (h1, vs) ->
  guarded prot h0 h1 /\ forall v, In v vs -> vout prot v.
Proof.
  induction xs as [|[d x] xs IH]; intros h h1 vs G; cbn [alloc_all]; [intros [= <- <-]; split; [auto|intros v []]|].
  destruct (alloc h (Arr d x)) as [h2 l] eqn:E. destruct (alloc_all h2 xs) as [h3 ws] eqn:E2. intros [= <- <-].
  destruct (@guarded_alloc prot h0 h (Arr d x) h2 l G) as [G2 Hl]; [intros y []|exact E|].
  destruct (IH _ _ _ G2 E2) as [G3 Hw]. split; [exact G3|]. intros v [<-|Hv]; [exact Hl|auto].
Qed.
Lemma guarded_build prot h0 h x h1 v : guarded prot h0 h -> build h x = (h1, v) -> guarded prot h0 h1 /\ vout prot v.
Proof.
  intros G. destruct x as [r|d a|xs]; cbn [build].
  - intros [= <- <-]. split; [exact G|exact I].
  - destruct (alloc h (Arr d a)) as [h2 l] eqn:E. intros [= <- <-]. apply (guarded_alloc G) in E; [exact E|intros y []].
  - destruct (alloc_all h xs) as [h2 vs] eqn:E. destruct (alloc h2 (Lst vs)) as [h3 l] eqn:E2. intros [= <- <-].
    destruct (guarded_alloc_all _ G E) as [G2 Hv]. apply (guarded_alloc G2) in E2; [exact E2|]. intros y Hy. apply (Hv _ Hy).
Qed.
Lemma set_field_refers fs f v y : refers (Rec (set_field fs f v)) y -> (exists l, v = VRef l /\ y = l) \/ refers (Rec fs) y.
Proof.
  intros [g Hg]. unfold set_field in Hg. destruct (String.eqb g f); [injection Hg as ->; left; eauto|right; exists g; exact Hg].
Qed.
Lemma guarded_build_rec prot h0 fs : forall h acc h1 r, guarded prot h0 h -> (forall y, refers (Rec acc) y -> ~ prot y) ->
  build_rec h fs acc = (h1, r) -> guarded prot h0 h1 /\ (forall y, refers (Rec r) y -> ~ prot y).
Proof.
  induction fs as [|[f x] fs IH]; intros h acc h1 r G Ha; cbn [build_rec]; [intros [= <- <-]; auto|].
  destruct (build h x) as [h2 v] eqn:E. destruct (guarded_build _ G E) as [G2 Hv]. apply IH; [exact G2|].
  intros y Hy. apply set_field_refers in Hy as [(l & -> & ->)|Hy]; [exact Hv|auto].
Qed.
Lemma guarded_set_attr prot h0 h l f v h1 : guarded prot h0 h -> ~ prot l -> vout prot v -> set_attr h l f v = Ok h1 -> guarded prot h0 h1.
Proof.
  intros G Hl Hv. unfold set_attr. destruct (h_at h l) as [[fs| |]|] eqn:E; try discriminate. intros [= <-].
  apply guarded_store; [exact G|exact Hl|]. intros y Hy.
  apply set_field_refers in Hy as [(l' & -> & ->)|Hy]; [exact Hv|exact (gd_ref G _ _ E Hl Hy)].
Qed.
Lemma step_vout prot h0 h v s v' : guarded prot h0 h -> vout prot v -> step_from h v s = Some v' -> vout prot v'.
Proof.
  intros G Hv. unfold step_from. destruct v as [| |l]; try discriminate.
  destruct (h_at h l) as [[fs| |vs]|] eqn:E; destruct s as [f|i]; try discriminate; intros Hs; destruct v' as [| |l']; try exact I; cbn.
  - apply (gd_ref G _ _ E Hv). exists f. exact Hs.
  - apply (gd_ref G _ _ E Hv). cbn. eapply nth_error_In; eauto.
Qed.
Lemma walk_vout prot h0 h p : guarded prot h0 h -> forall v v', vout prot v -> walk h v p = Some v' -> vout prot v'.
Proof.
  intros G. induction p as [|s p IH]; intros v v' Hv; cbn [walk]; [intros [= <-]; exact Hv|].
  destruct (step_from h v s) as [u|] eqn:E; [|discriminate]. apply IH. eapply step_vout; eauto.
Qed.
Lemma guarded_exec prot h0 h m o h1 : guarded prot h0 h -> ~ prot m -> exec o h m = Ok h1 -> guarded prot h0 h1.
Proof.
  intros G Hm. destruct o as [p f x|p d|p fs]; cbn [exec]; destruct (walk h (VRef m) p) as [[| |l]|] eqn:Ew; try discriminate;
    pose proof (@walk_vout prot h0 h p G (VRef m) _ Hm Ew) as Hl; cbn [vout] in Hl.
  - destruct (build h x) as [h2 v] eqn:E. destruct (guarded_build _ G E) as [G2 Hv]. intros H. eapply guarded_set_attr; eauto.
  - destruct (h_at h l) as [[|ds a|]|]; try discriminate. intros [= <-]. apply guarded_store; auto.
  - destruct (h_at h l) as [[| |vs]|] eqn:El; try discriminate.
    destruct (build_rec h fs _) as [h2 r] eqn:E. destruct (alloc h2 (Rec r)) as [h3 n] eqn:E2. intros [= <-].
    apply (@guarded_build_rec prot h0) in E as [G2 Hr]; [|exact G|].
    2:{ intros y Hy. apply set_field_refers in Hy as [(l' & [= <-] & ->)|[g Hg]]; [exact Hm|discriminate]. }
    destruct (guarded_alloc G2 Hr E2) as [G3 Hn]. apply guarded_store; [exact G3|exact Hl|].
    cbn [refers]. intros y Hy. apply in_app_or in Hy as [Hy|[[= <-]|[]]]; [|exact Hn]. exact (gd_ref G _ _ El Hl Hy).
Qed.
Lemma guarded_exec_all prot h0 m os : forall h h1, guarded prot h0 h -> ~ prot m -> exec_all os h m = Ok h1 -> guarded prot h0 h1.
Proof.
  induction os as [|o os IH]; intros h h1 G Hm; cbn [exec_all]; [intros [= <-]; exact G|].
  destruct (exec o h m) as [h2|] eqn:E; [|discriminate]. cbn [bindr]. apply IH; [|exact Hm]. eapply guarded_exec; eauto.
Qed.

(** ** Copies *)
Lemma rename_walk rho h l hh : (forall x, reach h l x -> h_at hh (rho x) = option_map (rename rho) (h_at h x)) ->
  forall p v, (forall y, v = VRef y -> reach h l y) ->
  walk hh (rename_val rho v) p = option_map (rename_val rho) (walk h v p) /\ (forall y, walk h v p = Some (VRef y) -> reach h l y).
Proof.
  intros H. induction p as [|s p IH]; intros v Hv; cbn [walk]; [split; [reflexivity|intros y [= ->]; auto]|].
  assert (Es : step_from hh (rename_val rho v) s = option_map (rename_val rho) (step_from h v s)).
  { destruct v as [| |x]; try reflexivity. cbn [rename_val step_from]. rewrite (H x (Hv x eq_refl)).
    destruct (h_at h x) as [[fs| |vs]|]; destruct s; cbn; try reflexivity. now rewrite nth_error_map. }
  rewrite Es. destruct (step_from h v s) as [u|] eqn:E; cbn [option_map]; [|split; [reflexivity|discriminate]].
  apply IH. intros y ->. destruct v as [| |x]; try discriminate. cbn [step_from] in E. specialize (Hv x eq_refl).
  destruct (h_at h x) as [o|] eqn:Ex; [|discriminate]. eapply reach_step; [exact Hv|exact Ex|].
  destruct o as [fs| |vs]; destruct s as [f|i]; try discriminate; cbn; [exists f; exact E|eapply nth_error_In; eauto].
Qed.
Lemma rename_look rho h l hh v : (forall x, reach h l x -> h_at hh (rho x) = option_map (rename rho) (h_at h x)) ->
  (forall y, v = VRef y -> reach h l y) -> look hh (rename_val rho v) = look h v.
Proof.
  intros H Hv. destruct v as [| |x]; try reflexivity. cbn. rewrite (H x (Hv x eq_refl)).
  destruct (h_at h x) as [[fs| |vs]|]; cbn; try reflexivity. now rewrite map_length.
Qed.
Lemma rename_observe rho h l hh : (forall x, reach h l x -> h_at hh (rho x) = option_map (rename rho) (h_at h x)) ->
  forall p, observe hh (rho l) p = observe h l p.
Proof.
  intros H p. unfold observe. destruct (@rename_walk rho h l hh H p (VRef l)) as [Ew Hr]; [intros y [= ->]; constructor|].
  cbn [rename_val] in Ew. rewrite Ew. destruct (walk h (VRef l) p) as [v|] eqn:E; cbn [option_map]; [|reflexivity].
  apply (@rename_look rho h l hh v H). intros y ->. auto.
Qed.

Lemma wf_dom h l o : heap_wf h -> h_at h l = Some o -> (l < h_next h)%nat.
Proof. intros [H _] E. apply H. congruence. Qed.
Lemma wf_alloc h o : heap_wf h -> (forall y, refers o y -> (y < h_next h)%nat) -> heap_wf (fst (alloc h o)).
Proof.
  intros [H1 H2] Ho. split; cbn.
  - intros l. destruct (Nat.eqb_spec l (h_next h)) as [->|Hn]; [split; [lia|congruence]|]. rewrite H1. lia.
  - intros l o' y. destruct (Nat.eqb_spec l (h_next h)) as [->|Hn].
    + intros [= <-] Hy. specialize (Ho y Hy). lia.
    + intros E Hy. specialize (H2 l o' y E Hy). lia.
Qed.
Lemma wf_store h l o o' : heap_wf h -> h_at h l = Some o' -> (forall y, refers o y -> (y < h_next h)%nat) -> heap_wf (store h l o).
Proof.
  intros [H1 H2] El Ho. split; cbn.
  - intros x. destruct (Nat.eqb_spec x l) as [->|Hn]; [|apply H1]. split; [intros _; apply H1; congruence|discriminate].
  - intros x o2 y. destruct (Nat.eqb_spec x l) as [->|Hn]; [intros [= <-]; apply Ho|apply H2].
Qed.
Lemma wf_set_attr h l f v h1 : heap_wf h -> (forall y, v = VRef y -> (y < h_next h)%nat) -> set_attr h l f v = Ok h1 -> heap_wf h1.
Proof.
  intros Hw Hv. unfold set_attr. destruct (h_at h l) as [[fs| |]|] eqn:E; try discriminate. intros [= <-].
  eapply wf_store; eauto. intros y Hy. apply set_field_refers in Hy as [(l' & -> & ->)|Hy]; [auto|].
  destruct Hw as [_ H2]. eapply H2; eauto.
Qed.
Lemma reach_lt h l x : heap_wf h -> (l < h_next h)%nat -> reach h l x -> (x < h_next h)%nat.
Proof. intros [_ H2] Hl. induction 1 as [|x y o _ _ E Hy]; [exact Hl|]. eapply H2; eauto. Qed.

(** A deep copy exists: rename every location by a constant offset. *)
Lemma deepcopy_exists h l : heap_wf h -> (l < h_next h)%nat -> exists h' l', deepcopied h l h' l'.
Proof.
  intros Hw Hl. pose proof Hw as [H1 H2]. set (N := h_next h).
  exists {| h_next := (N + N)%nat; h_at := fun y => if Nat.ltb y N then h_at h y else if Nat.ltb y (N + N) then option_map (rename (fun x => (N + x)%nat)) (h_at h (y - N)%nat) else None |}, (N + l)%nat.
  exists (fun x => (N + x)%nat). split; [reflexivity|]. cbn [h_at h_next].
  assert (Hr : forall x, reach h l x -> (x < N)%nat) by (intros x; apply reach_lt; auto).
  split; [|split; [|split; [|split; [|split]]]].
  - intros x Hx. specialize (Hr x Hx). destruct (Nat.ltb_spec (N + x) N); [lia|]. destruct (Nat.ltb_spec (N + x) (N + N)); [|lia].
    now replace (N + x - N)%nat with x by lia.
  - intros x Hx. specialize (Hr x Hx). lia.
  - intros x y _ _ E. lia.
  - intros y Hy. fold N in Hy. destruct (Nat.ltb_spec y N); [reflexivity|lia].
  - fold N. lia.
  - intros y Hy. destruct (Nat.ltb_spec y N); [lia|]. destruct (Nat.ltb_spec y (N + N)); [lia|reflexivity].
Qed.

(** ** copy_sample *)

Lemma set_attr_ok h l f v fs : h_at h l = Some (Rec fs) -> set_attr h l f v = Ok (store h l (Rec (set_field fs f v))).
Proof. intros E. unfold set_attr. now rewrite E. Qed.

(** Everything the proofs need to know about a call of copy_sample. *)
Lemma copy_unfold h m h' c : heap_wf h -> copy_sample h m h' c ->
  exists fs dl items h3 h4 rho,
    h_at h m = Some (Rec fs) /\ fs "data_list" = Some (VRef dl) /\ h_at h dl = Some (Lst items) /\
    heap_wf h3 /\ h_next h3 = S (S (h_next h)) /\
    (forall y, (y < h_next h)%nat -> y <> m -> h_at h3 y = h_at h y) /\
    h_at h3 m = Some (Rec (set_field fs "data_list" (VRef (S (h_next h))))) /\
    h_at h3 (h_next h) = Some (Lst items) /\ h_at h3 (S (h_next h)) = Some (Lst []) /\
    (m < h_next h)%nat /\ c = rho m /\
    (forall x, reach h3 m x -> h_at h4 (rho x) = option_map (rename rho) (h_at h3 x)) /\
    (forall x, reach h3 m x -> (h_next h3 <= rho x < h_next h4)%nat) /\
    (forall y, (y < h_next h3)%nat -> h_at h4 y = h_at h3 y) /\
    (h_next h3 <= h_next h4)%nat /\ (forall y, (h_next h4 <= y)%nat -> h_at h4 y = None) /\
    h' = store h4 m (Rec (set_field (set_field fs "data_list" (VRef (S (h_next h)))) "data_list" (VRef (h_next h)))).
Proof.
  intros Hw (fs & dl & items & h3 & h4 & Em & Ed & El & H). cbn [alloc h_next h_at] in H. destruct H as (E3 & HD & E').
  assert (Hm := @wf_dom h _ _ Hw Em). assert (Hdl := @wf_dom h _ _ Hw El).
  set (N := h_next h) in *.
  assert (Eh2 : h_at {| h_next := S (S N); h_at := fun x => if Nat.eqb x (S N) then Some (Lst []) else if Nat.eqb x N then Some (Lst items) else h_at h x |} m = Some (Rec fs)).
  { cbn. destruct (Nat.eqb_spec m (S N)); [lia|]. destruct (Nat.eqb_spec m N); [lia|exact Em]. }
  rewrite (@set_attr_ok _ _ _ _ _ Eh2) in E3. injection E3 as <-.
  destruct HD as (rho & -> & R1 & R2 & R3 & R4 & R5 & R6).
  assert (W3 : heap_wf (store {| h_next := S (S N); h_at := fun x => if Nat.eqb x (S N) then Some (Lst []) else if Nat.eqb x N then Some (Lst items) else h_at h x |} m (Rec (set_field fs "data_list" (VRef (S N)))))).
  { assert (W1 : heap_wf (fst (alloc h (Lst items)))).
    { apply wf_alloc; [exact Hw|]. intros y Hy. destruct Hw as [_ H2]. eapply H2; eauto. }
    assert (W2 := @wf_alloc _ (Lst []) W1 ltac:(intros y [])). cbn [alloc fst] in W2. fold N in W2. cbn [h_next h_at] in W2.
    eapply wf_store; [exact W2|exact Eh2|]. intros y Hy. cbn [h_next].
    apply set_field_refers in Hy as [(l & [= <-] & ->)|[f Hf]]; [lia|]. destruct Hw as [_ H2].
    specialize (H2 m (Rec fs) y Em (ex_intro _ f Hf)). fold N in H2. lia. }
  exists fs, dl, items, (store {| h_next := S (S N); h_at := fun x => if Nat.eqb x (S N) then Some (Lst []) else if Nat.eqb x N then Some (Lst items) else h_at h x |} m (Rec (set_field fs "data_list" (VRef (S N))))), h4, rho.
  split; [exact Em|]. split; [exact Ed|]. split; [exact El|]. split; [exact W3|]. split; [reflexivity|].
  split; [|split; [|split; [|split; [|split; [exact Hm|split; [reflexivity|]]]]]].
  - intros y Hy Hn. cbn. destruct (Nat.eqb_spec y m); [contradiction|]. destruct (Nat.eqb_spec y (S N)); [lia|]. destruct (Nat.eqb_spec y N); [lia|reflexivity].
  - cbn. now rewrite Nat.eqb_refl.
  - cbn [store h_at]. destruct (Nat.eqb_spec N m); [lia|]. destruct (Nat.eqb_spec N (S N)); [lia|]. now rewrite Nat.eqb_refl.
  - cbn [store h_at]. destruct (Nat.eqb_spec (S N) m); [lia|]. now rewrite Nat.eqb_refl.
  - split; [exact R1|]. split; [exact R2|]. split; [exact R4|]. split; [exact R5|]. split; [exact R6|].
    assert (E4 : h_at h4 m = Some (Rec (set_field fs "data_list" (VRef (S N))))).
    { rewrite R4 by (cbn; lia). cbn. now rewrite Nat.eqb_refl. }
    rewrite (@set_attr_ok _ _ _ _ _ E4) in E'. injection E' as <-. reflexivity.
Qed.
