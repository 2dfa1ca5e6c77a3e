(** * Props_Buffers: reusing the arrays that were passed to add_data (C113). *)
From Verif Require Import Prelude ExtReal Arrays M_Basis M_Parents M_Discrete M_Standard L_Basis Spec_Basis L_Discrete L_Standard M_Buffers.
From Coq Require Import FunctionalExtensionality.
Set Implicit Arguments.
Open Scope R_scope.

(** A list with its i-th entry replaced. *)
Definition with_entry {A} (i : nat) (x : A) (l : list A) : list A := firstn i l ++ x :: skipn (S i) l.
(** The reference: a model that took a private copy of every data set when it was added.  [h] gives the contents of
    the caller's arrays at the time of the call. *)
Definition value_step (h : mem) (v : dmodel) (e : event) : dmodel * answer :=
  match e with
  | Write_counts _ _ | Write_filtered _ _ => (v, Nothing)
  | Add s f mb => match add_data v (sval_in h s) (option_map (fval_in h) f) mb with
                  | Ok v1 => (v1, Done (Ok tt))
                  | Raise x => (v, Done (Raise x))
                  end
  | Simulate pois keep T => match generate v pois keep T with
                            | Ok (v1, S_, r) => (v1, Simulated (Ok (S_, r)))
                            | Raise x => (v, Simulated (Raise x))
                            end
  | Set_params A W g lam => (par_set v A W g lam, Nothing)
  | Resample_parents i gsl mult =>
      match nth_error (dm_data v) i with
      | Some p => match pa_resample gsl mult p (params_of v) with
                  | Ok p' => (with_data v (with_entry i p' (dm_data v)), Parents (Ok (pa_Z p')))
                  | Raise x => (v, Parents (Raise x))
                  end
      | None => (v, Nothing)
      end
  | Mf_parents i e =>
      match nth_error (dm_data v) i with
      | Some p => match mf_update_python p e with
                  | Ok p' => (with_data v (with_entry i p' (dm_data v)), Mf_Parents (Ok (pa_EZ p')))
                  | Raise x => (v, Mf_Parents (Raise x))
                  end
      | None => (v, Nothing)
      end
  | Ask_ll ix => (v, Value (log_likelihood v ix))
  | Ask_stats i => (v, match nth_error (dm_data v) i with
                       | Some p => Stats (fun k => (bkgd_ss0 p k, bkgd_ss1 p k))
                                         (fun k1 k2 => (weight_ss0 p k1 k2, weight_ss1 p k1 k2)) (ir_ss p)
                       | None => Nothing
                       end)
  | Ask_rate ix => (v, Rate (compute_rate v ix None None))
  | Ask_exact i => (v, match nth_error (dm_data v) i with
                       | Some p => Exact (exact_weight_ss1 p (dm_A v) (dm_g v))
                       | None => Nothing
                       end)
  end.
(** Both models through the same calls and the same writes: the pairs of answers. *)
Fixpoint answers (h : mem) (m : lmodel) (v : dmodel) (es : list event) : list (answer * answer) :=
  match es with
  | [] => []
  | e :: es' => let '(h1, m1, a) := live_step h m e in
                let (v1, b) := value_step h v e in
                (a, b) :: answers h1 m1 v1 es'
  end.

Definition no_filtered (e : event) : Prop := match e with Add _ (Some _) _ => False | _ => True end.
Definition not_rate (e : event) : Prop := match e with Ask_rate _ | Ask_exact _ => False | _ => True end.

(* ---------------- the relation between a live data set and its private copy ---------------- *)

Definition same_copies (d : live) (p : parents) : Prop :=
  lv_T d = pa_T p /\ lv_K d = pa_K p /\ lv_B d = pa_B p /\ lv_dt d = pa_dt p /\
  lv_ts d = pa_ts p /\ lv_Ss d = pa_Ss p /\ lv_Ns d = pa_Ns p /\ lv_Fs d = pa_Fs p /\
  lv_Z d = pa_Z p /\ lv_EZ d = pa_EZ p.
Definition own_F (h : mem) (d : live) (p : parents) : Prop :=
  (exists n, lv_F d = Lib n /\ (n < m_next h)%nat) /\ live_F h d = pa_F p.
(** [b] says whether the filtered arrays are the library's. *)
Definition related (b : bool) (h : mem) (d : live) (p : parents) : Prop :=
  same_copies d p /\ (b = true -> own_F h d p).
Definition rel_model (b : bool) (h : mem) (m : lmodel) (v : dmodel) : Prop :=
  v = with_data (lm_par m) (dm_data v) /\ Forall2 (related b h) (lm_data m) (dm_data v).

Lemma mk_live_same : forall h K B dt T sa fa off,
  same_copies (mk_live h K B dt T sa fa off)
              (mk_parents K B dt T (slice2 off (m_ints h sa)) (slice3 off (m_reals h fa))).
Proof. intros. repeat split. Qed.

Lemma same_ll : forall d p q, same_copies d p -> lv_ll d q = pa_ll p q.
Proof.
  intros d p q (e1 & e2 & e3 & e4 & e5 & e6 & e7 & e8 & e9 & e10).
  unfold lv_ll, pa_ll, lv_ll_single, ll_single, lv_row_rate, row_rate, lv_Tk, pa_Tk.
  rewrite e1, e2, e3, e4, e5, e6, e7, e8. reflexivity.
Qed.
Lemma same_resample : forall d p q gsl mult, same_copies d p ->
  match lv_resample gsl mult d q, pa_resample gsl mult p q with
  | Ok d', Ok p' => same_copies d' p' /\ lv_F d' = lv_F d /\ lv_off d' = lv_off d /\ pa_F p' = pa_F p
  | Raise x, Raise y => x = y
  | _, _ => False
  end.
Proof.
  intros d p q gsl mult (e1 & e2 & e3 & e4 & e5 & e6 & e7 & e8 & e9 & e10).
  assert (G : lv_pvec_gsl d q = pvec_gsl p q).
  { unfold lv_pvec_gsl, pvec_gsl. rewrite e3, e8. reflexivity. }
  assert (P : lv_pvec_python d q = pvec_python p q).
  { unfold lv_pvec_python, pvec_python. rewrite e3, e8. reflexivity. }
  assert (A : lv_all_rows d = all_rows p).
  { unfold lv_all_rows, all_rows, lv_Tk, pa_Tk. rewrite e2, e5. reflexivity. }
  unfold lv_resample, pa_resample, resample_Z_gsl, resample_Z_python, request_gsl, request_python.
  rewrite A, G, P, e2, e3, e6.
  destruct gsl.
  - match goal with |- context [if ?c then _ else _] => destruct c end; [reflexivity|].
    repeat split; cbn; auto.
  - match goal with |- context [if ?c then _ else _] => destruct c end; [reflexivity|].
    match goal with |- context [if ?c then _ else _] => destruct c end; [reflexivity|].
    repeat split; cbn; auto.
Qed.
Lemma same_mf : forall d p e, same_copies d p ->
  match lv_mf_update d e, mf_update_python p e with
  | Ok d', Ok p' => same_copies d' p' /\ lv_F d' = lv_F d /\ lv_off d' = lv_off d /\ pa_F p' = pa_F p
  | Raise x, Raise y => x = y
  | _, _ => False
  end.
Proof.
  intros d p e (e1 & e2 & e3 & e4 & e5 & e6 & e7 & e8 & e9 & e10).
  assert (P : lv_pkb d e = pkb p e). { unfold lv_pkb, pkb. rewrite e3, e8. reflexivity. }
  assert (N : lv_mf_norm d e = mf_norm p e). { unfold lv_mf_norm, mf_norm. rewrite e2, e3, P. reflexivity. }
  assert (A : lv_all_rows d = all_rows p).
  { unfold lv_all_rows, all_rows, lv_Tk, pa_Tk. rewrite e2, e5. reflexivity. }
  unfold lv_mf_update, mf_update_python. rewrite A, N, P, e6.
  match goal with |- context [if ?c then _ else _] => destruct c end; [reflexivity|].
  repeat split; cbn; auto.
Qed.
Lemma same_stats : forall d p, same_copies d p ->
  Stats (lv_bkgd_ss d) (lv_weight_ss d) (lv_ir_ss d) =
  Stats (fun k => (bkgd_ss0 p k, bkgd_ss1 p k)) (fun k1 k2 => (weight_ss0 p k1 k2, weight_ss1 p k1 k2)) (ir_ss p).
Proof.
  intros d p (e1 & e2 & e3 & e4 & e5 & e6 & e7 & e8 & e9 & e10).
  unfold lv_bkgd_ss, lv_weight_ss, lv_ir_ss, bkgd_ss0, bkgd_ss1, weight_ss0, weight_ss1, ir_ss, lv_Tk, pa_Tk.
  rewrite e1, e3, e4, e5, e7, e9. reflexivity.
Qed.

Lemma Forall2_mono : forall (A B : Type) (P Q : A -> B -> Prop) l1 l2,
  (forall a b, P a b -> Q a b) -> Forall2 P l1 l2 -> Forall2 Q l1 l2.
Proof. intros A B P Q l1 l2 I F. induction F; constructor; auto. Qed.

(** Histories of writes and allocations that leave the library's filtered arrays alone. *)
Definition keeps_lib (h h1 : mem) : Prop :=
  (m_next h <= m_next h1)%nat /\
  forall n, (n < m_next h)%nat -> m_reals h1 (Lib n) = m_reals h (Lib n).
Lemma related_keeps : forall b h h1 d p, keeps_lib h h1 -> related b h d p -> related b h1 d p.
Proof.
  intros b h h1 d p (L & E) (C & O). split; [exact C|]. intro B. destruct (O B) as ((n & F & N) & Q).
  split; [exists n; split; [exact F | lia]|].
  rewrite <- Q. unfold live_F. rewrite F. rewrite E by exact N. reflexivity.
Qed.
Lemma rel_keeps : forall b h h1 m v, keeps_lib h h1 -> rel_model b h m v -> rel_model b h1 m v.
Proof.
  intros b h h1 m v L (E & F). split; [exact E|].
  eapply Forall2_mono; [|exact F]. intros d p. apply related_keeps. exact L.
Qed.
Lemma keeps_refl : forall h, keeps_lib h h.
Proof. intro h. split; auto. Qed.
Lemma keeps_new_reals : forall h x, keeps_lib h (fst (new_reals h x)).
Proof.
  intros h x. split; [cbn; lia|]. intros n N. cbn. unfold put. cbn.
  replace (Nat.eqb n (m_next h)) with false by (symmetry; apply Nat.eqb_neq; lia). reflexivity.
Qed.

Lemma live_add_ok : forall b h m v s f mb, rel_model b h m v -> (b = true -> f = None) ->
  match live_add_data h m s f mb, add_data v (sval_in h s) (option_map (fval_in h) f) mb with
  | Ok (h1, m1), Ok v1 => rel_model b h1 m1 v1 /\ keeps_lib h h1 /\ m_ints h1 = m_ints h
  | Raise x, Raise y => x = y
  | _, _ => False
  end.
Proof.
  intros b h m v s f mb (E & D) Bf.
  unfold live_add_data, add_data.
  assert (EK : dm_K v = dm_K (lm_par m)) by (rewrite E; reflexivity).
  assert (EB : dm_B v = dm_B (lm_par m)) by (rewrite E; reflexivity).
  assert (ED : dm_dt v = dm_dt (lm_par m)) by (rewrite E; reflexivity).
  assert (EF : forall T x y, get_F v T x y = get_F (lm_par m) T x y).
  { intros. unfold get_F. rewrite E. reflexivity. }
  rewrite EK, EB, ED.
  destruct (check_S (dm_K (lm_par m)) (sval_in h s)) as [T|x]; cbn [bindr]; [|reflexivity].
  rewrite EF.
  destruct (get_F (lm_par m) T (sval_in h s) (option_map (fval_in h) f)) as [F|x] eqn:GF; cbn [bindr]; [|reflexivity].
  set (hf := match f with Some fr => (h, User (fr_user fr)) | None => new_reals h F end).
  assert (KL : keeps_lib h (fst hf)).
  { unfold hf. destruct f; [apply keeps_refl | apply keeps_new_reals]. }
  assert (IN : m_ints (fst hf) = m_ints h) by (unfold hf; destruct f; reflexivity).
  assert (FF : m_reals (fst hf) (snd hf) = F).
  { unfold hf. destruct f as [fr|]; cbn.
    - unfold get_F in GF. cbn in GF.
      destruct (fr_isarray fr && dims_eqb (fr_dims fr) [T; dm_K (lm_par m); dm_B (lm_par m)])%bool; [|discriminate].
      congruence.
    - unfold put. cbn. rewrite Nat.eqb_refl. reflexivity. }
  assert (OW : b = true -> exists n, snd hf = Lib n /\ (n < m_next (fst hf))%nat).
  { intro B. specialize (Bf B). subst f. unfold hf. cbn. exists (m_next h). split; [reflexivity | cbn; lia]. }
  clearbody hf. destruct hf as [h1 fa]. cbn [fst snd] in *.
  assert (ONE : forall T' off, related b h1 (mk_live h1 (dm_K (lm_par m)) (dm_B (lm_par m)) (dm_dt (lm_par m)) T' (sr_addr s) fa off)
     (mk_parents (dm_K (lm_par m)) (dm_B (lm_par m)) (dm_dt (lm_par m)) T' (slice2 off (sv_at (sval_in h s))) (slice3 off F))).
  { intros T' off. split.
    - rewrite <- FF. unfold sval_in. cbn [sv_at]. rewrite <- IN. apply mk_live_same.
    - intro B. destruct (OW B) as (n & X & Y). split; [exists n; split; [exact X | exact Y]|].
      unfold live_F. cbn. rewrite FF. reflexivity. }
  assert (DONE : forall ds ps, Forall2 (related b h1) ds ps ->
     rel_model b h1 {| lm_par := lm_par m; lm_data := lm_data m ++ ds |} (with_data v (dm_data v ++ ps))).
  { intros ds ps Q. split.
    - cbn. rewrite E. reflexivity.
    - cbn. apply Forall2_app; [|exact Q]. eapply Forall2_mono; [|exact D]. intros a c. apply related_keeps. exact KL. }
  unfold live_batches, batches. destruct mb as [n|].
  - destruct (Z.eqb n 0); [reflexivity|]. destruct (Z.ltb n 0); cbn [bindr].
    + split; [apply DONE; constructor | split; assumption].
    + split; [|split; assumption]. apply DONE. cbn zeta.
      induction (offsets T T (Z.to_nat n) 0) as [|o os IH]; constructor; [apply ONE | exact IH].
  - cbn [bindr]. split; [|split; assumption]. apply DONE. constructor; [|constructor]. apply (ONE T 0%nat).
Qed.

Lemma with_data_par : forall (m : lmodel) (v : dmodel), v = with_data (lm_par m) (dm_data v) ->
  params_of v = params_of (lm_par m) /\ rate_all v = rate_all (lm_par m) /\ dm_A v = dm_A (lm_par m) /\
  dm_g v = dm_g (lm_par m) /\ dm_K v = dm_K (lm_par m) /\ dm_L_int v = dm_L_int (lm_par m).
Proof. intros m v E. rewrite E. repeat split. Qed.
Lemma gen_loop_par : forall (m : lmodel) (v : dmodel) pois T, v = with_data (lm_par m) (dm_data v) ->
  gen_loop v pois T = gen_loop (lm_par m) pois T.
Proof. intros m v pois T E. rewrite E. reflexivity. Qed.

Lemma nth_rel : forall b h m v i, rel_model b h m v ->
  match nth_error (lm_data m) i, nth_error (dm_data v) i with
  | Some d, Some p => related b h d p
  | None, None => True
  | _, _ => False
  end.
Proof.
  intros b h m v i (_ & F). revert i. induction F as [|d p ds ps Q F IH]; intros [|i]; cbn; auto. apply IH.
Qed.
Lemma rel_len : forall b h m v, rel_model b h m v -> length (lm_data m) = length (dm_data v).
Proof. intros b h m v (_ & F). induction F; cbn; auto. Qed.
Lemma replace_rel : forall b h ds ps i d' p', Forall2 (related b h) ds ps -> related b h d' p' ->
  (i < length ps)%nat -> Forall2 (related b h) (replace_nth ds i d') (with_entry i p' ps).
Proof.
  intros b h ds ps i d' p' F Q. revert i. induction F as [|d p ds ps X F IH]; intros [|i] Hi; cbn in *; try lia.
  - constructor; auto.
  - constructor; [exact X|]. apply IH. lia.
Qed.
Lemma ll_rel : forall b h m v ix, rel_model b h m v -> live_log_likelihood m ix = log_likelihood v ix.
Proof.
  intros b h m v ix R.
  assert (A : forall i, live_ll_at m i = ll_at v i).
  { intro i. unfold live_ll_at, ll_at. rewrite (rel_len R). destruct (py_index _ _) as [j|]; [|reflexivity].
    pose proof (nth_rel j R) as N. destruct (nth_error (lm_data m) j) as [d|], (nth_error (dm_data v) j) as [p|]; try contradiction; try (split; [reflexivity | assumption]); try reflexivity.
    destruct N as (C & _). rewrite (same_ll _ C). destruct R as (E & _). apply with_data_par in E. destruct E as (E & _).
    rewrite E. reflexivity. }
  assert (B : forall l acc, live_ll_sum m l acc = ll_sum v l acc).
  { induction l as [|i l IH]; intro acc; cbn; [reflexivity|]. rewrite A. destruct (ll_at v i); cbn; [apply IH | reflexivity]. }
  unfold live_log_likelihood, log_likelihood. destruct ix; rewrite ?(rel_len R); apply B.
Qed.

(** One event: the two models give the same answer and stay related. *)
Lemma step_rel : forall b h m v e, rel_model b h m v -> (if b then no_filtered e else not_rate e) ->
  let '(h1, m1, a) := live_step h m e in
  let (v1, c) := value_step h v e in
  a = c /\ rel_model b h1 m1 v1.
Proof.
  intros b h m v e R N. destruct R as (E & D). pose proof (conj E D : rel_model b h m v) as R.
  destruct (with_data_par m E) as (EP & ER & EA & EG & EK & EL).
  destruct e as [a x|n x|s f mb|pois keep T|A W g lam|i gsl mult|i e|ix|i|ix|i]; cbn [live_step value_step].
  - split; [reflexivity|]. eapply rel_keeps; [|exact R]. split; [cbn; lia | reflexivity].
  - split; [reflexivity|]. eapply rel_keeps; [|exact R]. split; [cbn; lia | reflexivity].
  - assert (Bf : b = true -> f = None). { intro B. subst b. destruct f; [destruct N | reflexivity]. }
    pose proof (@live_add_ok b h m v s f mb R Bf) as Q.
    destruct (live_add_data h m s f mb) as [[h1 m1]|x],
             (add_data v (sval_in h s) (option_map (fval_in h) f) mb) as [v1|y]; try contradiction; try (split; [reflexivity | assumption]); try reflexivity.
    + split; [reflexivity | apply Q].
    + subst y. split; [reflexivity | exact R].
  - unfold live_generate, generate. rewrite EL, (gen_loop_par m pois T E), EK.
    destruct (negb (dm_L_int (lm_par m))); [split; [reflexivity | exact R]|].
    set (st := gen_loop (lm_par m) pois T). cbn zeta.
    match goal with |- context [if negb (forall_lt ?a ?b) then _ else _] => destruct (negb (forall_lt a b)) end;
      [split; [reflexivity | exact R]|].
    cbn [new_ints].
    set (h1 := bump (put_ints h (Lib (m_next h)) (gs_S st))).
    assert (K1 : keeps_lib h h1) by (split; [cbn; lia | reflexivity]).
    assert (M1 : m_ints h1 (Lib (m_next h)) = gs_S st).
    { unfold h1. cbn. unfold put. cbn. rewrite Nat.eqb_refl. reflexivity. }
    assert (R1 : rel_model b h1 m v) by (eapply rel_keeps; [exact K1 | exact R]).
    destruct keep.
    + set (s := {| sr_isarray := true; sr_dims := [T; dm_K (lm_par m)]; sr_isint := true; sr_addr := Lib (m_next h) |}).
      pose proof (@live_add_ok b h1 m v s None None R1 (fun _ => eq_refl)) as Q. cbn [option_map] in Q.
      assert (ES : sval_in h1 s = sval_of T (dm_K (lm_par m)) (gs_S st)).
      { unfold sval_in, sval_of, s. cbn [sr_isarray sr_dims sr_isint sr_addr]. rewrite M1. reflexivity. }
      rewrite ES in Q.
      destruct (live_add_data h1 m s None None) as [[h2 m2]|x],
               (add_data v (sval_of T (dm_K (lm_par m)) (gs_S st)) None None) as [v1|y]; cbn [bindr fst snd]; try contradiction; try (split; [reflexivity | assumption]); try reflexivity.
      * destruct Q as (Q1 & Q2 & Q3). split; [rewrite Q3, M1; reflexivity | exact Q1].
      * subst y. split; [reflexivity | exact R].
    + split; [rewrite M1; reflexivity | exact R1].
  - split; [reflexivity|]. split; [cbn; rewrite E at 1; reflexivity | exact D].
  - pose proof (nth_rel i R) as Q. destruct (nth_error (lm_data m) i) as [d|], (nth_error (dm_data v) i) as [p|] eqn:NE; try contradiction; try (split; [reflexivity | assumption]); try reflexivity.
    assert (HI : (i < length (dm_data v))%nat) by (apply nth_error_Some; congruence). rewrite EP. destruct Q as (C & O). pose proof (same_resample (params_of (lm_par m)) gsl mult C) as Z_.
    destruct (lv_resample gsl mult d (params_of (lm_par m))) as [d'|x], (pa_resample gsl mult p (params_of (lm_par m))) as [p'|y]; try contradiction; try (split; [reflexivity | assumption]); try reflexivity.
    + destruct Z_ as (C' & F1 & F2 & F3).
      split; [do 2 f_equal; apply C'|]. split; [cbn; rewrite E at 1; reflexivity|]. cbn.
      apply replace_rel; [exact D| |exact HI]. split; [exact C'|]. intro B. destruct (O B) as (X & Y). split; [rewrite F1; exact X|].
      rewrite F3, <- Y. unfold live_F. rewrite F1, F2. reflexivity.
    + subst y. split; [reflexivity | exact R].
  - pose proof (nth_rel i R) as Q. destruct (nth_error (lm_data m) i) as [d|], (nth_error (dm_data v) i) as [p|] eqn:NE; try contradiction; try (split; [reflexivity | assumption]); try reflexivity.
    assert (HI : (i < length (dm_data v))%nat) by (apply nth_error_Some; congruence). destruct Q as (C & O). pose proof (same_mf e C) as Z_.
    destruct (lv_mf_update d e) as [d'|x], (mf_update_python p e) as [p'|y]; try contradiction; try (split; [reflexivity | assumption]); try reflexivity.
    + destruct Z_ as (C' & F1 & F2 & F3).
      split; [do 2 f_equal; apply C'|]. split; [cbn; rewrite E at 1; reflexivity|]. cbn.
      apply replace_rel; [exact D| |exact HI]. split; [exact C'|]. intro B. destruct (O B) as (X & Y). split; [rewrite F1; exact X|].
      rewrite F3, <- Y. unfold live_F. rewrite F1, F2. reflexivity.
    + subst y. split; [reflexivity | exact R].
  - split; [|exact R]. rewrite (ll_rel ix R). reflexivity.
  - split; [|exact R]. pose proof (nth_rel i R) as Q.
    destruct (nth_error (lm_data m) i) as [d|], (nth_error (dm_data v) i) as [p|]; try contradiction; try (split; [reflexivity | assumption]); try reflexivity. apply same_stats. apply Q.
  - split; [|exact R]. destruct b; [|destruct N]. f_equal. unfold live_compute_rate, compute_rate, rate_input.
    rewrite (rel_len R). destruct (negb _); [reflexivity|]. destruct (py_index _ _) as [j|]; [|reflexivity].
    pose proof (nth_rel j R) as Q. destruct (nth_error (lm_data m) j) as [d|], (nth_error (dm_data v) j) as [p|]; try contradiction; try (split; [reflexivity | assumption]); try reflexivity.
    destruct Q as (C & O). destruct (O eq_refl) as (_ & Y). cbn [bindr fst snd]. rewrite ER, Y. destruct C as (C & _). rewrite C. reflexivity.
  - split; [|exact R]. destruct b; [|destruct N]. pose proof (nth_rel i R) as Q.
    destruct (nth_error (lm_data m) i) as [d|], (nth_error (dm_data v) i) as [p|]; try contradiction; try (split; [reflexivity | assumption]); try reflexivity.
    destruct Q as (C & O). destruct (O eq_refl) as (_ & Y). f_equal. unfold lv_exact_ss1, exact_weight_ss1. rewrite EA, EG, Y.
    destruct C as (C1 & _ & C3 & _). rewrite C1, C3. reflexivity.
Qed.
Lemma run_rel : forall b es h m v, rel_model b h m v -> Forall (fun e => if b then no_filtered e else not_rate e) es ->
  forall x, In x (answers h m v es) -> fst x = snd x.
Proof.
  intros b es. induction es as [|e es IH]; intros h m v R N x I; [destruct I|].
  inversion N as [|? ? N1 N2]; subst. pose proof (step_rel e R N1) as Q. cbn in I.
  destruct (live_step h m e) as [[h1 m1] a]. destruct (value_step h v e) as [v1 c]. destruct Q as (Q1 & Q2).
  destruct I as [I|I]; [subst x; exact Q1|]. eapply IH; eauto.
Qed.

(** A network model that has no data yet, in a program that never supplies its own filtered array: whatever the program
    writes into the count arrays it passed in or got back, between any calls, every answer - likelihoods, rates, statistics,
    parent updates - is the one a model with private copies of its data would give. *)
Theorem C113_counts_may_be_reused : forall par h es, dm_data par = [] -> Forall no_filtered es ->
  forall x, In x (answers h {| lm_par := par; lm_data := [] |} par es) -> fst x = snd x.
Proof.
  intros par h es E N. apply (@run_rel true); [|exact N].
  split; [cbn; destruct par; cbn in *; subst; reflexivity | cbn; rewrite E; constructor].
Qed.
(** If filtered arrays are supplied and overwritten later, the same holds for everything but compute_rate(index) and the
    exact statistic. *)
Theorem C113_filtered_may_be_reused_partial : forall par h es, dm_data par = [] -> Forall not_rate es ->
  forall x, In x (answers h {| lm_par := par; lm_data := [] |} par es) -> fst x = snd x.
Proof.
  intros par h es E N. apply (@run_rel false); [|exact N].
  split; [cbn; destruct par; cbn in *; subst; reflexivity | cbn; rewrite E; constructor].
Qed.

(** compute_rate(index) after the caller has overwritten the filtered array it supplied: the rates of the new contents,
    although the likelihood, the statistics and the parents are still those of the old ones. *)
Theorem C113_supplied_filtered_refuted :
  (forall par h s f x T, dm_data par = [] -> check_S (dm_K par) (sval_in h s) = Ok T ->
     fr_isarray f = true -> fr_dims f = [T; dm_K par; dm_B par] ->
     answers h {| lm_par := par; lm_data := [] |} par [Add s (Some f) None; Write_filtered (fr_user f) x; Ask_rate 0] =
     [(Done (Ok tt), Done (Ok tt)); (Nothing, Nothing);
      (Rate (Ok (T, rate_all par x)), Rate (Ok (T, rate_all par (m_reals h (User (fr_user f))))))]) /\
  (exists par h s f x, dm_data par = [] /\
     exists y, In y (answers h {| lm_par := par; lm_data := [] |} par [Add s (Some f) None; Write_filtered (fr_user f) x; Ask_rate 0]) /\
               fst y <> snd y).
Proof.
  assert (G : forall par h s f x T, dm_data par = [] -> check_S (dm_K par) (sval_in h s) = Ok T ->
     fr_isarray f = true -> fr_dims f = [T; dm_K par; dm_B par] ->
     answers h {| lm_par := par; lm_data := [] |} par [Add s (Some f) None; Write_filtered (fr_user f) x; Ask_rate 0] =
     [(Done (Ok tt), Done (Ok tt)); (Nothing, Nothing);
      (Rate (Ok (T, rate_all par x)), Rate (Ok (T, rate_all par (m_reals h (User (fr_user f))))))]).
  { intros par h s f x T E C A D.
    assert (GF : get_F par T (sval_in h s) (Some (fval_in h f)) = Ok (m_reals h (User (fr_user f)))).
    { unfold get_F. cbn. rewrite A, D. cbn. rewrite !Nat.eqb_refl. reflexivity. }
    unfold answers, live_step, value_step, live_add_data, add_data. cbn [lm_par option_map].
    rewrite C. cbn [bindr]. rewrite GF. cbn [bindr live_batches batches lm_data]. rewrite E. cbn [List.app].
    unfold live_compute_rate, compute_rate, rate_input. cbn [lm_data dm_data with_data List.length Z.of_nat Pos.of_succ_nat].
    cbn [Z.ltb Z.compare negb py_index andb Z.leb Z.to_nat nth_error bindr fst snd pa_T pa_F mk_parents].
    repeat f_equal. unfold live_F, mk_live. cbn. unfold put. cbn. rewrite Nat.eqb_refl. reflexivity. }
  split; [exact G|].
  set (par := {| dm_K := 1; dm_B := 1; dm_dt := 1; dm_L := 1; dm_L_int := true; dm_bas := fun _ _ => 1; dm_mix := true;
                 dm_A := fun _ _ => true; dm_W := fun _ _ => 1; dm_g := fun _ _ _ => 1; dm_lam := fun _ => 1; dm_data := [] |}).
  set (h := {| m_ints := fun _ _ _ => 1%Z; m_reals := fun _ _ _ _ => 0; m_flat := fun _ _ _ => 0; m_next := 0 |}).
  set (s := {| sr_isarray := true; sr_dims := [1; 1]%nat; sr_isint := true; sr_addr := User 0 |}).
  set (f := {| fr_isarray := true; fr_dims := [1; 1; 1]%nat; fr_user := 0 |}).
  exists par, h, s, f, (fun _ _ _ => 1). split; [reflexivity|].
  rewrite (G par h s f (fun _ _ _ => 1) 1%nat); [|reflexivity|reflexivity|reflexivity|reflexivity].
  eexists. split; [right; right; left; reflexivity|]. cbn [fst snd]. intro Q.
  assert (V : rate_all par (fun _ _ _ => 1) 0%nat 0%nat = rate_all par (m_reals h (User (fr_user f))) 0%nat 0%nat).
  { assert (V : rate_all par (fun _ _ _ => 1) = rate_all par (m_reals h (User (fr_user f)))) by congruence. rewrite V. reflexivity. }
  unfold rate_all in V. cbn in V. lra.
Qed.

(* ---------------- the standard model ---------------- *)

(** Right after add_data, the live standard model is the value-level one. *)
Definition std_wf (h : mem) (m : slmodel) : Prop :=
  forall d n, In d (slm_data m) -> sl_F d = Lib n -> (n < m_next h)%nat.
Lemma sm_wd2 : forall p a b, sm_with_data (sm_with_data p a) b = sm_with_data p b.
Proof. reflexivity. Qed.
Theorem C113_standard_add : forall h m s f mb, std_wf h m ->
  match slive_add_data h m s f mb,
        s_add_data (smodel_in h m) (sval_in h s) (option_map (fun n => m_flat h (User n)) f) mb with
  | Ok (h1, m1), Ok v1 => v1 = smodel_in h1 m1 /\ std_wf h1 m1
  | Raise x, Raise y => x = y
  | _, _ => False
  end.
Proof.
  intros h m s f mb W. unfold slive_add_data, s_add_data.
  cbn [smodel_in sm_with_data sm_K sm_L sm_B sm_bas].
  destruct (check_S (sm_K (slm_par m)) (sval_in h s)) as [T|x]; cbn [bindr]; [|reflexivity].
  assert (OLD : forall F, map (sdata_in (fst (new_flat h F))) (slm_data m) = map (sdata_in h) (slm_data m)).
  { intro F. apply map_ext_in. intros d I. unfold sdata_in. f_equal. cbn. unfold put.
    destruct (sl_F d) as [n|n] eqn:EF; [reflexivity|]. cbn. pose proof (W _ _ I EF).
    replace (Nat.eqb n (m_next h)) with false by (symmetry; apply Nat.eqb_neq; lia). reflexivity. }
  assert (FIN : forall h1 fa F, m_ints h1 = m_ints h -> m_flat h1 fa = F -> (m_next h <= m_next h1)%nat ->
     (forall n, fa = Lib n -> (n < m_next h1)%nat) ->
     map (sdata_in h1) (slm_data m) = map (sdata_in h) (slm_data m) ->
     match (do ds <- slive_batches T (sr_addr s) fa mb ;; Ok (h1, {| slm_par := slm_par m; slm_data := slm_data m ++ ds |})),
           (do ps <- s_batches T (sv_at (sval_in h s)) F mb ;; Ok (sm_with_data (smodel_in h m) (sm_data (smodel_in h m) ++ ps))) with
     | Ok (h1, m1), Ok v1 => v1 = smodel_in h1 m1 /\ std_wf h1 m1
     | Raise x, Raise y => x = y
     | _, _ => False
     end).
  { intros h1 fa F I1 F1 N1 L1 O1.
    assert (WF : forall ds, (forall d, In d ds -> sl_F d = fa) -> std_wf h1 {| slm_par := slm_par m; slm_data := slm_data m ++ ds |}).
    { intros ds A d n I E. cbn in I. apply in_app_or in I as [I|I]; [pose proof (W _ _ I E); lia|].
      rewrite (A d I) in E. apply L1. exact E. }
    unfold slive_batches, s_batches. destruct mb as [n|].
    - destruct (Z.eqb n 0); [reflexivity|]. destruct (Z.ltb n 0); cbn [bindr].
      + split; [|apply WF; intros ? []]. unfold smodel_in. cbn. rewrite !app_nil_r, O1. reflexivity.
      + split; [|apply WF; intros d I; apply in_map_iff in I as (o & <- & _); reflexivity].
        unfold smodel_in. cbn [slm_par slm_data sm_data sm_with_data]. rewrite map_app, O1, map_map, sm_wd2.
        f_equal. f_equal. apply map_ext. intro o. unfold sdata_in. cbn [sl_T sl_S sl_F sl_off]. rewrite F1, I1. reflexivity.
    - cbn [bindr]. split; [|apply WF; intros d [<-|[]]; reflexivity].
      unfold smodel_in. cbn [slm_par slm_data sm_data sm_with_data]. rewrite map_app, O1, sm_wd2.
      f_equal. f_equal. cbn [map]. unfold sdata_in. cbn [sl_T sl_S sl_F sl_off]. rewrite F1, I1. reflexivity. }
  destruct f as [n|]; cbn [option_map bindr].
  - apply (FIN h (User n)); auto. intros ? D; discriminate D.
  - change (sv_at (sval_in h s)) with (m_ints h (sr_addr s)).
    destruct (convolve_with_basis T (sm_K (slm_par m)) (m_ints h (sr_addr s)) (sm_L (slm_par m)) (sm_B (slm_par m)) (sm_bas (slm_par m))) as [F|x];
      cbn [bindr]; [|reflexivity].
    destruct (Nat.eqb (sm_B (slm_par m)) 0); cbn [bindr]; [reflexivity|].
    apply (FIN (fst (new_flat h (flatten_F (sm_B (slm_par m)) F))) (snd (new_flat h (flatten_F (sm_B (slm_par m)) F)))).
    + reflexivity.
    + cbn. unfold put. cbn. rewrite Nat.eqb_refl. reflexivity.
    + cbn. lia.
    + intros n E. cbn in E. injection E as <-. cbn. lia.
    + apply OLD.
Qed.

(** What a standard model computes from a data set whose counts the caller has overwritten with [X]: the new counts
    against the rates of the old ones, whose filtered array it kept. *)
Theorem C113_standard_overwritten : forall h par s h1 m1 X, sm_data par = [] ->
  slive_add_data h {| slm_par := par; slm_data := [] |} s None None = Ok (h1, m1) ->
  exists T F, s_add_data par (sval_in h s) None None =
                Ok (sm_with_data par [{| sd_T := T; sd_S := m_ints h (sr_addr s); sd_F := F |}]) /\
    smodel_in (put_ints h1 (sr_addr s) X) m1 = sm_with_data par [{| sd_T := T; sd_S := X; sd_F := F |}].
Proof.
  intros h par s h1 m1 X E A.
  assert (W : std_wf h {| slm_par := par; slm_data := [] |}) by (intros d n []).
  assert (SM : smodel_in h {| slm_par := par; slm_data := [] |} = par).
  { unfold smodel_in. cbn. destruct par; cbn in *; subst; reflexivity. }
  pose proof (@C113_standard_add h {| slm_par := par; slm_data := [] |} s None None W) as Q. rewrite A in Q. cbn [option_map] in Q.
  rewrite SM in Q.
  destruct (s_add_data par (sval_in h s) None None) as [v1|] eqn:B; [|destruct Q]. destruct Q as (Q & _).
  unfold slive_add_data in A. cbn [slm_par slm_data] in A.
  destruct (check_S (sm_K par) (sval_in h s)) as [T|] eqn:C; cbn [bindr] in A; [|discriminate].
  change (sv_at (sval_in h s)) with (m_ints h (sr_addr s)) in A.
  destruct (convolve_with_basis T (sm_K par) (m_ints h (sr_addr s)) (sm_L par) (sm_B par) (sm_bas par)) as [F|]; cbn [bindr] in A; [|discriminate].
  destruct (Nat.eqb (sm_B par) 0); cbn [bindr] in A; [discriminate|].
  cbn [slive_batches bindr List.app] in A. injection A as <- <-.
  exists T, (flatten_F (sm_B par) F).
  assert (FF : m_flat (fst (new_flat h (flatten_F (sm_B par) F))) (Lib (m_next h)) = flatten_F (sm_B par) F).
  { cbn. unfold put. cbn. rewrite Nat.eqb_refl. reflexivity. }
  split.
  - rewrite Q. unfold smodel_in, sdata_in. cbn. unfold put. cbn. rewrite Nat.eqb_refl. reflexivity.
  - unfold smodel_in, sdata_in. cbn. unfold put. cbn. rewrite Nat.eqb_refl.
    assert (R : addr_eqb (sr_addr s) (sr_addr s) = true) by (destruct (sr_addr s); apply Nat.eqb_refl).
    rewrite R. reflexivity.
Qed.

(** So the rates do not move, and the likelihood becomes that of neither data set. *)
Definition ex_par : smodel :=
  {| sm_K := 1; sm_B := 1; sm_dt := 1; sm_alpha := 1; sm_beta := 0; sm_allow := true; sm_L := 2;
     sm_bas := fun l _ => INR l; sm_w := fun _ _ => 1; sm_data := [] |}.
Definition ex_S : imat := fun t _ => match t with O => 1 | _ => 0 end%Z.
Definition ex_X : imat := fun t _ => match t with O => 0 | _ => 1 end%Z.
Definition ex_h : mem := {| m_ints := fun _ => ex_S; m_reals := fun _ _ _ _ => 0; m_flat := fun _ _ _ => 0; m_next := 0 |}.
Definition ex_s : sref := {| sr_isarray := true; sr_dims := [2; 1]%nat; sr_isint := true; sr_addr := User 0 |}.

Lemma ex_filtered : forall (C : imat) F, convolve_with_basis 2 1 C 2 1 (sm_bas ex_par) = Ok F ->
  F 0%nat 0%nat 0%nat = 0 /\ F 1%nat 0%nat 0%nat = IZR (C 0%nat 0%nat).
Proof.
  intros C F E. split.
  - rewrite (@convolve_causal _ _ _ _ _ _ _ E) by lia. unfold causal_conv. cbn. lra.
  - rewrite (@convolve_causal _ _ _ _ _ _ _ E) by lia. unfold causal_conv. cbn. lra.
Qed.
Lemma ex_ll : forall (C X : imat) F, convolve_with_basis 2 1 C 2 1 (sm_bas ex_par) = Ok F ->
  (0 <= C 0%nat 0%nat)%Z ->
  s_log_likelihood (sm_with_data ex_par [{| sd_T := 2; sd_S := X; sd_F := flatten_F 1 F |}]) All KNone =
  Ok (Fin (IZR (X 1%nat 0%nat) * ln (1 + IZR (C 0%nat 0%nat)) - 2 - IZR (C 0%nat 0%nat))).
Proof.
  intros C X F E N. destruct (ex_filtered C E) as (F0 & F1).
  rewrite (@s_ll_all _ KNone [0%nat]) by reflexivity.
  cbn [sm_data sm_with_data map elsum]. unfold s_ll_data. cbn [sd_T esum map elsum sm_dt sm_with_data ex_par sm_P sm_w sd_S].
  assert (R0 : s_rate 2 (fun _ => 1) {| sd_T := 2; sd_S := X; sd_F := flatten_F 1 F |} 0 = 1).
  { unfold s_rate. cbn. change (0 mod 1)%nat with 0%nat. cbn. rewrite F0. lra. }
  assert (R1 : s_rate 2 (fun _ => 1) {| sd_T := 2; sd_S := X; sd_F := flatten_F 1 F |} 1 = 1 + IZR (C 0%nat 0%nat)).
  { unfold s_rate. cbn. rewrite F1. lra. }
  unfold sm_P. cbn [sm_K sm_B Nat.add Nat.mul]. change (1 + 1)%nat with 2%nat.
  assert (P : 0 < 1 + IZR (C 0%nat 0%nat)). { apply IZR_le in N. lra. }
  unfold s_ll_cell.
  repeat match goal with |- context [s_rate ?a ?b ?c 0] => change (s_rate a b c 0) with (s_rate 2 (fun _ => 1) {| sd_T := 2; sd_S := X; sd_F := flatten_F 1 F |} 0); rewrite R0 end.
  repeat match goal with |- context [s_rate ?a ?b ?c 1] => change (s_rate a b c 1) with (s_rate 2 (fun _ => 1) {| sd_T := 2; sd_S := X; sd_F := flatten_F 1 F |} 1); rewrite R1 end.
  rewrite !elog_fin by lra. cbn [emul esub eopp eadd]. f_equal. f_equal. rewrite ln_1. ring.
Qed.
Theorem C113_standard_counts_refuted :
  exists h par s h1 m1 X before after new,
    sm_data par = [] /\ slive_add_data h {| slm_par := par; slm_data := [] |} s None None = Ok (h1, m1) /\
    s_log_likelihood (smodel_in h1 m1) All KNone = Ok (Fin before) /\
    s_log_likelihood (smodel_in (put_ints h1 (sr_addr s) X) m1) All KNone = Ok (Fin after) /\
    (do v <- s_add_data par (sval_of 2 1 X) None None ;; s_log_likelihood v All KNone) = Ok (Fin new) /\
    after <> before /\ after <> new.
Proof.
  destruct (@convolve_ok 2 1 ex_S 2 1 (sm_bas ex_par)) as (F & EF); [lia|lia|lia|lia|].
  destruct (@convolve_ok 2 1 ex_X 2 1 (sm_bas ex_par)) as (G & EG); [lia|lia|lia|lia|].
  destruct (slive_add_data ex_h {| slm_par := ex_par; slm_data := [] |} ex_s None None) as [[h1 m1]|x] eqn:A.
  2:{ exfalso. unfold slive_add_data in A. cbn [slm_par ex_par sm_K] in A.
      assert (C : check_S 1 (sval_in ex_h ex_s) = Ok 2%nat) by reflexivity. rewrite C in A. cbn [bindr] in A.
      change (sv_at (sval_in ex_h ex_s)) with ex_S in A. cbn [sm_L sm_B] in A.
      match type of A with context [convolve_with_basis ?a ?b ?c ?d ?e ?f] =>
        assert (Q : convolve_with_basis a b c d e f = Ok F) by exact EF; rewrite Q in A end.
      cbn in A. discriminate. }
  exists ex_h, ex_par, ex_s, h1, m1, ex_X. eexists. eexists. eexists.
  split; [reflexivity|]. split; [exact A|].
  destruct (@C113_standard_overwritten ex_h ex_par ex_s h1 m1 ex_X eq_refl A) as (T & F' & B1 & B2).
  assert (W : std_wf ex_h {| slm_par := ex_par; slm_data := [] |}) by (intros d n []).
  pose proof (@C113_standard_add ex_h {| slm_par := ex_par; slm_data := [] |} ex_s None None W) as Q. rewrite A in Q. cbn [option_map] in Q.
  change (smodel_in ex_h {| slm_par := ex_par; slm_data := [] |}) with ex_par in Q. rewrite B1 in Q. destruct Q as (Q & _).
  assert (TF : T = 2%nat /\ F' = flatten_F 1 F).
  { unfold s_add_data in B1.
    assert (C : check_S (sm_K ex_par) (sval_in ex_h ex_s) = Ok 2%nat) by reflexivity. rewrite C in B1. cbn [bindr] in B1.
    change (sv_at (sval_in ex_h ex_s)) with ex_S in B1.
    change (convolve_with_basis 2 (sm_K ex_par) ex_S (sm_L ex_par) (sm_B ex_par) (sm_bas ex_par)) with (convolve_with_basis 2 1 ex_S 2 1 (sm_bas ex_par)) in B1.
    rewrite EF in B1. cbn [bindr sm_B ex_par Nat.eqb s_batches] in B1. cbn in B1.
    match type of B1 with Ok ?a = Ok ?b => assert (Z_ : sm_data a = sm_data b) by congruence end. cbn in Z_.
    injection Z_ as <- Z_. split; [reflexivity | symmetry; exact Z_]. }
  destruct TF as (-> & ->).
  split. { rewrite <- Q. apply (ex_ll ex_S _ EF). cbn. lia. }
  split. { rewrite B2. apply (ex_ll ex_S _ EF). cbn. lia. }
  split.
  { unfold s_add_data. assert (C : check_S (sm_K ex_par) (sval_of 2 1 ex_X) = Ok 2%nat) by reflexivity. rewrite C. cbn [bindr].
    change (convolve_with_basis 2 (sm_K ex_par) (sv_at (sval_of 2 1 ex_X)) (sm_L ex_par) (sm_B ex_par) (sm_bas ex_par)) with (convolve_with_basis 2 1 ex_X 2 1 (sm_bas ex_par)).
    rewrite EG. cbn [bindr sm_B ex_par Nat.eqb s_batches]. cbn [bindr]. apply (ex_ll ex_X _ EG). cbn. lia. }
  assert (L2 : 0 < ln 2 < 1). { split; [rewrite <- ln_1; apply ln_increasing; lra|]. pose proof ln_lt_2. 
    assert (ln 2 < ln (exp 1)). { apply ln_increasing; [lra|]. pose proof (exp_ineq1 1). lra. } rewrite ln_exp in H0. lra. }
  cbn. replace (1 + 1) with 2 by lra. replace (1 + 0) with 1 by lra. rewrite ln_1. split; lra.
Qed.

(** The hypotheses are met: a data set is added, its array is overwritten, the parents are resampled, and every
    answer is that of the private copy. *)
Definition ex_dm : dmodel :=
  {| dm_K := 1; dm_B := 1; dm_dt := 1; dm_L := 2; dm_L_int := true; dm_bas := fun l _ => INR l; dm_mix := true;
     dm_A := fun _ _ => true; dm_W := fun _ _ => 1; dm_g := fun _ _ _ => 1; dm_lam := fun _ => 1; dm_data := [] |}.
Definition ex_events : list event :=
  [Add ex_s None None; Write_counts (User 0) ex_X; Resample_parents 0 false (fun _ _ n _ c => match c with O => n | _ => 0%Z end);
   Ask_stats 0; Ask_rate 0; Ask_ll All].
Example C113_nonvacuous : Forall no_filtered ex_events /\ dm_data ex_dm = [] /\ List.length (answers ex_h {| lm_par := ex_dm; lm_data := [] |} ex_dm ex_events) = 6%nat /\
  exists m1, live_add_data ex_h {| lm_par := ex_dm; lm_data := [] |} ex_s None None = Ok m1.
Proof.
  split; [repeat constructor|]. split; [reflexivity|]. split.
  - unfold ex_events. cbn [answers].
    repeat match goal with |- context [live_step ?a ?b ?c] => destruct (live_step a b c) as [[? ?] ?] end.
    repeat match goal with |- context [value_step ?a ?b ?c] => destruct (value_step a b c) end. reflexivity.
  - unfold live_add_data. assert (C : check_S (dm_K (lm_par {| lm_par := ex_dm; lm_data := [] |})) (sval_in ex_h ex_s) = Ok 2%nat) by reflexivity.
    rewrite C. cbn [bindr option_map get_F].
    destruct (@convolve_ok 2 1 ex_S 2 1 (dm_bas ex_dm)) as (F & EF); [lia|lia|lia|lia|].
    match goal with |- context [convolve_with_basis ?a ?b ?c ?d ?e ?f] => change (convolve_with_basis a b c d e f) with (convolve_with_basis 2 1 ex_S 2 1 (dm_bas ex_dm)) end.
    rewrite EF. cbn. eexists. reflexivity.
Qed.
Print Assumptions C113_counts_may_be_reused.
Print Assumptions C113_filtered_may_be_reused_partial.
Print Assumptions C113_supplied_filtered_refuted.
Print Assumptions C113_standard_add.
Print Assumptions C113_standard_overwritten.
Print Assumptions C113_standard_counts_refuted.
