(** * L_Interrupt: lemmas about sweeps executed write by write. *)
From Coq Require Import FunctionalExtensionality Permutation.
From Verif Require Import Prelude ExtReal Arrays Spec_Basis Spec_Discrete Spec_Parents Spec_Gibbs Spec_Network
  M_Basis M_Parents M_Discrete M_Gibbs M_Dist M_Network M_Sweep M_Interrupt L_Basis L_Discrete L_Parents L_Gibbs L_Network
  Props_Discrete Props_Parents Props_Gibbs Props_Network L_Sweep Props_Sweep.
Set Implicit Arguments.
Open Scope R_scope.

(* ---------------- loops over the cells of an array ---------------- *)
Lemma cells_In n m a b : In (a, b) (cells n m) <-> (a < n)%nat /\ (b < m a)%nat.
Proof.
  unfold cells. rewrite in_flat_map. split.
  - intros (x & Hx & H). apply in_map_iff in H as (y & E & Hy). injection E as -> ->. apply in_seq in Hx, Hy. lia.
  - intros [H1 H2]. exists a. split; [apply in_seq; lia|]. apply in_map_iff. exists b. split; [reflexivity|apply in_seq; lia].
Qed.
Lemma fold_put {V} (new : nat -> nat -> V) l : forall old i j,
  fold_left (fun f (c : nat * nat) => put (fst c) (snd c) new f) l old i j
  = if existsb (fun c => (Nat.eqb i (fst c) && Nat.eqb j (snd c))%bool) l then new i j else old i j.
Proof.
  induction l as [|c l IH]; intros old i j; cbn [fold_left existsb]; [reflexivity|]. rewrite IH. unfold put.
  destruct (_ && _)%bool; cbn [orb]; [now destruct (existsb _ l)|reflexivity].
Qed.
Lemma put_cells {V} n m (new old : nat -> nat -> V) :
  fold_left (fun f (c : nat * nat) => put (fst c) (snd c) new f) (cells n m) (enter n m new old) = new.
Proof.
  extensionality i. extensionality j. rewrite fold_put. destruct (existsb _ _) eqn:E; [reflexivity|].
  unfold enter. destruct (Nat.ltb_spec i n) as [H1|]; [|reflexivity]. destruct (Nat.ltb_spec j (m i)) as [H2|]; [|reflexivity].
  exfalso. cut (existsb (fun c : nat * nat => (Nat.eqb i (fst c) && Nat.eqb j (snd c))%bool) (cells n m) = true); [congruence|].
  apply existsb_exists. exists (i, j). split; [apply cells_In; auto|]. cbn [fst snd]. now rewrite !Nat.eqb_refl.
Qed.
Lemma fold_put_process {V} (new : nat -> V) l : forall old i,
  fold_left (fun f k => put_process k new f) l old i = if existsb (Nat.eqb i) l then new i else old i.
Proof.
  induction l as [|c l IH]; intros old i; cbn [fold_left existsb]; [reflexivity|]. rewrite IH. unfold put_process.
  destruct (Nat.eqb i c); cbn [orb]; [now destruct (existsb _ l)|reflexivity].
Qed.
Lemma put_processes {V} n (new old : nat -> V) :
  fold_left (fun f k => put_process k new f) (seq 0 n) (fun k => if Nat.ltb k n then old k else new k) = new.
Proof.
  extensionality i. rewrite fold_put_process. destruct (existsb _ _) eqn:E; [reflexivity|].
  destruct (Nat.ltb_spec i n) as [H|]; [|reflexivity]. exfalso.
  cut (existsb (Nat.eqb i) (seq 0 n) = true); [congruence|]. apply existsb_exists. exists i. split; [apply in_seq; lia|apply Nat.eqb_refl].
Qed.
Lemma fold_cells {V} (f : V -> nat -> nat -> V) n m x :
  fold_left (fun v (c : nat * nat) => f v (fst c) (snd c)) (cells n m) x
  = fold_left (fun v a => fold_left (fun v b => f v a b) (seq 0 (m a)) v) (seq 0 n) x.
Proof.
  unfold cells. revert x. induction (seq 0 n) as [|a l IH]; intros x; cbn [flat_map fold_left]; [reflexivity|].
  rewrite fold_left_app, IH. f_equal. clear. revert x. induction (seq 0 (m a)) as [|b l IH]; intros x; cbn [map fold_left]; [reflexivity|].
  apply IH.
Qed.

(* ---------------- exec ---------------- *)
Lemma exec_app l1 l2 st : exec (l1 ++ l2) st = match exec l1 st with (Ok _, st') => exec l2 st' | r => r end.
Proof.
  revert st. induction l1 as [|f l1 IH]; intros st; cbn [app exec]; [reflexivity|]. destruct (f st); [apply IH|reflexivity].
Qed.
Lemma exec_ok_app l1 l2 st st1 st2 : exec l1 st = (Ok tt, st1) -> exec l2 st1 = (Ok tt, st2) -> exec (l1 ++ l2) st = (Ok tt, st2).
Proof. intros H1 H2. now rewrite exec_app, H1. Qed.
(** A loop of steps that act on one component of the state. *)
Lemma exec_loop {I V} (step : I -> wstep) (mk : V -> gibbs) (f : V -> I -> V) l : forall v,
  (forall i v, In i l -> step i (mk v) = Ok (mk (f v i))) -> exec (map step l) (mk v) = (Ok tt, mk (fold_left f l v)).
Proof.
  induction l as [|i l IH]; intros v H; cbn [map exec fold_left]; [reflexivity|].
  rewrite (H i v (or_introl eq_refl)). apply IH. intros j w Hj. apply H. now right.
Qed.

(* ---------------- parents ---------------- *)
Lemma set_nth_app {A} (f : A -> A) pre x post : set_nth (length pre) f (pre ++ x :: post) = pre ++ f x :: post.
Proof. induction pre as [|y pre IH]; cbn; [reflexivity|]. now rewrite IH. Qed.
Lemma nth_app_mid {A} (d : A) pre x post : nth (length pre) (pre ++ x :: post) d = x.
Proof. now rewrite app_nth2, Nat.sub_diag by lia. Qed.

(** The state whose data are [data]. *)
Definition st_data (st : gibbs) (data : list parents) : gibbs := with_model st (with_data (gi_m st) data).
Lemma st_data_same st : st_data st (dm_data (gi_m st)) = st.
Proof. now destruct st as [[] ? ?]. Qed.
Lemma on_data_mid st f pre x post :
  on_data (length pre) f (st_data st (pre ++ x :: post)) = st_data st (pre ++ f (st_data st (pre ++ x :: post)) x :: post).
Proof. unfold on_data, st_data. cbn [with_model gi_m with_data dm_data]. now rewrite set_nth_app. Qed.

Section Parents.
Variables (st : gibbs) (pre post : list parents) (p : parents) (mult : mult_oracle).
Let mk (Z_ : nat -> nat -> nat -> Z) : gibbs := st_data st (pre ++ set_Z p Z_ :: post).
Let q := params_of (gi_m st).
Hypothesis Hn : pa_nonneg p (q_lam q) (q_W q) (q_g q).
Hypothesis Hf : fits p.

Lemma nth_mk Z_ : nth_data (mk Z_) (length pre) = set_Z p Z_.
Proof. unfold nth_data, mk, st_data. cbn [with_model gi_m with_data dm_data]. apply nth_app_mid. Qed.
Lemma row_ok_mk gsl Z_ k r : (k < pa_K p)%nat -> (r < pa_Tk p k)%nat -> row_ok gsl (mk Z_) (set_Z p Z_) k r = Ok tt.
Proof.
  intros Hk Hr. unfold row_ok. destruct (@fits_Ss p k r Hf Hk Hr) as [_ H]. change (pa_Ss (set_Z p Z_) k r) with (pa_Ss p k r).
  apply Z.ltb_lt in H. rewrite H. cbn [negb]. rewrite andb_false_r.
  change (pa_K (set_Z p Z_)) with (pa_K p). change (pa_B (set_Z p Z_)) with (pa_B p).
  change (params_of (gi_m (mk Z_))) with q.
  replace (Reqb _ 0) with false; [reflexivity|]. symmetry. apply Reqb_false. pose proof (@row_rate_pos p q k r Hn Hk Hr). destruct gsl.
  - change (pvec_gsl (set_Z p Z_) q k r) with (pvec_gsl p q k r).
    rewrite (Rsum_ext _ (pvec_python p q k r)) by (intros; apply pvec_gsl_eq). rewrite pvec_sum. lra.
  - change (pvec_python (set_Z p Z_) q k r) with (pvec_python p q k r). rewrite pvec_sum. lra.
Qed.
Definition drawn (gsl : bool) : nat -> nat -> nat -> Z :=
  fun k r c => let '(n, v) := (if gsl then request_gsl else request_python) p q k r in u32 (mult k r n v c).
Lemma new_rows_mk gsl Z_ : new_rows gsl mult (mk Z_) (set_Z p Z_) = drawn gsl.
Proof. destruct gsl; reflexivity. Qed.

Lemma row_step_mk Z_ k r : (k < pa_K p)%nat -> (r < pa_Tk p k)%nat ->
  row_step mult (length pre) k r (mk Z_) = Ok (mk (put k r (drawn false) Z_)).
Proof.
  intros Hk Hr. unfold row_step. rewrite nth_mk, row_ok_mk by auto. cbn [bindr]. unfold mk at 1. now rewrite on_data_mid.
Qed.
Lemma process_step_mk Z_ k : (k < pa_K p)%nat ->
  process_step mult (length pre) k (mk Z_) = Ok (mk (put_process k (drawn true) Z_)).
Proof.
  intros Hk. unfold process_step. rewrite nth_mk.
  replace (forall_lt _ _) with true.
  - cbn [guard bindr]. unfold mk at 1. now rewrite on_data_mid.
  - symmetry. apply forall_lt_true. intros r Hr. now rewrite row_ok_mk.
Qed.
Lemma parents_steps_mk gsl Z0 : exec (parents_steps gsl mult (length pre) p) (mk Z0) = (Ok tt, mk (drawn gsl)).
Proof.
  unfold parents_steps. cbn [exec pure]. unfold mk at 1. rewrite on_data_mid. destruct gsl; cbn [set_Z pa_Z pa_K].
  - change (exec (map (process_step mult (length pre)) (seq 0 (pa_K p)))
        (mk (fun k => if Nat.ltb k (pa_K p) then Z0 k else drawn true k)) = (Ok tt, mk (drawn true))).
    rewrite (@exec_loop _ _ _ mk (fun f k => put_process k (drawn true) f)); [now rewrite put_processes|].
    intros k Z_ Hk. apply in_seq in Hk. apply process_step_mk. lia.
  - change (exec (map (fun c => row_step mult (length pre) (fst c) (snd c)) (cells (pa_K p) (pa_Tk p)))
        (mk (enter (pa_K p) (pa_Tk p) (drawn false) Z0)) = (Ok tt, mk (drawn false))).
    rewrite (@exec_loop _ _ _ mk (fun f c => put (fst c) (snd c) (drawn false) f)); [now rewrite put_cells|].
    intros [k r] Z_ Hin. apply cells_In in Hin as [Hk Hr]. apply row_step_mk; auto.
Qed.
End Parents.

Lemma pa_resample_drawn gsl mult p q p' : pa_resample gsl mult p q = Ok p' ->
  p' = set_Z p (fun k r c => let '(n, v) := (if gsl then request_gsl else request_python) p q k r in u32 (mult k r n v c)).
Proof.
  unfold pa_resample, resample_Z_gsl, resample_Z_python. destruct gsl; destruct (negb _); try discriminate.
  - intros E. injection E as <-. reflexivity.
  - destruct (negb _); [discriminate|]. intros E. injection E as <-. reflexivity.
Qed.
Lemma all_parents_steps_ok gsl mult st data : forall pre,
  (forall p, In p data -> pa_nonneg p (dm_lam (gi_m st)) (q_W (params_of (gi_m st))) (dm_g (gi_m st)) /\ fits p) ->
  exists data', resample_parents gsl mult (params_of (gi_m st)) (length pre) data = Ok data' /\
    exec (all_parents_steps gsl mult (length pre) data) (st_data st (pre ++ data)) = (Ok tt, st_data st (pre ++ data')).
Proof.
  induction data as [|p data IH]; intros pre H; cbn [resample_parents all_parents_steps].
  - exists []. auto.
  - destruct (H p (or_introl eq_refl)) as [Hn Hf].
    destruct (@resample_ok gsl (mult (length pre)) p (params_of (gi_m st)) Hn Hf) as (p' & Ep).
    pose proof (@pa_resample_drawn _ _ _ _ _ Ep) as Edr.
    destruct (IH (pre ++ [p']) (fun x Hx => H x (or_intror Hx))) as (data' & E & Ex).
    rewrite app_length in E, Ex. cbn [length] in E, Ex. rewrite Nat.add_1_r in E, Ex. rewrite <- !app_assoc in Ex. cbn [app] in Ex.
    exists (p' :: data'). rewrite Ep. cbn [bindr]. rewrite E. cbn [bindr]. split; [reflexivity|].
    eapply exec_ok_app; [|exact Ex].
    replace (p :: data) with (set_Z p (pa_Z p) :: data) by (f_equal; now destruct p).
    rewrite (@parents_steps_mk st pre data p (mult (length pre)) Hn Hf gsl (pa_Z p)). unfold drawn. rewrite Edr. reflexivity.
Qed.

(* ---------------- the other loops ---------------- *)
Definition st_g (st : gibbs) (g : ten) : gibbs := with_model st (with_g (gi_m st) g).
Lemma ir_steps_ok dr st : exec (ir_steps dr (dm_K (gi_m st))) st = (Ok tt, st_g st (ir_new dr st)).
Proof.
  unfold ir_steps. cbn [exec on_g pure].
  change (exec (map (fun c => on_g (fun st => put (fst c) (snd c) (ir_new dr st) (dm_g (gi_m st)))) (cells (dm_K (gi_m st)) (fun _ => dm_K (gi_m st))))
     (st_g st (enter (dm_K (gi_m st)) (fun _ => dm_K (gi_m st)) (ir_new dr st) (dm_g (gi_m st)))) = (Ok tt, st_g st (ir_new dr st))).
  rewrite (@exec_loop _ _ _ (st_g st) (fun f c => put (fst c) (snd c) (ir_new dr st) f)); [refine (f_equal (fun x => (Ok tt, _ x)) _); apply put_cells|].
  intros [a b] g _. reflexivity.
Qed.
Definition st_net (st : gibbs) (no : netobj) : gibbs := {| gi_m := gi_m st; gi_net := no; gi_h := gi_h st |}.
Lemma p_steps_ok d st fp s : exec (p_steps d (sb_C s)) (st_net st (NetSbm fp s))
  = (Ok tt, st_net st (NetSbm fp (sb_set s (sb_m s) (sb_c s) (p_new d st s) (sb_v s)))).
Proof.
  unfold p_steps. cbn [exec on_net pure sbm_of st_net gi_net].
  set (mk := fun p => st_net st (NetSbm fp (sb_set s (sb_m s) (sb_c s) p (sb_v s)))).
  change (exec (map (fun c => on_net (fun st => sbm_of (gi_net st) (fun s =>
            sb_set s (sb_m s) (sb_c s) (put (fst c) (snd c) (p_new d st s) (sb_p s)) (sb_v s)))) (cells (sb_C s) (fun _ => sb_C s)))
     (mk (enter (sb_C s) (fun _ => sb_C s) (p_new d st s) (sb_p s))) = (Ok tt, mk (p_new d st s))).
  rewrite (@exec_loop _ _ _ mk (fun f c => put (fst c) (snd c) (p_new d st s) f)); [refine (f_equal (fun x => (Ok tt, _ x)) _); apply put_cells|].
  intros [a b] p _. reflexivity.
Qed.
Lemma v_steps_ok d st fp s : exec (v_steps d (sb_C s)) (st_net st (NetSbm fp s))
  = (Ok tt, st_net st (NetSbm fp (sb_set s (sb_m s) (sb_c s) (sb_p s) (v_new d st s)))).
Proof.
  unfold v_steps. cbn [exec on_net pure sbm_of st_net gi_net].
  set (mk := fun v => st_net st (NetSbm fp (sb_set s (sb_m s) (sb_c s) (sb_p s) v))).
  change (exec (map (fun c => on_net (fun st => sbm_of (gi_net st) (fun s =>
            sb_set s (sb_m s) (sb_c s) (sb_p s) (put (fst c) (snd c) (v_new d st s) (sb_v s))))) (cells (sb_C s) (fun _ => sb_C s)))
     (mk (enter (sb_C s) (fun _ => sb_C s) (v_new d st s) (sb_v s))) = (Ok tt, mk (v_new d st s))).
  rewrite (@exec_loop _ _ _ mk (fun f c => put (fst c) (snd c) (v_new d st s) f)); [refine (f_equal (fun x => (Ok tt, _ x)) _); apply put_cells|].
  intros [a b] p _. reflexivity.
Qed.
Lemma c_steps_ok lgam d st fp s :
  exec (if (sb_C s =? 1)%nat then [] else map (c_step lgam d) (seq 0 (sb_K s))) (st_net st (NetSbm fp s))
  = (Ok tt, st_net st (NetSbm fp (sb_set s (sb_m s) (resample_c lgam (gd_pick d) s (dm_A (gi_m st)) (dm_W (gi_m st))) (sb_p s) (sb_v s)))).
Proof.
  unfold resample_c. destruct (sb_C s =? 1)%nat; [now destruct s|].
  set (mk := fun c => st_net st (NetSbm fp (sb_set s (sb_m s) c (sb_p s) (sb_v s)))).
  replace (st_net st (NetSbm fp s)) with (mk (sb_c s)) by (unfold mk; now destruct s).
  rewrite (@exec_loop _ _ _ mk (fun c k => upd c k (gd_pick d k (c_request lgam s (dm_A (gi_m st)) (dm_W (gi_m st)) c k)))); [reflexivity|].
  intros k c _. reflexivity.
Qed.
Lemma net_steps_ok lgam d g st : exec (net_steps lgam d g (gi_net st)) st
  = (Ok tt, st_net st (net_resample lgam d g (dm_A (gi_m st)) (dm_W (gi_m st)) (gi_net st))).
Proof.
  destruct st as [m no h]. cbn [gi_net gi_m]. destruct no as [fp s|n]; cbn [net_steps net_resample]; [|reflexivity].
  unfold sbm_resample. destruct (sb_fixed s); [reflexivity|].
  set (st := {| gi_m := m; gi_net := NetSbm fp s; gi_h := h |}). change st with (st_net st (NetSbm fp s)) at 1.
  assert (Hrest : forall s1, exec (v_steps d (sb_C s1) ++ (if (sb_C s1 =? 1)%nat then [] else map (c_step lgam d) (seq 0 (sb_K s1))) ++ [m_step d]) (st_net st (NetSbm fp s1))
    = (Ok tt, st_net st (NetSbm fp
        (let s2 := sb_set s1 (sb_m s1) (sb_c s1) (sb_p s1) (v_new d st s1) in
         let s3 := sb_set s2 (sb_m s2) (resample_c lgam (gd_pick d) s2 (dm_A m) (dm_W m)) (sb_p s2) (sb_v s2) in
         sb_set s3 (gd_dir d (m_request s3)) (sb_c s3) (sb_p s3) (sb_v s3))))).
  { intros s1. eapply exec_ok_app; [apply v_steps_ok|].
    set (s2 := sb_set s1 (sb_m s1) (sb_c s1) (sb_p s1) (v_new d st s1)).
    change (sb_C s1) with (sb_C s2). change (sb_K s1) with (sb_K s2).
    eapply exec_ok_app; [apply c_steps_ok|]. reflexivity. }
  destruct fp; cbn [app].
  - rewrite Hrest. reflexivity.
  - eapply exec_ok_app; [apply p_steps_ok|].
    set (s1 := sb_set s (sb_m s) (sb_c s) (p_new d st s) (sb_v s)). change (sb_C s) with (sb_C s1). change (sb_K s) with (sb_K s1).
    rewrite Hrest. reflexivity.
Qed.

Definition st_A (st : gibbs) (A : bmat) : gibbs := with_model st (with_A (gi_m st) A).
Lemma edge_step_absorb ll P u A k1 k2 a b : edge_step ll P u (upd2 (upd2 A k1 k2 a) k1 k2 b) k1 k2 = edge_step ll P u A k1 k2.
Proof.
  assert (E : forall A a b c, @upd2 bool (upd2 (upd2 A k1 k2 a) k1 k2 b) k1 k2 c = upd2 A k1 k2 c).
  { intros. extensionality i. extensionality j. unfold upd2. now destruct (_ && _)%bool. }
  unfold edge_step. rewrite (E A a b false). reflexivity.
Qed.
Lemma A_serial_steps_ok order u st : exec (A_steps false order u (dm_K (gi_m st))) st
  = (Ok tt, st_A st (resample_A_serial (gi_m st) (net_view (gi_net st)) u (dm_data (gi_m st)))).
Proof.
  unfold A_steps, resample_A_serial, serial_sweep.
  rewrite <- (@fold_cells _ (fun A k1 k2 => edge_step (data_ll (gi_m st) (dm_data (gi_m st))) (n_P (net_view (gi_net st))) u A k1 k2) (dm_K (gi_m st)) (fun _ => dm_K (gi_m st))).
  replace st with (st_A st (dm_A (gi_m st))) at 2 by (now destruct st as [[] ? ?]).
  generalize (dm_A (gi_m st)). induction (cells _ _) as [|[k1 k2] l IH]; intros A; cbn [flat_map fold_left fst snd]; [reflexivity|].
  eapply exec_ok_app; [|apply IH]. cbn [edge_steps exec trial_step on_m pure draw_step].
  change (dm_A (gi_m (with_model (with_model (st_A st A) (with_A (gi_m (st_A st A)) (upd2 (dm_A (gi_m (st_A st A))) k1 k2 false)))
    (with_A (gi_m (with_model (st_A st A) (with_A (gi_m (st_A st A)) (upd2 (dm_A (gi_m (st_A st A))) k1 k2 false))))
      (upd2 (dm_A (gi_m (with_model (st_A st A) (with_A (gi_m (st_A st A)) (upd2 (dm_A (gi_m (st_A st A))) k1 k2 false))))) k1 k2 true)))))
    with (upd2 (upd2 A k1 k2 false) k1 k2 true).
  rewrite edge_step_absorb. reflexivity.
Qed.
