(** * Props_Interrupt: property C100: Gibbs sweeps stopped by an exception or KeyboardInterrupt. *)
From Coq Require Import FunctionalExtensionality Permutation.
From Verif Require Import Prelude ExtReal Arrays Spec_Basis Spec_Discrete Spec_Parents Spec_Gibbs Spec_Network
  M_Basis M_Parents M_Discrete M_Gibbs M_Dist M_Network M_Sweep M_Interrupt L_Basis L_Discrete L_Parents L_Gibbs L_Network
  Props_Discrete Props_Parents Props_Gibbs Props_Network L_Sweep Props_Sweep L_Interrupt.
Set Implicit Arguments.
Open Scope R_scope.

(** In every non-empty bin of every process, either all events have a parent or none has one yet. *)
Definition each_bin (p : parents) : Prop := forall k r, (k < pa_K p)%nat -> (r < pa_Tk p k)%nat ->
  Zsum (1 + pa_K p * pa_B p) (pa_Z p k r) = pa_S p (pa_row p k r) k \/ forall c, pa_Z p k r c = 0%Z.
(** A model that can be read and sampled: valid parameters and data; nothing is said about the edges present. *)
Record usable (st : gibbs) : Prop := {
  us_fixed : fixed_ok st;
  us_lam : forall k, (k < dm_K (gi_m st))%nat -> 0 < dm_lam (gi_m st) k;
  us_W : forall k1 k2, (k1 < dm_K (gi_m st))%nat -> (k2 < dm_K (gi_m st))%nat -> 0 < dm_W (gi_m st) k1 k2;
  us_g : forall k1 k2, (k1 < dm_K (gi_m st))%nat -> (k2 < dm_K (gi_m st))%nat ->
           open_simplex (dm_B (gi_m st)) (dm_g (gi_m st) k1 k2);
  us_net : net_ok (dm_K (gi_m st)) (gi_net st);
  us_data : forall d, In d (dm_data (gi_m st)) ->
     pa_K d = dm_K (gi_m st) /\ pa_B d = dm_B (gi_m st) /\ pa_dt d = dm_dt (gi_m st) /\ nonneg_F d /\ fits d /\ nonneg_Z d /\ each_bin d }.
(** The stored recordings: the same data sets in the same order, parents apart. *)
Definition same_data (l l' : list parents) : Prop := Forall2 (fun p p' => exists Z', p' = set_Z p Z') l l'.

Lemma same_data_refl l : same_data l l.
Proof. induction l as [|p l IH]; constructor; [|exact IH]. exists (pa_Z p). now destruct p. Qed.
Lemma same_data_trans l1 l2 l3 : same_data l1 l2 -> same_data l2 l3 -> same_data l1 l3.
Proof.
  intros H. revert l3. induction H as [|x y l l' (Z1 & ->) H IH]; intros l3 H3; inversion H3 as [|? z ? l'' (Z2 & ->)]; subst; constructor.
  - exists Z2. reflexivity.
  - apply IH. assumption.
Qed.
Lemma same_data_length l l' : same_data l l' -> length l = length l'.
Proof. intros H. induction H; cbn; congruence. Qed.
Lemma same_shape_refl st : same_shape st st.
Proof. unfold same_shape. repeat split. Qed.
Lemma same_shape_trans a b c : same_shape a b -> same_shape b c -> same_shape a c.
Proof.
  intros (A1 & A2 & A3 & A4 & A5 & A6 & A7 & A8 & A9) (B1 & B2 & B3 & B4 & B5 & B6 & B7 & B8 & B9).
  unfold same_shape. repeat split; congruence.
Qed.

Lemma domain_usable st : fixed_ok st -> domain st -> usable st.
Proof.
  intros Hf [H1 H2 H3 H4 H5]. constructor; auto. intros p Hp. destruct (H5 p Hp) as (? & ? & ? & ? & ? & ? & H). do 6 (split; [assumption|]).
  intros k r Hk Hr. destruct H as [H|H]; [|left; auto]. right. intros c. rewrite <- attributed_row by exact Hr. apply H.
Qed.

(* ---------------- a sweep does not depend on the parents found ---------------- *)
Definition clear (p : parents) : parents := set_Z p (fun _ _ _ => 0%Z).
Definition cleared (st : gibbs) : gibbs := st_data st (map clear (dm_data (gi_m st))).
Lemma pa_resample_clear gsl mult p q : pa_resample gsl mult (clear p) q = pa_resample gsl mult p q.
Proof. destruct gsl; reflexivity. Qed.
Lemma resample_parents_clear gsl mult q data : forall i,
  resample_parents gsl mult q i (map clear data) = resample_parents gsl mult q i data.
Proof.
  induction data as [|p data IH]; intros i; cbn [map resample_parents]; [reflexivity|].
  rewrite pa_resample_clear, IH. reflexivity.
Qed.
Lemma sweep_cleared lgam rn d st : sweep lgam rn d (cleared st) = sweep lgam rn d st.
Proof.
  unfold sweep, cleared, st_data. cbn [with_model gi_m with_data dm_mix]. destruct (dm_mix (gi_m st)).
  - unfold mix_sweep. cbn [with_model gi_m gi_h gi_net with_data dm_data].
    change (params_of (with_data (gi_m st) (map clear (dm_data (gi_m st))))) with (params_of (gi_m st)).
    now rewrite resample_parents_clear.
  - unfold ss_sweep. cbn [with_model gi_m gi_h gi_net with_data dm_data].
    change (params_of (with_data (gi_m st) (map clear (dm_data (gi_m st))))) with (params_of (gi_m st)).
    now rewrite resample_parents_clear.
Qed.
Lemma clear_unassigned p : unassigned (clear p).
Proof. intros t k c. unfold attributed. apply Zsum_0. intros r _. cbn. now destruct (Nat.eqb _ _). Qed.
Lemma usable_cleared st : usable st -> fixed_ok (cleared st) /\ domain (cleared st).
Proof.
  intros [H1 H2 H3 H4 H5 H6]. split; [exact H1|]. constructor; [exact H2|exact H3|exact H4|exact H5|].
  intros p Hp. cbn [cleared st_data with_model gi_m with_data dm_data] in Hp. apply in_map_iff in Hp as (p' & <- & Hp').
  destruct (H6 p' Hp') as (? & ? & ? & ? & ? & _). repeat (split; [assumption|]). split; [|left; apply clear_unassigned].
  intros t k c. rewrite clear_unassigned. lia.
Qed.
Lemma clear_same_data l : same_data l (map clear l).
Proof. induction l; constructor; [eexists; reflexivity|assumption]. Qed.
Lemma unclear_same_data l l' : same_data (map clear l) l' -> same_data l l'.
Proof. intros H. eapply same_data_trans; [apply clear_same_data|exact H]. Qed.

(** From any usable state a complete sweep succeeds and restores everything C44 promises. *)
Lemma sweep_usable lgam rn d st : usable st ->
  draws_contract (dm_K (gi_m st)) (dm_B (gi_m st)) (net_C (gi_net st)) d ->
  exists st', sweep lgam rn d st = Ok st' /\ domain st' /\ same_shape st st' /\
    same_data (dm_data (gi_m st)) (dm_data (gi_m st')) /\ (forall p, In p (dm_data (gi_m st')) -> consistent p) /\
    (net_allow (gi_net st) = false -> forall k, (k < dm_K (gi_m st))%nat -> dm_A (gi_m st') k k = false) /\
    ((dm_mix (gi_m st) = false -> net_allow (gi_net st) = false -> forall k, (k < dm_K (gi_m st))%nat -> dm_A (gi_m st) k k = false) -> no_self st').
Proof.
  intros Hu Hc. destruct (usable_cleared Hu) as [Hf Hd].
  destruct (@sweep_step_any lgam rn d (cleared st) Hf Hd Hc) as (st' & E & H1 & H2 & H3 & H4 & H5 & H6).
  rewrite sweep_cleared in E. exists st'. split; [exact E|]. split; [exact H1|]. split; [exact H4|].
  split; [apply unclear_same_data; exact H5|]. split; [exact H6|]. split; [exact H3|exact H2].
Qed.
Lemma fixed_shape st st' : same_shape st st' -> fixed_ok st -> fixed_ok st'.
Proof. intros (_ & S2 & S3 & S4 & S5 & _ & S7 & _) (Fa & Fb & Fc). unfold fixed_ok. rewrite S2, S3, S4, S5, S7. auto. Qed.

(* ---------------- every single assignment keeps the model usable ---------------- *)
Section Step.
Variables (st0 : gibbs) (d : sweep_draws).
Hypothesis Hc : draws_contract (dm_K (gi_m st0)) (dm_B (gi_m st0)) (net_C (gi_net st0)) d.
Definition inv (st : gibbs) : Prop := usable st /\ same_shape st0 st /\ same_data (dm_data (gi_m st0)) (dm_data (gi_m st)).
Definition keeps (f : wstep) : Prop := forall st, inv st -> exists st', f st = Ok st' /\ inv st'.

Lemma inv_dims st : inv st -> dm_K (gi_m st) = dm_K (gi_m st0) /\ dm_B (gi_m st) = dm_B (gi_m st0) /\ net_C (gi_net st) = net_C (gi_net st0) /\ gi_h st = gi_h st0.
Proof. intros (_ & (S1 & S2 & _ & _ & _ & _ & S7 & _ & S9) & _). auto. Qed.
Lemma inv_contract st : inv st -> draws_contract (dm_K (gi_m st)) (dm_B (gi_m st)) (net_C (gi_net st)) d.
Proof. intros H. destruct (inv_dims H) as (-> & -> & -> & _). exact Hc. Qed.
Lemma inv_data5 st : inv st -> forall p, In p (dm_data (gi_m st)) ->
  pa_K p = dm_K (gi_m st) /\ pa_B p = dm_B (gi_m st) /\ pa_dt p = dm_dt (gi_m st) /\ fits p /\ nonneg_Z p.
Proof. intros (Hu & _) p Hp. destruct (us_data Hu p Hp) as (? & ? & ? & ? & ? & ? & _). auto 10. Qed.
Lemma inv_pos st p : inv st -> In p (dm_data (gi_m st)) -> pa_nonneg p (dm_lam (gi_m st)) (q_W (params_of (gi_m st))) (dm_g (gi_m st)) /\ fits p.
Proof.
  intros ([H1 H2 H3 H4 H5 H6] & _) Hin. destruct (H6 p Hin) as (EK & EB & _ & HF & Hfit & _ & _). split; [|exact Hfit].
  split; [intros k Hk; apply H2; lia|]. split; [|split; [|exact HF]].
  - intros k1 k2 Hk1 Hk2. cbn [params_of q_W]. rewrite W_effective_net. apply net_weight_nonneg; [|lia|lia].
    intros i j Hi Hj. left. auto.
  - intros k1 k2 b Hk1 Hk2 Hb. left. apply (H4 k1 k2); lia.
Qed.

(** Replacing rows of the parents by valid draws. *)
Definition entries_nonneg (p : parents) : Prop := forall k r c, (r < pa_Tk p k)%nat -> (0 <= pa_Z p k r c)%Z.
Lemma nonneg_entries p : nonneg_Z p <-> entries_nonneg p.
Proof.
  split.
  - intros H k r c Hr. rewrite <- attributed_row by exact Hr. apply H.
  - intros H t k c. unfold attributed. apply Zsum_nonneg. intros r Hr. destruct (Nat.eqb _ _); [apply H; exact Hr|lia].
Qed.
Lemma new_rows_nonneg gsl mult st p k r c : (0 <= new_rows gsl mult st p k r c)%Z.
Proof. unfold new_rows. destruct ((if gsl then _ else _) p _ k r). apply Z.mod_pos_bound. lia. Qed.

Lemma set_nth_same_data i f l : (forall p, In p l -> exists Z', f p = set_Z p Z') -> same_data l (set_nth i f l).
Proof.
  revert i. induction l as [|p l IH]; intros i H; cbn; [destruct i; constructor|].
  destruct i; constructor.
  - apply H. now left.
  - apply same_data_refl.
  - exists (pa_Z p). now destruct p.
  - apply IH. intros; apply H. now right.
Qed.
Lemma set_nth_In {A} i (f : A -> A) l y : In y (set_nth i f l) -> In y l \/ exists x, In x l /\ y = f x.
Proof.
  revert i. induction l as [|p l IH]; intros i H; cbn in H; [destruct i; destruct H|].
  destruct i; destruct H as [<-|H].
  - right. exists p. split; [now left|reflexivity].
  - left. now right.
  - left. now left.
  - destruct (IH i H) as [H1|(x & H1 & ->)]; [left; now right|right; exists x; split; [now right|reflexivity]].
Qed.
Lemma on_data_inv i f st : inv st ->
  (forall p, In p (dm_data (gi_m st)) -> exists Z', f st p = set_Z p Z' /\ (entries_nonneg p -> entries_nonneg (set_Z p Z')) /\ (each_bin p -> each_bin (set_Z p Z'))) ->
  inv (on_data i f st).
Proof.
  intros (Hu & Hs & Hd) Hf. split; [|split].
  - destruct Hu as [H1 H2 H3 H4 H5 H6]. constructor; [exact H1|exact H2|exact H3|exact H4|exact H5|].
    cbn [on_data with_model gi_m with_data dm_data dm_K dm_B dm_dt]. intros p Hp.
    destruct (set_nth_In _ _ _ _ Hp) as [Hin|(x & Hin & ->)]; [auto|].
    destruct (Hf x Hin) as (Z' & -> & HZ & HB). destruct (H6 x Hin) as (? & ? & ? & ? & ? & Hz & Hb).
    do 5 (split; [assumption|]). split; [apply nonneg_entries, HZ, nonneg_entries, Hz|apply HB, Hb].
  - exact Hs.
  - eapply same_data_trans; [exact Hd|]. cbn [on_data with_model gi_m with_data dm_data].
    apply set_nth_same_data. intros p Hp. destruct (Hf p Hp) as (Z' & -> & _). eauto.
Qed.

Lemma same_data_nth i l l' : same_data l l' -> (i < length l)%nat -> exists Z', nth i l' p0 = set_Z (nth i l p0) Z' /\ In (nth i l' p0) l'.
Proof.
  intros H. revert i. induction H as [|x y l l' (Z' & ->) H IH]; intros i Hi; cbn [length] in Hi; [lia|].
  destruct i; cbn [nth].
  - exists Z'. split; [reflexivity|now left].
  - destruct (IH i ltac:(lia)) as (Z2 & E & Hin). exists Z2. split; [exact E|now right].
Qed.
Lemma row_ok_inv gsl st p k r : inv st -> In p (dm_data (gi_m st)) -> (k < pa_K p)%nat -> (r < pa_Tk p k)%nat -> row_ok gsl st p k r = Ok tt.
Proof.
  intros Hi Hin Hk Hr. destruct (@inv_pos st p Hi Hin) as [Hn Hf].
  assert (H := @row_ok_mk (with_model st (gi_m st)) [] [] p Hn Hf gsl (pa_Z p) k r Hk Hr).
  replace (set_Z p (pa_Z p)) with p in H by (now destruct p).
  unfold row_ok in *. exact H.
Qed.
Lemma new_rows_sum gsl i st p k r : inv st -> In p (dm_data (gi_m st)) -> (k < pa_K p)%nat -> (r < pa_Tk p k)%nat ->
  Zsum (1 + pa_K p * pa_B p) (new_rows gsl (sd_mult d i) st p k r) = pa_S p (pa_row p k r) k.
Proof.
  intros Hi Hin Hk Hr. destruct (@inv_pos st p Hi Hin) as [Hn Hf]. destruct (us_data (proj1 Hi) p Hin) as (EK & EB & _).
  destruct (inv_contract Hi) as (Cm & _). rewrite <- EK, <- EB in Cm. specialize (Cm i).
  destruct (@resample_ok gsl (sd_mult d i) p (params_of (gi_m st)) Hn Hf) as (p' & E).
  pose proof (@pa_resample_drawn _ _ _ _ _ E) as Ed.
  pose proof (@C15_resample_consistent gsl (sd_mult d i) p (params_of (gi_m st)) p' Hn Hf Cm E) as Hc'.
  rewrite Ed in Hc'. exact (Hc' k r Hk Hr).
Qed.
Lemma row_step_keeps i k r : (i < length (dm_data (gi_m st0)))%nat ->
  (k < pa_K (nth_data st0 i))%nat -> (r < pa_Tk (nth_data st0 i) k)%nat -> keeps (row_step (sd_mult d i) i k r).
Proof.
  intros Hi Hk Hr st Hv. unfold row_step.
  destruct (@same_data_nth i _ _ (proj2 (proj2 Hv)) Hi) as (Z' & E & Hin).
  fold (nth_data st i) in E, Hin. fold (nth_data st0 i) in E.
  rewrite row_ok_inv; [|exact Hv|exact Hin|rewrite E; exact Hk|rewrite E; exact Hr]. cbn [bindr].
  eexists. split; [reflexivity|]. apply on_data_inv; [exact Hv|]. intros p Hp. eexists. split; [reflexivity|].
  split; [intros H k' r' c Hr'; cbn [set_Z pa_Z]; unfold put; destruct (_ && _)%bool; [apply new_rows_nonneg|apply H; exact Hr']|].
  intros H k' r' Hk' Hr'. cbn [set_Z pa_Z]. unfold put. destruct (_ && _)%bool; [|apply H; assumption].
  left. exact (@new_rows_sum _ i st p k' r' Hv Hp Hk' Hr').
Qed.
Lemma process_step_keeps i k : (i < length (dm_data (gi_m st0)))%nat -> (k < pa_K (nth_data st0 i))%nat -> keeps (process_step (sd_mult d i) i k).
Proof.
  intros Hi Hk st Hv. unfold process_step.
  destruct (@same_data_nth i _ _ (proj2 (proj2 Hv)) Hi) as (Z' & E & Hin).
  fold (nth_data st i) in E, Hin. fold (nth_data st0 i) in E.
  replace (forall_lt _ _) with true.
  2:{ symmetry. apply forall_lt_true. intros r Hr. rewrite row_ok_inv; [reflexivity|exact Hv|exact Hin|rewrite E; exact Hk|exact Hr]. }
  cbn [guard bindr]. eexists. split; [reflexivity|]. apply on_data_inv; [exact Hv|]. intros p Hp. eexists. split; [reflexivity|].
  split; [intros H k' r' c Hr'; cbn [set_Z pa_Z]; unfold put_process; destruct (Nat.eqb _ _); [apply new_rows_nonneg|apply H; exact Hr']|].
  intros H k' r' Hk' Hr'. cbn [set_Z pa_Z]. unfold put_process. destruct (Nat.eqb _ _); [|apply H; assumption].
  left. exact (@new_rows_sum _ i st p k' r' Hv Hp Hk' Hr').
Qed.
Lemma parents_steps_keep gsl i f : (i < length (dm_data (gi_m st0)))%nat ->
  In f (parents_steps gsl (sd_mult d i) i (nth_data st0 i)) -> keeps f.
Proof.
  intros Hi [<-|Hin].
  - intros st Hv. eexists. split; [reflexivity|]. apply on_data_inv; [exact Hv|]. intros p Hp. eexists. split; [reflexivity|].
    split.
    + intros H k r c Hr. cbn [set_Z pa_Z]. destruct gsl.
      * destruct (Nat.ltb _ _); [apply H; exact Hr|apply new_rows_nonneg].
      * unfold enter. destruct (_ && _)%bool; [apply H; exact Hr|apply new_rows_nonneg].
    + intros H k r Hk Hr. cbn [set_Z pa_Z pa_K] in *. change (pa_Tk (set_Z p _) k) with (pa_Tk p k) in Hr.
      change (pa_row (set_Z p _) k r) with (pa_row p k r). change (pa_S (set_Z p _)) with (pa_S p). change (pa_B (set_Z p _)) with (pa_B p).
      destruct gsl.
      * apply Nat.ltb_lt in Hk as Hk'. rewrite Hk'. now apply H.
      * unfold enter. apply Nat.ltb_lt in Hk as Hk'. apply Nat.ltb_lt in Hr as Hr'. rewrite Hk', Hr'. cbn [andb]. now apply H.
  - destruct gsl; apply in_map_iff in Hin as (x & <- & Hx).
    + apply in_seq in Hx. apply process_step_keeps; [exact Hi|lia].
    + destruct x as [k r]. apply cells_In in Hx as [Hk Hr]. now apply row_step_keeps.
Qed.
Lemma all_parents_steps_keep gsl f : forall data pre, dm_data (gi_m st0) = pre ++ data ->
  In f (all_parents_steps gsl (sd_mult d) (length pre) data) -> keeps f.
Proof.
  induction data as [|p data IH]; intros pre E Hin; [destruct Hin|]. cbn [all_parents_steps] in Hin.
  apply in_app_or in Hin as [Hin|Hin].
  - replace p with (nth_data st0 (length pre)) in Hin by (unfold nth_data; rewrite E; apply nth_app_mid).
    eapply parents_steps_keep; [|exact Hin]. rewrite E, app_length. cbn [length]. lia.
  - apply (IH (pre ++ [p])); [now rewrite <- app_assoc|]. rewrite app_length. cbn [length]. now rewrite Nat.add_1_r.
Qed.

(** Steps that change one parameter. *)
Lemma lam_inv st l : inv st -> (forall k, (k < dm_K (gi_m st))%nat -> 0 < l k) -> inv (with_model st (with_lam (gi_m st) l)).
Proof. intros ([H1 H2 H3 H4 H5 H6] & Hs & Hd) H. split; [constructor; assumption|]. split; [exact Hs|exact Hd]. Qed.
Lemma W_inv st W : inv st -> (forall i j, (i < dm_K (gi_m st))%nat -> (j < dm_K (gi_m st))%nat -> 0 < W i j) -> inv (with_model st (with_W (gi_m st) W)).
Proof. intros ([H1 H2 H3 H4 H5 H6] & Hs & Hd) H. split; [constructor; assumption|]. split; [exact Hs|exact Hd]. Qed.
Lemma A_inv st A : inv st -> inv (with_model st (with_A (gi_m st) A)).
Proof. intros ([H1 H2 H3 H4 H5 H6] & Hs & Hd). split; [constructor; assumption|]. split; [exact Hs|exact Hd]. Qed.
Lemma g_inv st g : inv st -> (forall i j, (i < dm_K (gi_m st))%nat -> (j < dm_K (gi_m st))%nat -> open_simplex (dm_B (gi_m st)) (g i j)) ->
  inv (with_model st (with_g (gi_m st) g)).
Proof. intros ([H1 H2 H3 H4 H5 H6] & Hs & Hd) H. split; [constructor; assumption|]. split; [exact Hs|exact Hd]. Qed.
Lemma net_inv st no : inv st -> net_ok (dm_K (gi_m st)) no -> net_allow no = net_allow (gi_net st) -> net_C no = net_C (gi_net st) ->
  inv {| gi_m := gi_m st; gi_net := no; gi_h := gi_h st |}.
Proof.
  intros ([H1 H2 H3 H4 H5 H6] & (S1 & S2 & S3 & S4 & S5 & S6 & S7 & S8 & S9) & Hd) Hn Ha HC. split; [|split; [|exact Hd]].
  - constructor; [exact H1|exact H2|exact H3|exact H4|exact Hn|exact H6].
  - unfold same_shape. cbn [gi_m gi_net gi_h]. repeat (split; [assumption|]). split; congruence.
Qed.

Lemma bias_step_keeps : keeps (bias_step (sd_bias d)).
Proof.
  intros st Hv. eexists. split; [reflexivity|]. apply lam_inv; [exact Hv|]. intros k _.
  destruct Hc as (_ & Cb & _). destruct Hv as (Hu & Hs & Hd). destruct (us_fixed Hu) as (Hh & Hdt & _).
  eapply bias_resample_pos; [exact Hh|exact Hdt|exact (inv_data5 (conj Hu (conj Hs Hd)))|exact Cb].
Qed.
Lemma ir_new_simplex st k1 k2 : inv st -> open_simplex (dm_B (gi_m st)) (ir_new (sd_ir d) st k1 k2).
Proof.
  intros Hv. destruct (inv_contract Hv) as (_ & _ & Ci & _). destruct (us_fixed (proj1 Hv)) as (Hh & Hdt & _).
  unfold ir_new. eapply ir_resample_simplex; [exact Hh|exact (inv_data5 Hv)|exact Ci].
Qed.
Lemma ir_steps_keep K f : In f (ir_steps (sd_ir d) K) -> keeps f.
Proof.
  intros Hin st Hv. destruct Hin as [<-|Hin]; [|apply in_map_iff in Hin as (c & <- & _)];
    (eexists; split; [reflexivity|]; apply g_inv; [exact Hv|]; intros i j Hi Hj).
  - unfold enter. destruct (_ && _)%bool; [apply (us_g (proj1 Hv)); auto|now apply ir_new_simplex].
  - unfold put. destruct (_ && _)%bool; [now apply ir_new_simplex|apply (us_g (proj1 Hv)); auto].
Qed.
Lemma sbm_step_inv st f : inv st ->
  (forall s, sb_K s = dm_K (gi_m st) -> sb_C s = net_C (gi_net st) -> prior_pos s -> sbm_valid s ->
     prior_pos (f s) /\ sbm_valid (f s) /\ sb_K (f s) = sb_K s /\ sb_C (f s) = sb_C s /\ sb_allow (f s) = sb_allow s) ->
  inv {| gi_m := gi_m st; gi_net := sbm_of (gi_net st) f; gi_h := gi_h st |}.
Proof.
  intros Hv Hf. pose proof (us_net (proj1 Hv)) as Hn. apply net_inv; [exact Hv| | |];
    destruct (gi_net st) as [fp s|n]; cbn [sbm_of net_ok net_allow net_C] in *; try reflexivity; try exact Hn;
    destruct Hn as (EK & HP & HS); destruct (Hf s EK eq_refl HP HS) as (A1 & A2 & A3 & A4 & A5); auto.
  split; [congruence|auto].
Qed.
Lemma p_new_range st s a b : inv st -> prior_pos s -> 0 <= p_new (sd_net d) st s a b <= 1.
Proof.
  intros Hv (HC & Hpi & H0 & H1 & Ha & Hbe & Hk). destruct Hc as (_ & _ & _ & (Hb & _) & _). unfold p_new. cbn [p_request]. apply Hb.
  - assert (0 <= block_sum (sb_K s) (sb_c s) a b (fun i j => b2R (dm_A (gi_m st) i j))); [|lra].
    apply block_sum_nonneg. intros i j _ _. apply b2R_range.
  - assert (0 <= block_sum (sb_K s) (sb_c s) a b (fun i j => 1 - b2R (dm_A (gi_m st) i j))); [|lra].
    apply block_sum_nonneg. intros i j _ _. pose proof (b2R_range (dm_A (gi_m st) i j)). lra.
Qed.
Lemma v_new_pos st s a b : inv st -> sb_K s = dm_K (gi_m st) -> prior_pos s -> 0 < v_new (sd_net d) st s a b.
Proof.
  intros Hv EK (HC & Hpi & H0 & H1 & Ha & Hbe & Hk). destruct Hc as (_ & _ & _ & (_ & Hg & _) & _). unfold v_new. cbn [v_request]. apply Hg.
  - assert (0 <= block_sum (sb_K s) (sb_c s) a b (fun i j => b2R (dm_A (gi_m st) i j))); [|nra].
    apply block_sum_nonneg. intros i j _ _. apply b2R_range.
  - apply Rdiv_lt_0_compat; [lra|].
    assert (0 <= block_sum (sb_K s) (sb_c s) a b (fun i j => if dm_A (gi_m st) i j then dm_W (gi_m st) i j else 0)); [|lra].
    apply block_sum_nonneg. intros i j Hi Hj. destruct (dm_A (gi_m st) i j); [|lra]. left. apply (us_W (proj1 Hv)); lia.
Qed.
Lemma sb_set_ok s m c p v : prior_pos s -> sbm_valid (sb_set s m c p v) ->
  prior_pos (sb_set s m c p v) /\ sbm_valid (sb_set s m c p v) /\ sb_K (sb_set s m c p v) = sb_K s /\ sb_C (sb_set s m c p v) = sb_C s /\ sb_allow (sb_set s m c p v) = sb_allow s.
Proof. intros HP HV. split; [exact HP|]. split; [exact HV|]. auto. Qed.
Lemma net_steps_keep lgam no f : In f (net_steps lgam (sd_net d) (sd_er d) no) -> keeps f.
Proof.
  intros Hin st Hv. destruct no as [fp s0|n0]; cbn [net_steps] in Hin.
  - destruct (sb_fixed s0); [destruct Hin|].
    apply in_app_or in Hin as [Hin|Hin]; [|apply in_app_or in Hin as [Hin|Hin]; [|apply in_app_or in Hin as [Hin|Hin]]].
    + destruct fp; [destruct Hin|]. destruct Hin as [<-|Hin]; [|apply in_map_iff in Hin as (c & <- & _)];
        (eexists; split; [reflexivity|]; apply sbm_step_inv; [exact Hv|]; intros s EK EC HP HV; apply sb_set_ok; [exact HP|]);
        destruct HV as (V1 & V2 & V3); (split; [exact V1|split; [exact V2|]]); intros a b Ha Hb; destruct (V3 a b Ha Hb) as [V4 V5];
        (split; [|exact V5]); cbn [sb_set sb_p].
      * unfold enter. destruct (_ && _)%bool; [exact V4|now apply p_new_range].
      * unfold put. destruct (_ && _)%bool; [now apply p_new_range|exact V4].
    + destruct Hin as [<-|Hin]; [|apply in_map_iff in Hin as (c & <- & _)];
        (eexists; split; [reflexivity|]; apply sbm_step_inv; [exact Hv|]; intros s EK EC HP HV; apply sb_set_ok; [exact HP|]);
        destruct HV as (V1 & V2 & V3); (split; [exact V1|split; [exact V2|]]); intros a b Ha Hb; destruct (V3 a b Ha Hb) as [V4 V5];
        (split; [exact V4|]); cbn [sb_set sb_v].
      * unfold enter. destruct (_ && _)%bool; [exact V5|now apply v_new_pos].
      * unfold put. destruct (_ && _)%bool; [now apply v_new_pos|exact V5].
    + destruct (sb_C s0 =? 1)%nat; [destruct Hin|]. apply in_map_iff in Hin as (k & <- & _).
      eexists; split; [reflexivity|]; apply sbm_step_inv; [exact Hv|]; intros s EK EC HP HV; apply sb_set_ok; [exact HP|].
      destruct HV as (V1 & V2 & V3). split; [|split; [exact V2|exact V3]]. intros j Hj. cbn [sb_set sb_c sb_C sb_K] in *. unfold upd.
      destruct (Nat.eqb j k); [|auto]. rewrite EC. apply (inv_contract Hv).
    + destruct Hin as [<-|[]]. eexists; split; [reflexivity|]; apply sbm_step_inv; [exact Hv|]; intros s EK EC HP HV; apply sb_set_ok; [exact HP|].
      destruct HV as (V1 & V2 & V3). split; [exact V1|]. split; [|exact V3]. cbn [sb_set sb_m sb_C].
      destruct (inv_contract Hv) as (_ & _ & _ & (_ & _ & _ & Hd) & _). rewrite <- EC in Hd.
      destruct (Hd (m_request s)) as [D1 D2].
      * intros b Hb. unfold m_request. destruct HP as (_ & Hpi & _). specialize (Hpi b Hb).
        assert (0 <= Rsum (sb_K s) (fun k => if (sb_c s k =? b)%nat then 1 else 0)); [|lra].
        apply Rsum_nonneg. intros k _. destruct (sb_c s k =? b)%nat; lra.
      * split; [|exact D2]. intros b Hb. left. auto.
  - destruct Hin as [<-|[]]. eexists. split; [reflexivity|].
    pose proof (us_net (proj1 Hv)) as Hn. destruct (inv_contract Hv) as (_ & _ & _ & (C1 & C2 & C3 & C4) & Ce & _).
    assert (HW : forall i j, (i < dm_K (gi_m st))%nat -> (j < dm_K (gi_m st))%nat -> 0 <= dm_W (gi_m st) i j).
    { intros i j Hi Hj. left. apply (us_W (proj1 Hv)); auto. }
    destruct (@net_resample_ok lgam (dm_K (gi_m st)) (gi_net st) d (dm_A (gi_m st)) (dm_W (gi_m st)) C1 C2 C3 C4 Ce HW Hn) as (N1 & N2 & N3).
    apply net_inv; [exact Hv| | |]; destruct (gi_net st); cbn [net_resample] in *; auto.
Qed.
Lemma A_any_keeps f : keeps (pure (fun st => with_model st (with_A (gi_m st) (f st)))).
Proof. intros st Hv. eexists. split; [reflexivity|]. now apply A_inv. Qed.
Lemma A_steps_keep par order u K f : In f (A_steps par order u K) -> keeps f.
Proof.
  unfold A_steps. destruct par.
  - intros [<-|[]]. apply A_any_keeps.
  - intros Hin. apply in_flat_map in Hin as (c & _ & Hin). destruct Hin as [<-|[<-|[<-|[]]]]; apply A_any_keeps.
Qed.
Lemma W_step_keeps : keeps (W_step (sd_W d)).
Proof.
  intros st Hv. eexists. split; [reflexivity|]. apply W_inv; [exact Hv|]. intros i j Hi Hj.
  destruct Hc as (_ & _ & _ & _ & _ & CW & _).
  eapply (@ss_W_pos (dm_K (gi_m st)) (dm_B (gi_m st)) (dm_dt (gi_m st)) (dm_data (gi_m st)) (inv_data5 Hv)); auto. apply (us_net (proj1 Hv)).
Qed.
Lemma mix_W_step_keeps : keeps (mix_W_step (sd_W d)).
Proof.
  intros st Hv. eexists. split; [reflexivity|]. apply W_inv; [exact Hv|]. intros i j Hi Hj.
  destruct Hc as (_ & _ & _ & _ & _ & CW & _). unfold mix_W_request, mix_ss. cbn [fst snd].
  destruct (us_fixed (proj1 Hv)) as ((_ & _ & _ & K0 & N0) & _). destruct (@net_view_ok _ _ (us_net (proj1 Hv))) as (Hk & HV).
  destruct (HV i j Hi Hj) as (_ & V0 & _).
  destruct (@stats_nonneg (dm_K (gi_m st)) (dm_B (gi_m st)) (dm_dt (gi_m st)) (dm_data (gi_m st)) (inv_data5 Hv) i j Hi) as [S0 S1].
  apply CW.
  - destruct (dm_A (gi_m st) i j); cbn [b2R]; lra.
  - apply Rdiv_lt_0_compat; [lra|]. destruct (dm_A (gi_m st) i j); cbn [b2R]; lra.
Qed.
Lemma mix_clip_keeps : keeps mix_clip_step.
Proof.
  intros st Hv. eexists. split; [reflexivity|]. apply W_inv; [exact Hv|]. intros i j Hi Hj. unfold clip_lo.
  eapply Rlt_le_trans; [|apply Rmax_r]. apply (us_W (proj1 Hv)); auto.
Qed.

Lemma sweep_steps_keep lgam rn f : In f (sweep_steps lgam rn d st0) -> keeps f.
Proof.
  unfold sweep_steps, mix_steps, ss_steps. destruct (dm_mix (gi_m st0)); intros Hin.
  - apply in_app_or in Hin as [Hin|Hin]; [now apply (@all_parents_steps_keep _ f _ [] eq_refl) in Hin|].
    apply in_app_or in Hin as [[<-|[]]|Hin]; [apply bias_step_keeps|].
    apply in_app_or in Hin as [Hin|Hin]; [now apply ir_steps_keep in Hin|].
    apply in_app_or in Hin as [[<-|[<-|[<-|[]]]]|Hin]; [apply A_any_keeps|apply mix_W_step_keeps|apply mix_clip_keeps|].
    destruct rn; [now apply net_steps_keep in Hin|destruct Hin].
  - apply in_app_or in Hin as [Hin|Hin]; [now apply (@all_parents_steps_keep _ f _ [] eq_refl) in Hin|].
    apply in_app_or in Hin as [[<-|[]]|Hin]; [apply bias_step_keeps|].
    apply in_app_or in Hin as [Hin|Hin]; [now apply ir_steps_keep in Hin|].
    apply in_app_or in Hin as [Hin|Hin]; [now apply net_steps_keep in Hin|].
    apply in_app_or in Hin as [[<-|[]]|Hin]; [apply W_step_keeps|now apply A_steps_keep in Hin].
Qed.
Lemma exec_keeps l : (forall f, In f l -> keeps f) -> forall st, inv st -> exists st', exec l st = (Ok tt, st') /\ inv st'.
Proof.
  induction l as [|f l IH]; intros H st Hv; cbn [exec]; [eauto|].
  destruct (H f (or_introl eq_refl) st Hv) as (st1 & -> & Hv1). apply IH; [intros; apply H; now right|exact Hv1].
Qed.
End Step.

(* ------------------------------------------------------------------ *)
(** ** C100 *)

(** The list of assignments is the sweep: executed to the end from any usable state it succeeds with the state that
    resample_model returns. *)
Theorem C100_assignments_are_the_sweep :
  forall lgam rn d st, usable st ->
  draws_contract (dm_K (gi_m st)) (dm_B (gi_m st)) (net_C (gi_net st)) d ->
  exists st', sweep lgam rn d st = Ok st' /\ exec (sweep_steps lgam rn d st) st = (Ok tt, st').
Proof.
  intros lgam rn d st Hu Hc.
  assert (Hi : inv st st) by (split; [exact Hu|split; [apply same_shape_refl|apply same_data_refl]]).
  destruct (@all_parents_steps_ok (h_gsl (gi_h st)) (sd_mult d) st (dm_data (gi_m st)) []) as (data & Ep & Ex).
  { intros p Hp. eapply inv_pos; [exact Hi|exact Hp]. }
  cbn [length app] in Ep, Ex. rewrite st_data_same in Ex.
  unfold sweep, sweep_steps. destruct (dm_mix (gi_m st)) eqn:Emix.
  - unfold mix_sweep, mix_steps. rewrite Ep. cbn [bindr].
    set (m1 := with_g (with_lam (with_data (gi_m st) data) (bias_resample (sd_bias d) (h_alpha (gi_h st)) (h_beta (gi_h st)) data))
                 (ir_resample (sd_ir d) (h_gamma (gi_h st)) data)).
    set (m2 := mix_resample lgam (h_kappa0 (gi_h st)) (h_nu0 (gi_h st)) (sd_W d) (sd_u d) (net_view (gi_net st)) m1).
    eexists. split; [reflexivity|].
    eapply exec_ok_app; [exact Ex|]. eapply exec_ok_app; [reflexivity|].
    match goal with |- exec (ir_steps _ ?K ++ _) ?s = _ => change K with (dm_K (gi_m s)) end.
    eapply exec_ok_app; [apply ir_steps_ok|].
    eapply exec_ok_app with (st1 := {| gi_m := m2; gi_net := gi_net st; gi_h := gi_h st |}).
    { reflexivity. }
    destruct rn; [|reflexivity].
    match goal with |- exec (net_steps _ _ _ ?n) ?s = _ => change n with (gi_net s) end.
    rewrite net_steps_ok. reflexivity.
  - unfold ss_sweep, ss_steps. rewrite Ep. cbn [bindr].
    set (m1 := with_g (with_lam (with_data (gi_m st) data) (bias_resample (sd_bias d) (h_alpha (gi_h st)) (h_beta (gi_h st)) data))
                 (ir_resample (sd_ir d) (h_gamma (gi_h st)) data)).
    set (no := net_resample lgam (sd_net d) (sd_er d) (dm_A m1) (dm_W m1) (gi_net st)).
    eexists. split; [reflexivity|].
    eapply exec_ok_app; [exact Ex|]. eapply exec_ok_app; [reflexivity|].
    match goal with |- exec (ir_steps _ ?K ++ _) ?s = _ => change K with (dm_K (gi_m s)) at 1 end.
    eapply exec_ok_app; [apply ir_steps_ok|].
    match goal with |- exec (net_steps _ _ _ ?n ++ _) ?s = _ => change n with (gi_net s) end.
    eapply exec_ok_app; [apply net_steps_ok|]. eapply exec_ok_app; [reflexivity|].
    destruct (h_parallel (gi_h st)).
    + reflexivity.
    + match goal with |- exec (A_steps false ?o ?u ?K) ?s = _ => change K with (dm_K (gi_m s)) end.
      rewrite A_serial_steps_ok. reflexivity.
Qed.

(** Operations with valid arguments; a sweep may be stopped after any number of assignments. *)
Definition iop_ok (K B C : nat) (o : iop) : Prop :=
  match o with IDo o => gop_ok K B C o | IStop _ d _ => draws_contract K B C d end.

Lemma interrupted_ok lgam rn d n st : usable st ->
  draws_contract (dm_K (gi_m st)) (dm_B (gi_m st)) (net_C (gi_net st)) d ->
  exists st', interrupted lgam rn d n st = (Ok tt, st') /\ usable st' /\ same_shape st st' /\
    same_data (dm_data (gi_m st)) (dm_data (gi_m st')).
Proof.
  intros Hu Hc. assert (Hi : inv st st) by (split; [exact Hu|split; [apply same_shape_refl|apply same_data_refl]]).
  destruct (@exec_keeps st (firstn n (sweep_steps lgam rn d st))) with (st := st) as (st' & E & H1 & H2 & H3); [|exact Hi|].
  - intros f Hf. apply (@sweep_steps_keep st d Hc lgam rn f). rewrite <- (firstn_skipn n). apply in_or_app. now left.
  - exists st'. auto.
Qed.

Lemma add_usable lgam s f mb st K B C : gop_ok K B C (GAdd s f mb) -> usable st ->
  usable (snd (gstep lgam (GAdd s f mb) st)) /\ same_shape st (snd (gstep lgam (GAdd s f mb) st)).
Proof.
  intros Ho Hu. destruct (@add_new lgam s f mb st K B C Ho (us_fixed Hu)) as [->|(ps & -> & Hps)].
  { split; [exact Hu|apply same_shape_refl]. }
  split; [|repeat split].
  destruct Hu as [H1 H2 H3 H4 H5 H6]. constructor; [exact H1|exact H2|exact H3|exact H4|exact H5|].
  cbn [with_model gi_m with_data dm_data dm_K dm_B dm_dt]. intros p Hin.
  apply in_app_or in Hin as [Hin|Hin]; [auto|]. destruct (Hps p Hin) as (? & ? & ? & ? & ? & Hua & Hz).
  do 5 (split; [assumption|]). split; [intros t k c; rewrite Hua; lia|]. intros k r _ _. right. auto.
Qed.
Lemma istep_ok lgam o st : usable st -> iop_ok (dm_K (gi_m st)) (dm_B (gi_m st)) (net_C (gi_net st)) o ->
  usable (snd (istep lgam o st)) /\ same_shape st (snd (istep lgam o st)).
Proof.
  intros Hu Ho. destruct o as [[s f mb|rn d]|rn d n]; cbn [istep iop_ok] in *.
  - eapply add_usable; eauto.
  - cbn [gop_ok] in Ho. destruct (@sweep_usable lgam rn d st Hu Ho) as (st' & E & D & S & _). cbn [gstep]. rewrite E. cbn [snd].
    split; [|exact S]. apply domain_usable; [|exact D]. eapply fixed_shape; [exact S|apply (us_fixed Hu)].
  - destruct (@interrupted_ok lgam rn d n st Hu Ho) as (st' & E & H1 & H2 & _). rewrite E. auto.
Qed.
Lemma irun_ok lgam hist : forall st K B C,
  usable st -> dm_K (gi_m st) = K -> dm_B (gi_m st) = B -> net_C (gi_net st) = C ->
  (forall o, In o hist -> iop_ok K B C o) -> usable (irun lgam hist st) /\ same_shape st (irun lgam hist st).
Proof.
  induction hist as [|o hist IH]; intros st K B C Hu EK EB EC Ho; cbn [irun]; [split; [exact Hu|apply same_shape_refl]|].
  destruct (@istep_ok lgam o st Hu) as [H1 H2].
  { rewrite EK, EB, EC. apply Ho. now left. }
  pose proof H2 as (S1 & S2 & _ & _ & _ & _ & _ & _ & S9).
  destruct (IH (snd (istep lgam o st)) K B C H1) as [H3 H4]; try congruence.
  { intros; apply Ho; now right. }
  split; [exact H3|]. eapply same_shape_trans; eauto.
Qed.

(** Whatever add_data calls, complete sweeps and interrupted sweeps a model went through since it was built, with any
    outcome of the draws and the interruptions after any assignments:
    - its parameters are in their domains, and in every non-empty bin of every stored data set either every event has
      exactly one parent or no event has one;
    - an interruption keeps the recordings, whatever assignment it falls on;
    - a complete sweep of it never raises, restores the invariant of C44 (every count is divided among its parents) and,
      with self-connections disallowed, leaves no self edge; after two complete sweeps the spike-and-slab model also has
      no event attributed to its own process, as if it had not been interrupted.
    Missing: that an interrupted model has only edges the prior allows, which is false (next theorem). *)
Theorem C100_interrupted_partial :
  forall lgam mix K B dt L bas h no d0 hist,
  hypers_ok B h -> net_ok K no -> draws_contract K B (net_C no) d0 -> 0 < dt ->
  (forall l b, (l < L)%nat -> (b < B)%nat -> 0 <= bas l b) ->
  (forall o, In o hist -> iop_ok K B (net_C no) o) ->
  let st := irun lgam hist (construct lgam mix K B dt L bas h no d0) in
  (dm_K (gi_m st) = K /\ dm_B (gi_m st) = B /\
   (forall k, (k < K)%nat -> 0 < dm_lam (gi_m st) k) /\
   (forall k1 k2, (k1 < K)%nat -> (k2 < K)%nat -> 0 < dm_W (gi_m st) k1 k2 /\ open_simplex B (dm_g (gi_m st) k1 k2)) /\
   net_ok K (gi_net st) /\
   forall p, In p (dm_data (gi_m st)) -> forall t k, (t < pa_T p)%nat -> (k < pa_K p)%nat ->
     (forall c, (0 <= attributed p t k c)%Z) /\
     (Zsum (1 + pa_K p * pa_B p) (fun c => attributed p t k c) = pa_S p t k \/ forall c, attributed p t k c = 0%Z)) /\
  (forall rn d n, draws_contract K B (net_C no) d ->
     fst (interrupted lgam rn d n st) = Ok tt /\
     Forall2 (fun p p' => exists Z', p' = set_Z p Z') (dm_data (gi_m st)) (dm_data (gi_m (snd (interrupted lgam rn d n st))))) /\
  forall rn d, draws_contract K B (net_C no) d ->
    exists st1, sweep lgam rn d st = Ok st1 /\ domain st1 /\
      length (dm_data (gi_m st1)) = length (dm_data (gi_m st)) /\
      (forall p, In p (dm_data (gi_m st1)) -> forall t k, (t < pa_T p)%nat -> (k < pa_K p)%nat ->
         Zsum (1 + pa_K p * pa_B p) (fun c => attributed p t k c) = pa_S p t k) /\
      (net_allow no = false -> forall k, (k < K)%nat -> dm_A (gi_m st1) k k = false) /\
      forall rn2 d2, draws_contract K B (net_C no) d2 ->
        exists st2, sweep lgam rn2 d2 st1 = Ok st2 /\ domain st2 /\
          (net_allow no = false ->
             (forall k, (k < K)%nat -> dm_A (gi_m st2) k k = false) /\
             (mix = false -> forall p t k b, In p (dm_data (gi_m st2)) -> (t < pa_T p)%nat -> (k < K)%nat -> (b < B)%nat ->
                attributed p t k (1 + (k * B + b)) = 0%Z)).
Proof.
  intros lgam mix K B dt L bas h no d0 hist Hh Hn Hd0 Hdt Hb Ho st.
  destruct (@construct_ok lgam mix K B dt L bas h no d0 Hh Hn Hd0 Hdt Hb) as (F0 & D0 & N0 & EK & EB & EN & EM & _).
  destruct (@irun_ok lgam hist _ K B (net_C no) (domain_usable F0 D0) EK EB ltac:(now rewrite EN) Ho) as [Hu Hs].
  fold st in Hu, Hs. pose proof Hs as (S1 & S2 & _ & _ & _ & S6 & _ & S8 & S9).
  assert (TK : dm_K (gi_m st) = K) by congruence. assert (TB : dm_B (gi_m st) = B) by congruence.
  assert (TC : net_C (gi_net st) = net_C no) by (rewrite S9, EN; reflexivity).
  assert (TA : net_allow (gi_net st) = net_allow no) by (rewrite S8, EN; reflexivity).
  assert (TM : dm_mix (gi_m st) = mix) by congruence.
  assert (Tc : forall d, draws_contract K B (net_C no) d -> draws_contract (dm_K (gi_m st)) (dm_B (gi_m st)) (net_C (gi_net st)) d).
  { intros d Hd. now rewrite TK, TB, TC. }
  assert (Hsum : forall p t k, (t < pa_T p)%nat -> (k < pa_K p)%nat -> consistent p -> Zsum (1 + pa_K p * pa_B p) (fun c => attributed p t k c) = pa_S p t k).
  { intros p t k Ht Hk Hc. destruct (Z.eq_dec (pa_S p t k) 0) as [H0|H0].
    - rewrite H0. apply Zsum_0. intros c _. now apply attributed_none.
    - destruct (@pa_row_surj p k t Ht H0) as (r & Hr & <-).
      transitivity (Zsum (1 + pa_K p * pa_B p) (pa_Z p k r)); [|apply Hc; auto].
      apply Zsum_ext. intros c _. now apply attributed_row. }
  split; [|split].
  - split; [exact TK|]. split; [exact TB|]. destruct Hu as [H1 H2 H3 H4 H5 H6]. rewrite TK, TB in *.
    split; [exact H2|]. split; [auto|]. split; [exact H5|]. intros p Hp t k Ht Hk.
    destruct (H6 p Hp) as (_ & _ & _ & _ & _ & Hz & Hbin). split; [intros c; apply Hz|].
    destruct (Z.eq_dec (pa_S p t k) 0) as [H0|H0]; [right; intros c; now apply attributed_none|].
    destruct (@pa_row_surj p k t Ht H0) as (r & Hr & <-). destruct (Hbin k r Hk Hr) as [Hx|Hx].
    + left. rewrite <- Hx. apply Zsum_ext. intros c _. now apply attributed_row.
    + right. intros c. rewrite attributed_row by exact Hr. apply Hx.
  - intros rn d n Hd. destruct (@interrupted_ok lgam rn d n st Hu (Tc d Hd)) as (st' & -> & _ & _ & H). split; [reflexivity|exact H].
  - intros rn d Hd. destruct (@sweep_usable lgam rn d st Hu (Tc d Hd)) as (st1 & E & D1 & Sh & Sd & Cs & NA & _).
    exists st1. split; [exact E|]. split; [exact D1|]. split; [symmetry; apply same_data_length; exact Sd|].
    split; [intros p Hp t k Ht Hk; apply Hsum; auto|].
    assert (NA' : net_allow no = false -> forall k, (k < K)%nat -> dm_A (gi_m st1) k k = false).
    { intros Ha k Hk. apply NA; [congruence|lia]. }
    split; [exact NA'|].
    pose proof Sh as (V1 & V2 & _ & _ & _ & V6 & _ & V8 & V9).
    intros rn2 d2 Hd2.
    destruct (@sweep_usable lgam rn2 d2 st1) as (st2 & E2 & D2 & Sh2 & _ & _ & NA2 & NS2).
    { apply domain_usable; [|exact D1]. eapply fixed_shape; [exact Sh|apply (us_fixed Hu)]. }
    { rewrite V1, V2, V9. apply Tc, Hd2. }
    exists st2. split; [exact E2|]. split; [exact D2|]. intros Ha. pose proof Sh2 as (U1 & U2 & _ & _ & _ & U6 & _ & U8 & U9).
    assert (NS : no_self st2).
    { apply NS2. intros _ _ k Hk. apply NA'; [exact Ha|lia]. }
    destruct (NS ltac:(congruence)) as [HA HZ]. split; [intros k Hk; apply HA; lia|].
    intros Hm p t k b Hp Ht Hk Hb'. destruct (dom_data D2 p Hp) as (P1 & P2 & _).
    replace B with (pa_B p) by congruence. apply HZ; auto; congruence.
Qed.
Print Assumptions C100_interrupted_partial.

(** The sampler of the adjacency matrix tries the value 1 for every pair in place (weights.py 130) before it draws: for
    every pair of processes, whatever the prior, some interruption of every sweep of the spike-and-slab model leaves the
    edge in the model; in particular self edges that the network was told to disallow. *)
Theorem C100_forbidden_edge_refuted :
  forall lgam K B dt L bas h no d0 hist,
  hypers_ok B h -> net_ok K no -> draws_contract K B (net_C no) d0 -> 0 < dt ->
  (forall l b, (l < L)%nat -> (b < B)%nat -> 0 <= bas l b) ->
  (forall o, In o hist -> iop_ok K B (net_C no) o) ->
  h_parallel h = false ->
  let st := irun lgam hist (construct lgam false K B dt L bas h no d0) in
  forall rn d k1 k2, draws_contract K B (net_C no) d -> (k1 < K)%nat -> (k2 < K)%nat ->
  exists n, dm_A (gi_m (snd (interrupted lgam rn d n st))) k1 k2 = true.
Proof.
  intros lgam K B dt L bas h no d0 hist Hh Hn Hd0 Hdt Hb Ho Hp st rn d k1 k2 Hd H1 H2.
  destruct (@construct_ok lgam false K B dt L bas h no d0 Hh Hn Hd0 Hdt Hb) as (F0 & D0 & N0 & EK & EB & EN & EM & _).
  destruct (@irun_ok lgam hist _ K B (net_C no) (domain_usable F0 D0) EK EB ltac:(now rewrite EN) Ho) as [Hu Hs].
  fold st in Hu, Hs. pose proof Hs as (S1 & S2 & _ & _ & _ & S6 & S7 & S8 & S9).
  assert (TK : dm_K (gi_m st) = K) by congruence. assert (TB : dm_B (gi_m st) = B) by congruence.
  assert (TC : net_C (gi_net st) = net_C no) by (rewrite S9, EN; reflexivity).
  assert (TM : dm_mix (gi_m st) = false) by congruence.
  assert (TP : h_parallel (gi_h st) = false) by (rewrite S7; exact Hp).
  assert (Tc : draws_contract (dm_K (gi_m st)) (dm_B (gi_m st)) (net_C (gi_net st)) d) by (now rewrite TK, TB, TC).
  assert (Hin : In (k1, k2) (cells K (fun _ => K))) by (apply cells_In; auto).
  apply in_split in Hin as (c1 & c2 & Ec).
  assert (Es : exists X Y, sweep_steps lgam rn d st = (X ++ [trial_step k1 k2 false; trial_step k1 k2 true]) ++ Y).
  { unfold sweep_steps. rewrite TM. unfold ss_steps, A_steps. rewrite TP, TK, Ec, flat_map_app. cbn [flat_map fst snd edge_steps app].
    exists (all_parents_steps (h_gsl (gi_h st)) (sd_mult d) 0 (dm_data (gi_m st)) ++ [bias_step (sd_bias d)] ++ ir_steps (sd_ir d) K ++
            net_steps lgam (sd_net d) (sd_er d) (gi_net st) ++ [W_step (sd_W d)] ++ flat_map (fun c => edge_steps (sd_u d) (fst c) (snd c)) c1).
    eexists. rewrite <- !app_assoc. cbn [app]. reflexivity. }
  destruct Es as (X & Y & Es). exists (length (X ++ [trial_step k1 k2 false; trial_step k1 k2 true])).
  unfold interrupted. rewrite Es, firstn_app, Nat.sub_diag, firstn_all, firstn_O, app_nil_r.
  assert (Hi : inv st st) by (split; [exact Hu|split; [apply same_shape_refl|apply same_data_refl]]).
  destruct (@exec_keeps st X) with (st := st) as (st' & E & _); [|exact Hi|].
  { intros f Hf. apply (@sweep_steps_keep st d Tc lgam rn f). rewrite Es. apply in_or_app; left. apply in_or_app; now left. }
  rewrite exec_app, E. cbn [exec trial_step on_m pure snd with_model gi_m with_A dm_A]. unfold upd2. now rewrite !Nat.eqb_refl.
Qed.
Print Assumptions C100_forbidden_edge_refuted.
Print Assumptions C100_assignments_are_the_sweep.

(** A history with an interruption in the middle of the parents and another in the middle of the edges. *)
Definition ex_hist100 : list iop :=
  [IDo (GAdd (sval_of 2 1 (fun _ _ => 1%Z)) (Some (fval_of 2 1 1 (fun t _ _ => if Nat.eqb t 0 then 0 else 1))) None);
   IStop true (ex_draws 1 1 ex_last) 2; IStop true (ex_draws 1 1 ex_last) 9; IDo (GSweep true (ex_draws 1 1 ex_last))].
Example C100_nonvacuous : hypers_ok 1 ex_hyp /\ net_ok 1 (ex_er 1) /\ draws_contract 1 1 (net_C (ex_er 1)) (ex_draws 1 1 ex_last) /\
  (forall o, In o ex_hist100 -> iop_ok 1 1 (net_C (ex_er 1)) o) /\ net_allow (ex_er 1) = false /\ h_parallel ex_hyp = false.
Proof.
  split; [apply ex_hyp_ok|]. split; [apply ex_er_ok|]. split; [apply ex_draws_ok; [lia|apply ex_last_ok]|].
  split; [|split; reflexivity]. intros o [<-|[<-|[<-|[<-|[]]]]].
  - apply (ex_hist27_ok (or_introl eq_refl)).
  - apply ex_draws_ok; [lia|apply ex_last_ok].
  - apply ex_draws_ok; [lia|apply ex_last_ok].
  - apply (ex_hist27_ok (or_intror (or_introl eq_refl))).
Qed.
