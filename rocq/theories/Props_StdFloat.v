(** * Props_StdFloat: C112, training the standard model from its background-rate initialisation. *)
From Coq Require Import Lia Lra.
From Verif Require Import Prelude ExtReal Arrays M_Basis M_Parents M_Discrete M_MeanField M_Standard M_StdFloat.
From Verif Require Import L_Basis L_Discrete L_Standard Props_Basis Props_Discrete Props_Standard Props_Standard2 Props_Network.
Set Implicit Arguments.
Open Scope R_scope.

(* ------------------------------------------------------------------ *)
(** ** Specification *)

(** A data set as add_data builds it: bins, counts, a column of ones and filtered counts. *)
Definition sound_data (K P : nat) (d : sdata) : Prop :=
  (0 < sd_T d)%nat /\ (forall t, (t < sd_T d)%nat -> sd_F d t 0%nat = 1) /\
  (forall t j, (t < sd_T d)%nat -> (j < P)%nat -> 0 <= sd_F d t j) /\
  (forall t k, (t < sd_T d)%nat -> (k < K)%nat -> (0 <= sd_S d t k)%Z).
Definition sound_model (m : smodel) : Prop := forall d, In d (sm_data m) -> sound_data (sm_K m) (sm_P m) d.
(** Weights, and possibly a velocity, seen as floats. *)
Definition floats (w : mat) : emat := fun k j => Fin (w k j).
(** The entries of K x P float arrays are the numbers w. *)
Definition numbers (K P : nat) (x : emat) (w : mat) : Prop := forall k j, (k < K)%nat -> (j < P)%nat -> x k j = Fin (w k j).
Definition onumbers (K P : nat) (x : option emat) (w : option mat) : Prop :=
  match x, w with None, None => True | Some x, Some w => numbers K P x w | _, _ => False end.

(* ------------------------------------------------------------------ *)
(** ** Data added through add_data *)

Lemma offsets_lt T n off : forall fuel o, In off (offsets fuel T n o) -> (off < T)%nat.
Proof.
  induction fuel as [|f IH]; intros o H; cbn [offsets] in H; [contradiction|].
  destruct (Nat.ltb_spec o T) as [Hlt|]; [|contradiction]. destruct H as [<-|H]; [exact Hlt|]. eapply IH; eauto.
Qed.

Theorem C112_add_data_is_sound :
  forall m s mb m', sound_model m -> s_add_data m s None mb = Ok m' ->
  (forall l b, (l < sm_L m)%nat -> (b < sm_B m)%nat -> 0 <= sm_bas m l b) -> sound_model m'.
Proof.
  intros m s mb m' Hm E Hb. apply s_add_data_inv in E as (T & F & ps & Ed & HT & HK & Hc & (F0 & EF0 & -> & HB) & Eps & ->).
  assert (HF : forall t j, (t < T)%nat -> (j < sm_P m)%nat -> 0 <= flatten_F (sm_B m) F0 t j).
  { intros t j Ht Hj. unfold flatten_F. destruct j as [|i]; [lra|]. unfold sm_P in Hj.
    assert (Hi : (i < sm_K m * sm_B m)%nat) by lia.
    assert (Hd : (i / sm_B m < sm_K m)%nat) by (apply Nat.div_lt_upper_bound; lia).
    assert (Hr : (i mod sm_B m < sm_B m)%nat) by (apply Nat.mod_upper_bound; lia).
    rewrite (@convolve_entry _ _ _ _ _ _ _ EF0) by auto. apply conv_full_nonneg.
    - intros t' Ht'. apply IZR_le. now apply Hc.
    - intros l Hl. now apply Hb. }
  intros d Hin. cbn [sm_data sm_with_data] in Hin. apply in_app_or in Hin as [Hin|Hin].
  { exact (Hm d Hin). }
  change (sm_K (sm_with_data m (sm_data m ++ ps))) with (sm_K m). change (sm_P (sm_with_data m (sm_data m ++ ps))) with (sm_P m).
  unfold s_batches in Eps. destruct mb as [n|].
  - destruct (Z.eqb_spec n 0); [discriminate|]. destruct (Z.ltb_spec n 0).
    + injection Eps as <-. contradiction.
    + injection Eps as <-. apply in_map_iff in Hin as (off & <- & Hoff). apply offsets_lt in Hoff.
      unfold sound_data. cbn [sd_T sd_F sd_S]. unfold slice2. split; [lia|]. split; [reflexivity|]. split.
      * intros t j Ht Hj. apply HF; [lia|exact Hj].
      * intros t k Ht Hk. apply Hc; [lia|exact Hk].
  - injection Eps as <-. destruct Hin as [<-|[]]. unfold sound_data. cbn [sd_T sd_F sd_S]. split; [exact HT|].
    split; [reflexivity|]. split; [intros; now apply HF|intros; now apply Hc].
Qed.
Print Assumptions C112_add_data_is_sound.

(* ------------------------------------------------------------------ *)
(** ** Positive weights: the float steps are the real steps *)

Lemma sound_rate_pos K P d w t : (0 < P)%nat -> sound_data K P d -> (forall j, (j < P)%nat -> 0 < w j) -> (t < sd_T d)%nat ->
  0 < s_rate P w d t.
Proof.
  intros HP (H0 & H1 & H2 & _) Hw Ht. unfold s_rate. destruct P as [|P]; [lia|]. rewrite Rsum_S_l, H1 by auto.
  assert (0 <= Rsum P (fun i => sd_F d t (S i) * w (S i))).
  { apply Rsum_nonneg. intros i Hi. apply Rmult_le_pos; [apply H2; lia|left; apply Hw; lia]. }
  specialize (Hw 0%nat ltac:(lia)). lra.
Qed.

Lemma f_rate_fin P we w d t : (forall j, (j < P)%nat -> we j = Fin (w j)) -> f_rate P we d t = Fin (s_rate P w d t).
Proof. intros H. unfold f_rate, s_rate. apply esum_fin. intros j Hj. now rewrite H. Qed.

Lemma f_dot_diag_fin P (ge we : nat -> er) (g w : vec) j : (j < P)%nat ->
  (forall i, (i < P)%nat -> ge i = Fin (g i)) -> (forall i, (i < P)%nat -> we i = Fin (w i)) ->
  f_dot_diag P ge we j = Fin (g j * w j).
Proof.
  intros Hj Hg Hw. unfold f_dot_diag. rewrite (@esum_fin P _ (fun i => if Nat.eqb i j then g j * w j else 0)).
  - f_equal. clear Hg Hw. induction P as [|P IH]; [lia|]. cbn [Rsum]. destruct (Nat.eq_dec P j) as [->|Hne].
    + rewrite Nat.eqb_refl, Rsum_0; [ring|]. intros i Hi. destruct (Nat.eqb_spec i j); [lia|reflexivity].
    + rewrite IH by lia. destruct (Nat.eqb_spec P j); [lia|ring].
  - intros i Hi. rewrite Hg by auto. destruct (Nat.eqb_spec i j) as [->|]; [now rewrite Hw|]. rewrite emul_fin. f_equal. ring.
Qed.

Lemma f_gradient_fin m k (we : nat -> er) (w : vec) ds g :
  (forall j, (j < sm_P m)%nat -> we j = Fin (w j)) -> (forall j, (j < sm_P m)%nat -> 0 < w j) ->
  (forall d, In d ds -> sound_data (sm_K m) (sm_P m) d) ->
  s_gradient_row m k w ds = Ok g ->
  exists ge, f_gradient m k we ds = Ok ge /\ forall j, (j < sm_P m)%nat -> ge j = Fin (g j).
Proof.
  intros Hw Hp Hd E. unfold s_gradient_row in E. unfold f_gradient.
  assert (Hg : forall j, (j < sm_P m)%nat ->
    eadd (elsum (map (fun d => f_grad_data m k we d j) ds)) (f_grad_prior (sm_alpha m) (sm_beta m) we j)
    = Fin (lsum (map (fun d => s_grad_data m k w d j) ds) + s_grad_prior (sm_alpha m) (sm_beta m) w j)).
  { intros j Hj. rewrite (@elsum_map_fin _ _ (fun d => s_grad_data m k w d j)).
    - assert (Ep : f_grad_prior (sm_alpha m) (sm_beta m) we j = Fin (s_grad_prior (sm_alpha m) (sm_beta m) w j)).
      { unfold f_grad_prior, s_grad_prior. destruct j as [|i]; [reflexivity|]. rewrite Hw by auto.
        destruct (Rltb 1 (sm_alpha m)); [|reflexivity]. rewrite ediv_fin by (specialize (Hp _ Hj); lra). reflexivity. }
      rewrite Ep. reflexivity.
    - intros d Hin. unfold f_grad_data, s_grad_data. apply esum_fin. intros t Ht. rewrite (@f_rate_fin _ _ w) by auto.
      rewrite ediv_fin, esub_fin, emul_fin; [reflexivity|]. apply Rgt_not_eq.
      apply (@sound_rate_pos (sm_K m)); auto. unfold sm_P. lia. }
  destruct (sm_allow m).
  - injection E as <-. eexists. split; [reflexivity|]. exact Hg.
  - match type of E with context [if ?c then _ else _] => destruct c eqn:Ec; [|discriminate] end. injection E as <-.
    rewrite (proj2 (forall_lt_true _ _)).
    + eexists. split; [reflexivity|]. intros j Hj. cbv beta. destruct (self_block (sm_B m) k j); [reflexivity|now apply Hg].
    + intros j Hj. rewrite forall_lt_true in Ec. specialize (Ec j Hj). cbv beta in Ec. destruct (self_block (sm_B m) k j); [|reflexivity].
      rewrite Hw by auto. exact Ec.
Qed.

Lemma f_gd_rows_fin m e ks : sound_model m -> (forall k, In k ks -> (k < sm_K m)%nat) ->
  forall w we, step_ok (sm_with_w m w) -> numbers (sm_K m) (sm_P m) we w ->
  exists w' we', s_rows (fun m k => s_gd_row m e k) (sm_with_w m w) ks = Ok (sm_with_w m w') /\ step_ok (sm_with_w m w') /\
    f_gd_rows m e we ks = Ok we' /\ numbers (sm_K m) (sm_P m) we' w'.
Proof.
  intros Hm. induction ks as [|k ks IH]; intros Hks w we Hok Hn; cbn [s_rows f_gd_rows].
  - exists w, we. auto.
  - assert (Hk := Hks k (or_introl eq_refl)).
    destruct (@s_grad_ok (sm_with_w m w) k (sm_data m) Hok Hk) as (g & Eg & Hg0).
    unfold s_gd_row at 1. unfold s_compute_gradient. rewrite s_data_list_all. cbn [bindr].
    change (sm_K (sm_with_w m w)) with (sm_K m). rewrite (proj2 (Nat.ltb_lt k (sm_K m))) by auto.
    change (sm_data (sm_with_w m w)) with (sm_data m). rewrite Eg. cbn [bindr].
    change (sm_w (sm_with_w m w)) with w in *.
    destruct (@f_gradient_fin m k (we k) (w k) (sm_data m) g) as (ge & Ege & Hge).
    { intros j Hj. now apply Hn. }
    { intros j Hj. exact (proj1 Hok k j Hk Hj). }
    { exact Hm. }
    { exact Eg. }
    rewrite Ege. cbn [bindr].
    change (sm_with_w (sm_with_w m w)) with (sm_with_w m).
    set (w1 := fun k' j => if Nat.eqb k' k then exp (ln (w k j) + e * (g j * w k j)) else w k' j).
    destruct (IH (fun k' H => Hks k' (or_intror H)) w1 (f_set_row we k (fun j => eexp (eadd (elog (we k j)) (emul (Fin e) (f_dot_diag (sm_P m) ge (we k) j))))))
      as (w' & we' & E1 & H1 & E2 & H2).
    + apply (@row_step_ok (sm_with_w m w) k (fun j => exp (ln (w k j) + e * (g j * w k j))) (fun j => e * (g j * w k j))); auto.
      intros Ha j Hj Hb. rewrite Hg0 by auto. ring.
    + intros k' j Hk' Hj. unfold f_set_row, w1. destruct (Nat.eqb_spec k' k) as [->|]; [|now apply Hn].
      rewrite (@f_dot_diag_fin _ _ _ g (w k)) by auto. rewrite (Hn k j Hk Hj), elog_fin by (exact (proj1 Hok k j Hk Hj)). reflexivity.
    + exists w', we'. auto.
Qed.

Lemma f_sgd_rows_fin m mb d lr mom prev preve ks : sound_model m -> nth_error (sm_data m) mb = Some d -> (forall k, In k ks -> (k < sm_K m)%nat) ->
  vel_ok m (Some prev) -> numbers (sm_K m) (sm_P m) preve prev ->
  forall w we vel vele, step_ok (sm_with_w m w) -> vel_ok m (Some vel) -> numbers (sm_K m) (sm_P m) we w -> numbers (sm_K m) (sm_P m) vele vel ->
  exists w' we' vel' vele', s_sgd_rows mb lr mom prev (sm_with_w m w, vel) ks = Ok (sm_with_w m w', vel') /\ step_ok (sm_with_w m w') /\
    vel_ok m (Some vel') /\ f_sgd_rows m d lr mom preve we vele ks = Ok (we', vele') /\
    numbers (sm_K m) (sm_P m) we' w' /\ numbers (sm_K m) (sm_P m) vele' vel'.
Proof.
  intros Hm Ed Hks Hvp Hnp. induction ks as [|k ks IH]; intros w we vel vele Hok Hv Hn Hnv; cbn [s_sgd_rows f_sgd_rows].
  - exists w, we, vel, vele. auto 10.
  - assert (Hk := Hks k (or_introl eq_refl)).
    assert (Hd : sound_data (sm_K m) (sm_P m) d) by (apply Hm; eapply nth_error_In; eauto).
    destruct (@s_grad_ok (sm_with_w m w) k [d] Hok Hk) as (g & Eg & Hg0).
    rewrite (@s_data_at_nat (sm_with_w m w) mb d Ed). cbn [bindr]. unfold s_compute_gradient. cbn [s_indices s_data_list].
    rewrite (@s_data_at_nat (sm_with_w m w) mb d Ed). cbn [bindr].
    change (sm_K (sm_with_w m w)) with (sm_K m). rewrite (proj2 (Nat.ltb_lt k (sm_K m))) by auto.
    rewrite Eg. cbn [bindr]. change (sm_w (sm_with_w m w)) with w in *.
    destruct (@f_gradient_fin m k (we k) (w k) [d] g) as (ge & Ege & Hge).
    { intros j Hj. now apply Hn. }
    { intros j Hj. exact (proj1 Hok k j Hk Hj). }
    { intros d' [<-|[]]. exact Hd. }
    { exact Eg. }
    rewrite Ege. cbn [bindr]. change (sm_with_w (sm_with_w m w)) with (sm_with_w m).
    set (v := fun j => mom * prev k j + lr * (g j * w k j / INR (sd_T d))).
    assert (Hve : forall j, (j < sm_P m)%nat -> eadd (emul (Fin mom) (preve k j)) (emul (Fin lr) (ediv (f_dot_diag (sm_P m) ge (we k) j) (Fin (INR (sd_T d))))) = Fin (v j)).
    { intros j Hj. rewrite (@f_dot_diag_fin _ _ _ g (w k)) by auto. rewrite Hnp by auto. rewrite ediv_fin; [reflexivity|].
      apply not_0_INR. destruct Hd. lia. }
    set (w1 := fun k' j => if Nat.eqb k' k then exp (ln (w k j) + v j) else w k' j).
    set (vel1 := fun k' j => if Nat.eqb k' k then v j else vel k' j).
    assert (Hv0 : sm_allow m = false -> forall j, (j < sm_P m)%nat -> self_block (sm_B m) k j = true -> v j = 0).
    { intros Ha j Hj Hb. unfold v. rewrite Hg0 by auto. rewrite (Hvp Ha k j) by auto. unfold Rdiv. ring. }
    match goal with |- context [f_sgd_rows m d lr mom preve ?a ?b ks] =>
      destruct (IH (fun k' H => Hks k' (or_intror H)) w1 a vel1 b) as (w' & we' & vel' & vele' & E1 & H1 & H2 & E2 & H3 & H4) end.
    + apply (@row_step_ok (sm_with_w m w) k (fun j => exp (ln (w k j) + v j)) v); auto.
    + intros Ha k' j Hk' Hj Hb. unfold vel1. destruct (Nat.eqb_spec k' k) as [->|]; [now apply Hv0|now apply Hv].
    + intros k' j Hk' Hj. unfold f_set_row, w1. destruct (Nat.eqb_spec k' k) as [->|]; [|now apply Hn].
      rewrite Hve by auto. rewrite (Hn k j Hk Hj), elog_fin by (exact (proj1 Hok k j Hk Hj)). reflexivity.
    + intros k' j Hk' Hj. unfold f_set_row, vel1. destruct (Nat.eqb_spec k' k) as [->|]; [now apply Hve|now apply Hnv].
    + exists w', we', vel', vele'. auto 10.
Qed.

(** From positive weights, on data that add_data built, every history of training steps computed in floats runs to
    completion and gives the numbers of the real-valued steps of M_Standard (about which C47, C51 and C55 speak):
    in particular every weight stays a positive number. *)
Theorem C112_positive_histories :
  forall m v ve h, sound_model m -> sm_data m <> [] -> step_ok m -> vel_ok m v -> onumbers (sm_K m) (sm_P m) ve v ->
  (forall o, In o h -> mb_ok (length (sm_data m)) o) ->
  exists m' v' w' ve', s_run (m, v) h = Ok (m', v') /\ same_but_w m m' /\ step_ok m' /\
    f_run m (floats (sm_w m), ve) h = Ok (w', ve') /\
    numbers (sm_K m) (sm_P m) w' (sm_w m') /\ onumbers (sm_K m) (sm_P m) ve' v'.
Proof.
  intros m v ve h Hm Hd Hok Hv Hve Hh.
  cut (forall h, (forall o, In o h -> mb_ok (length (sm_data m)) o) -> forall w we v ve, step_ok (sm_with_w m w) -> vel_ok m v ->
    numbers (sm_K m) (sm_P m) we w -> onumbers (sm_K m) (sm_P m) ve v ->
    exists w' v' we' ve', s_run (sm_with_w m w, v) h = Ok (sm_with_w m w', v') /\ step_ok (sm_with_w m w') /\
      f_run m (we, ve) h = Ok (we', ve') /\ numbers (sm_K m) (sm_P m) we' w' /\ onumbers (sm_K m) (sm_P m) ve' v').
  { intros H. destruct (H h Hh (sm_w m) (floats (sm_w m)) v ve) as (w' & v' & we' & ve' & E1 & H1 & E2 & H2 & H3); auto.
    { intros k j _ _. reflexivity. }
    exists (sm_with_w m w'), v', we', ve'. split; [|split; [reflexivity|auto]].
    replace (sm_with_w m (sm_w m)) with m in E1 by (destruct m; reflexivity). exact E1. }
  clear h Hh v ve Hv Hve. induction h as [|o h IH]; intros Hh w we v ve Hw Hv Hn Hnv; cbn [s_run f_run].
  { exists w, v, we, ve. auto. }
  assert (Ho := Hh o (or_introl eq_refl)).
  assert (Hstep : exists w1 v1 we1 ve1, s_op (sm_with_w m w, v) o = Ok (sm_with_w m w1, v1) /\ step_ok (sm_with_w m w1) /\ vel_ok m v1 /\
    f_op m (we, ve) o = Ok (we1, ve1) /\ numbers (sm_K m) (sm_P m) we1 w1 /\ onumbers (sm_K m) (sm_P m) ve1 v1).
  { assert (Hks : forall k, In k (seq 0 (sm_K m)) -> (k < sm_K m)%nat) by (intros k Hk; apply in_seq in Hk; lia).
    destruct o as [e|fresh lr mom mb]; cbn [s_op f_op fst snd].
    - unfold s_gradient_descent_step. change (sm_K (sm_with_w m w)) with (sm_K m).
      destruct (@f_gd_rows_fin m e (seq 0 (sm_K m)) Hm Hks w we Hw Hn) as (w1 & we1 & E1 & H1 & E2 & H2).
      rewrite E1, E2. cbn [bindr]. exists w1, v, we1, ve. auto 10.
    - unfold s_sgd_step. change (sm_data (sm_with_w m w)) with (sm_data m). change (sm_K (sm_with_w m w)) with (sm_K m).
      cbn [mb_ok] in Ho. destruct (nth_error (sm_data m) mb) as [d|] eqn:Ed; [|apply nth_error_None in Ed; lia].
      rewrite (@s_data_at_nat m mb d Ed).
      set (prev := match (if fresh then None else v) with None => fun _ _ => 0 | Some v => v end).
      set (preve := match (if fresh then None else ve) with None => fun _ _ => Fin 0 | Some v => v end).
      assert (Hp1 : vel_ok m (Some prev)).
      { unfold prev. destruct fresh; [intros _ k j _ _ _; reflexivity|]. destruct v as [v|]; [exact Hv|intros _ k j _ _ _; reflexivity]. }
      assert (Hp2 : numbers (sm_K m) (sm_P m) preve prev).
      { unfold prev, preve. destruct fresh; [intros k j _ _; reflexivity|]. destruct v as [v|], ve as [ve|]; try contradiction; [exact Hnv|intros k j _ _; reflexivity]. }
      destruct (@f_sgd_rows_fin m mb d lr mom prev preve (seq 0 (sm_K m)) Hm Ed Hks Hp1 Hp2 w we (fun _ _ => 0) (fun _ _ => Fin 0))
        as (w1 & we1 & vel1 & vele1 & E1 & H1 & H2 & E2 & H3 & H4); auto.
      { intros _ k j _ _ _. reflexivity. }
      { intros k j _ _. reflexivity. }
      destruct (sm_data m) as [|d0 ds] eqn:Edd; [contradiction|]. cbn [bindr]. fold prev preve.
      match goal with |- context [bindr (s_sgd_rows mb lr mom ?a ?b ?c) _] =>
        assert (Q : s_sgd_rows mb lr mom a b c = Ok (sm_with_w m w1, vel1)) by exact E1; rewrite Q end.
      match goal with |- context [f_sgd_rows m d lr mom ?a ?b ?c ?e] =>
        assert (Q2 : f_sgd_rows m d lr mom a b c e = Ok (we1, vele1)) by exact E2; rewrite Q2 end.
      cbn [bindr fst snd]. exists w1, (Some vel1), we1, (Some vele1). auto 10. }
  destruct Hstep as (w1 & v1 & we1 & ve1 & E1 & H1 & H2 & E2 & H3 & H4). rewrite E1, E2. cbn [bindr].
  apply IH; auto. intros o' Ho'. apply Hh. now right.
Qed.
Print Assumptions C112_positive_histories.

(* ------------------------------------------------------------------ *)
(** ** Starting from the background rate *)

Lemma lsum_nonneg_in {A} (f : A -> R) l : (forall x, In x l -> 0 <= f x) -> 0 <= lsum (map f l) /\ (lsum (map f l) = 0 -> forall x, In x l -> f x = 0).
Proof.
  induction l as [|a l IH]; intros H; cbn [map lsum].
  - split; [lra|]. intros _ x [].
  - destruct (IH (fun x Hx => H x (or_intror Hx))) as (H1 & H2). assert (Ha := H a (or_introl eq_refl)). split; [lra|].
    intros E x [<-|Hx]; [lra|]. apply H2; [lra|exact Hx].
Qed.
Lemma Rsum_zero_each n f : (forall i, (i < n)%nat -> 0 <= f i) -> Rsum n f = 0 -> forall i, (i < n)%nat -> f i = 0.
Proof. intros H E i Hi. assert (Q := @Rsum_term_le n f i H Hi). specialize (H i Hi). lra. Qed.

Lemma total_time_pos m : sound_model m -> sm_data m <> [] -> 0 < sm_dt m -> 0 < total_time (sm_dt m) (sm_data m).
Proof.
  intros Hm Hne Hdt. unfold total_time. apply Rmult_lt_0_compat; [exact Hdt|]. destruct (sm_data m) as [|d ds] eqn:E; [contradiction|].
  cbn [map lsum]. assert (0 < INR (sd_T d)). { apply lt_0_INR. apply (Hm d). rewrite E. now left. }
  assert (0 <= lsum (map (fun d => INR (sd_T d)) ds)) by (apply lsum_nonneg_in; intros; apply pos_INR). lra.
Qed.

Lemma f_gradient_with_w m w k we ds : f_gradient (sm_with_w m w) k we ds = f_gradient m k we ds.
Proof. reflexivity. Qed.
Lemma f_gd_rows_with_w m w e ks : forall we, f_gd_rows (sm_with_w m w) e we ks = f_gd_rows m e we ks.
Proof.
  induction ks as [|k ks IH]; intros we; cbn [f_gd_rows]; [reflexivity|]. rewrite f_gradient_with_w.
  change (sm_data (sm_with_w m w)) with (sm_data m). change (sm_P (sm_with_w m w)) with (sm_P m).
  destruct (f_gradient m k (we k) (sm_data m)); cbn [bindr]; [apply IH|reflexivity].
Qed.
Lemma f_sgd_rows_with_w m w d lr mom prev ks : forall we ve, f_sgd_rows (sm_with_w m w) d lr mom prev we ve ks = f_sgd_rows m d lr mom prev we ve ks.
Proof.
  induction ks as [|k ks IH]; intros we ve; cbn [f_sgd_rows]; [reflexivity|]. rewrite f_gradient_with_w.
  change (sm_P (sm_with_w m w)) with (sm_P m).
  destruct (f_gradient m k (we k) [d]); cbn [bindr]; [apply IH|reflexivity].
Qed.
Lemma f_run_with_w m w h : forall st, f_run (sm_with_w m w) st h = f_run m st h.
Proof.
  induction h as [|o h IH]; intros st; cbn [f_run]; [reflexivity|].
  assert (E : f_op (sm_with_w m w) st o = f_op m st o).
  { destruct o as [e|fresh lr mom mb]; cbn [f_op].
    - change (sm_K (sm_with_w m w)) with (sm_K m). now rewrite f_gd_rows_with_w.
    - change (sm_data (sm_with_w m w)) with (sm_data m). change (sm_K (sm_with_w m w)) with (sm_K m).
      change (s_data_at (sm_with_w m w) (Z.of_nat mb)) with (s_data_at m (Z.of_nat mb)).
      destruct (sm_data m); [reflexivity|]. destruct (s_data_at m (Z.of_nat mb)); cbn [bindr]; [|reflexivity].
      now rewrite f_sgd_rows_with_w. }
  rewrite E. destruct (f_op m st o); cbn [bindr]; auto.
Qed.

(** When every process has at least one event, training from the background-rate initialisation keeps every weight a
    positive number, whatever the sequence of steps. *)
Theorem C112_trained_from_background_partial :
  forall m h, sound_model m -> sm_data m <> [] -> 0 < sm_dt m -> step_ok m ->
  (forall k, (k < sm_K m)%nat -> 0 < total_events (sm_data m) k) ->
  (forall o, In o h -> mb_ok (length (sm_data m)) o) ->
  exists w' ve', f_run m (floats (sm_w (s_init_background m)), None) h = Ok (w', ve') /\
    forall k j, (k < sm_K m)%nat -> (j < sm_P m)%nat -> exists x, w' k j = Fin x /\ 0 < x.
Proof.
  intros m h Hm Hne Hdt Hok Hev Hh. assert (HT := total_time_pos Hm Hne Hdt).
  destruct (@C53_background_rate m Hne) as (Hb & Hw & Hd). set (m0 := s_init_background m) in *.
  assert (Es : m0 = sm_with_w m (sm_w m0)).
  { unfold m0, s_init_background. destruct (sm_data m); [destruct m; reflexivity|reflexivity]. }
  assert (Hok0 : step_ok m0).
  { rewrite Es. split.
    - intros k j Hk Hj. cbn [sm_w sm_with_w]. change (k < sm_K m)%nat in Hk. change (j < sm_P m)%nat in Hj. destruct j as [|i].
      + change (sm_w m0 k 0%nat) with (s_bias m0 k). rewrite Hb. apply Rdiv_lt_0_compat; auto.
      + rewrite Hw by lia. now apply (proj1 Hok).
    - intros Ha k j Hk Hj Hs. cbn [sm_w sm_with_w]. destruct j as [|i].
      + unfold self_block in Hs. cbn in Hs. discriminate.
      + rewrite Hw by lia. now apply (proj2 Hok). }
  assert (EK : sm_K m0 = sm_K m) by (rewrite Es; reflexivity). assert (EP : sm_P m0 = sm_P m) by (rewrite Es; reflexivity).
  destruct (@C112_positive_histories m0 None None h) as (m' & v' & w' & ve' & _ & Hs & Hok' & E & Hn & _); auto.
  { intros d Hin. rewrite Hd in Hin. rewrite EK, EP. now apply Hm. }
  { now rewrite Hd. }
  { exact I. }
  { exact I. }
  { now rewrite Hd. }
  exists w', ve'. split.
  - rewrite <- (@f_run_with_w m (sm_w m0)), <- Es. exact E.
  - intros k j Hk Hj. rewrite EK, EP in Hn. exists (sm_w m' k j). split; [now apply Hn|].
    apply (proj1 Hok'); [rewrite Hs; cbn [sm_K sm_with_w]; lia|rewrite Hs; change (j < sm_P m0)%nat; lia].
Qed.
Print Assumptions C112_trained_from_background_partial.

(** A process without events gets a zero background rate, whose logarithm is -inf; the log-space fit would start there. *)
Lemma silent_bias m k : sm_data m <> [] -> total_events (sm_data m) k = 0 -> sm_w (s_init_background m) k 0%nat = 0.
Proof. intros Hne E. change (s_bias (s_init_background m) k = 0). rewrite (proj1 (@C53_background_rate m Hne)), E. unfold Rdiv. ring. Qed.

Lemma elsum_NaN_in {A} (f : A -> er) l x : In x l -> f x = NaN -> elsum (map f l) = NaN.
Proof.
  induction l as [|a l IH]; intros H E; [contradiction|]. cbn [map elsum]. destruct H as [->|H]; [rewrite E; reflexivity|].
  rewrite IH by auto. apply eadd_NaN_r.
Qed.

Definition stuck (x : er) : Prop := x = Fin 0 \/ x = NaN.
Lemma stuck_step x y : stuck x -> stuck (eexp (eadd (elog x) y)).
Proof. intros [->| ->]; [rewrite elog_0|]; destruct y; cbn; unfold stuck; auto. Qed.

Lemma f_gd_rows_entry m e k j (Q : er -> Prop) : (forall x y, Q x -> Q (eexp (eadd (elog x) y))) ->
  forall ks w w', Q (w k j) -> f_gd_rows m e w ks = Ok w' -> Q (w' k j).
Proof.
  intros HQ. induction ks as [|k' ks IH]; intros w w' Hw E; cbn [f_gd_rows] in E; [injection E as <-; exact Hw|].
  apply bindr_ok in E as (g & _ & E). refine (IH _ _ _ E). unfold f_set_row. destruct (Nat.eqb_spec k k') as [->|]; [|exact Hw]. now apply HQ.
Qed.
Lemma f_sgd_rows_entry m d lr mom prev k j (Q : er -> Prop) : (forall x y, Q x -> Q (eexp (eadd (elog x) y))) ->
  forall ks w vel w' vel', Q (w k j) -> f_sgd_rows m d lr mom prev w vel ks = Ok (w', vel') -> Q (w' k j).
Proof.
  intros HQ. induction ks as [|k' ks IH]; intros w vel w' vel' Hw E; cbn [f_sgd_rows] in E; [injection E as <- <-; exact Hw|].
  apply bindr_ok in E as (g & _ & E). refine (IH _ _ _ _ _ E). unfold f_set_row. destruct (Nat.eqb_spec k k') as [->|]; [|exact Hw]. now apply HQ.
Qed.
Lemma f_run_entry m k j (Q : er -> Prop) : (forall x y, Q x -> Q (eexp (eadd (elog x) y))) ->
  forall h st st', Q (fst st k j) -> f_run m st h = Ok st' -> Q (fst st' k j).
Proof.
  intros HQ. induction h as [|o h IH]; intros st st' Hw E; cbn [f_run] in E; [injection E as <-; exact Hw|].
  apply bindr_ok in E as (st1 & E1 & E). refine (IH _ _ _ E). destruct o as [e|fresh lr mom mb]; cbn [f_op] in E1.
  - apply bindr_ok in E1 as (w1 & E1 & E2). injection E2 as <-. cbn [fst]. eapply f_gd_rows_entry; eauto.
  - destruct (sm_data m) as [|]; [discriminate|]. apply bindr_ok in E1 as (d & _ & E1). apply bindr_ok in E1 as ((w1 & v1) & E1 & E2).
    injection E2 as <-. cbn [fst]. eapply f_sgd_rows_entry; eauto.
Qed.

(** Once an entry is NaN it is NaN for ever. *)
Lemma nan_for_ever m k j h st st' : fst st k j = NaN -> f_run m st h = Ok st' -> fst st' k j = NaN.
Proof. intros H E. apply (@f_run_entry m k j (fun x => x = NaN)) with (h := h) (st := st); auto. intros x y ->. reflexivity. Qed.

(** False as stated: a process that had no events so far starts with background rate 0, and no sequence of steps ever
    makes it positive, even if data in which it is active is added before the steps: it stays 0 or becomes NaN. *)
Theorem C112_silent_process_stuck_refuted :
  forall m mlater k, sm_data m <> [] -> total_events (sm_data m) k = 0 ->
  let w0 := floats (sm_w (s_init_background m)) in
  f_log_start w0 k 0%nat = NInf /\
  forall v h w' v', f_run mlater (w0, v) h = Ok (w', v') -> w' k 0%nat = Fin 0 \/ w' k 0%nat = NaN.
Proof.
  intros m mlater k Hne E. cbv zeta. assert (E0 := silent_bias m k Hne E). split.
  - unfold f_log_start, floats. rewrite E0. apply elog_0.
  - intros v h w' v' Er. apply (@f_run_entry mlater k 0%nat stuck) with (h := h) (st := (floats (sm_w (s_init_background m)), v)) (st' := (w', v')); auto.
    + apply stuck_step.
    + cbn [fst]. left. unfold floats. now rewrite E0.
Qed.
Print Assumptions C112_silent_process_stuck_refuted.

(** And if some bin has no filtered input (the first bin of a recording, or any bin of a recording without events), one
    gradient step turns all of the process's weights into NaN; they stay NaN, and so does the reported log likelihood. *)
Theorem C112_silent_process_nan_refuted :
  forall m k e, sound_model m -> sm_data m <> [] -> step_ok m -> (k < sm_K m)%nat -> total_events (sm_data m) k = 0 ->
  (exists d t, In d (sm_data m) /\ (t < sd_T d)%nat /\ forall j, (0 < j < sm_P m)%nat -> sd_F d t j = 0) ->
  exists w1, f_gd_rows m e (floats (sm_w (s_init_background m))) (seq 0 (sm_K m)) = Ok w1 /\
    (forall j, (j < sm_P m)%nat -> w1 k j = NaN) /\
    forall v h w' v', f_run m (w1, v) h = Ok (w', v') -> (forall j, (j < sm_P m)%nat -> w' k j = NaN) /\ f_log_likelihood m w' = NaN.
Proof.
  intros m k e Hm Hne Hok Hk Ev (d & t & Hin & Ht & HF).
  assert (E0 := silent_bias m k Hne Ev). set (m0 := s_init_background m) in *.
  assert (Hw0 : forall k j, (0 < j)%nat -> sm_w m0 k j = sm_w m k j) by (apply (@C53_background_rate m Hne)).
  assert (Sd := Hm d Hin). destruct Sd as (HT & H1 & H2 & H3).
  assert (ES : IZR (sd_S d t k) = 0).
  { assert (Q := proj2 (@lsum_nonneg_in _ (fun d => Rsum (sd_T d) (fun t => IZR (sd_S d t k))) (sm_data m)
      (fun d Hd => Rsum_nonneg _ (fun t Ht => IZR_le _ _ (proj2 (proj2 (proj2 (Hm d Hd))) t k Ht Hk)))) Ev d Hin).
    cbv beta in Q. apply (@Rsum_zero_each (sd_T d) (fun t => IZR (sd_S d t k))); auto. intros i Hi. apply IZR_le. now apply H3. }
  assert (Gn : forall ds (we : nat -> er), In d ds -> (forall j, (j < sm_P m)%nat -> we j = Fin (sm_w m0 k j)) ->
    elsum (map (fun d => f_grad_data m k we d 0%nat) ds) = NaN).
  { intros ds we Hd Hwe. assert (Q : f_grad_data m k we d 0%nat = NaN).
    { unfold f_grad_data. apply esum_NaN with (i := t); [exact Ht|]. rewrite (@f_rate_fin _ _ (sm_w m0 k)) by exact Hwe.
      replace (s_rate (sm_P m) (sm_w m0 k) d t) with 0; [rewrite ES, ediv_0_0; reflexivity|].
      symmetry. unfold s_rate. apply Rsum_0. intros j Hj. destruct j as [|i]; [rewrite E0; ring|]. rewrite HF by lia. ring. }
    clear Hwe. induction ds as [|a ds IH]; [contradiction|]. cbn [map elsum]. destruct Hd as [->|Hd].
    - rewrite Q. reflexivity.
    - rewrite IH by exact Hd. apply eadd_NaN_r. }
  (* every row of the step runs; row k becomes NaN *)
  assert (Rows : forall ks w, NoDup ks -> (forall k', In k' ks -> (k' < sm_K m)%nat) ->
     (forall k' j, In k' ks -> (j < sm_P m)%nat -> w k' j = Fin (sm_w m0 k' j)) ->
     exists w1, f_gd_rows m e w ks = Ok w1 /\ (In k ks -> forall j, (j < sm_P m)%nat -> w1 k j = NaN) /\
       (forall k', ~ In k' ks -> w1 k' = w k')).
  { induction ks as [|k1 ks IH]; intros w Hnd Hks Hw; cbn [f_gd_rows].
    - exists w. split; [reflexivity|]. split; [intros []|reflexivity].
    - assert (Hk1 := Hks k1 (or_introl eq_refl)).
      assert (Eg : exists g, f_gradient m k1 (w k1) (sm_data m) = Ok g /\ (k1 = k -> g 0%nat = NaN)).
      { assert (Gk : k1 = k -> eadd (elsum (map (fun d => f_grad_data m k1 (w k1) d 0%nat) (sm_data m))) (f_grad_prior (sm_alpha m) (sm_beta m) (w k1) 0%nat) = NaN).
        { intros ->. rewrite Gn; [reflexivity|exact Hin|]. intros j Hj. apply Hw; [now left|exact Hj]. }
        unfold f_gradient. destruct (sm_allow m) eqn:Ea; [eexists; split; [reflexivity|exact Gk]|].
        rewrite (proj2 (forall_lt_true _ _)).
        - eexists. split; [reflexivity|]. cbv beta. unfold self_block. cbn [Nat.leb Nat.add andb]. exact Gk.
        - intros j Hj. destruct (self_block (sm_B m) k1 j) eqn:Eb; [|reflexivity]. rewrite Hw by (auto; now left).
          destruct j as [|i]; [unfold self_block in Eb; cbn in Eb; discriminate|]. rewrite Hw0 by lia.
          rewrite (proj2 Hok Ea k1 (S i) Hk1 Hj Eb). cbn [f_close0]. unfold close0. apply Rleb_true. apply close_1e32. }
      destruct Eg as (g & -> & Hg). cbn [bindr]. inversion Hnd as [|? ? Hni Hnd']; subst.
      match goal with |- context [f_gd_rows m e ?a ks] => destruct (IH a Hnd') as (w1 & E & HN & Ho) end.
      { intros k' Hk'. apply Hks. now right. }
      { intros k' j Hk' Hj. unfold f_set_row. destruct (Nat.eqb_spec k' k1) as [->|]; [contradiction|]. apply Hw; [now right|exact Hj]. }
      exists w1. split; [exact E|]. split.
      + intros [->|Hk'] j Hj; [|now apply HN]. rewrite (Ho k Hni). unfold f_set_row. rewrite Nat.eqb_refl.
        assert (D : f_dot_diag (sm_P m) g (w k) j = NaN).
        { unfold f_dot_diag. apply esum_NaN with (i := 0%nat); [unfold sm_P; lia|]. rewrite Hg by reflexivity. reflexivity. }
        rewrite D. cbn [emul]. now rewrite eadd_NaN_r.
      + intros k' Hk'. rewrite Ho by (intros Q; apply Hk'; now right). unfold f_set_row. destruct (Nat.eqb_spec k' k1) as [->|]; [|reflexivity].
        exfalso. apply Hk'. now left. }
  destruct (Rows (seq 0 (sm_K m)) (floats (sm_w m0))) as (w1 & E & HN & _).
  { apply seq_NoDup. }
  { intros k' Hk'. apply in_seq in Hk'. lia. }
  { intros. reflexivity. }
  assert (HN' : forall j, (j < sm_P m)%nat -> w1 k j = NaN) by (apply HN; apply in_seq; lia).
  exists w1. split; [exact E|]. split; [exact HN'|]. intros v h w' v' Er.
  assert (HNw : forall j, (j < sm_P m)%nat -> w' k j = NaN).
  { intros j Hj. change (fst (w', v') k j = NaN). eapply nan_for_ever; [|exact Er]. now apply HN'. }
  split; [exact HNw|].
  unfold f_log_likelihood. apply (@elsum_NaN_in _ _ _ d Hin). apply esum_NaN with (i := t); [exact Ht|]. apply esum_NaN with (i := k); [exact Hk|].
  assert (Er' : f_rate (sm_P m) (w' k) d t = NaN).
  { unfold f_rate. apply esum_NaN with (i := 0%nat); [unfold sm_P; lia|]. rewrite HNw by (unfold sm_P; lia). reflexivity. }
  rewrite Er'. reflexivity.
Qed.
Print Assumptions C112_silent_process_nan_refuted.

(** The float log likelihood of finite weights, zero rates included, is the one log_likelihood reports for them. *)
Theorem C112_float_log_likelihood :
  forall m w we, (0 < sm_K m)%nat -> numbers (sm_K m) (sm_P m) we w -> s_log_likelihood (sm_with_w m w) All KNone = Ok (f_log_likelihood m we).
Proof.
  intros m w we HK Hn. rewrite (@s_ll_all (sm_with_w m w) KNone (seq 0 (sm_K m))) by (cbn; destruct (sm_K m); [lia|reflexivity]). f_equal. unfold f_log_likelihood.
  apply elsum_map_ext. intros d _. unfold s_ll_data. apply esum_ext. intros t Ht. rewrite elsum_map_seq. apply esum_ext. intros k Hk.
  cbv zeta. rewrite (@f_rate_fin _ (we k) (w k)) by (intros j Hj; now apply Hn). reflexivity.
Qed.
Print Assumptions C112_float_log_likelihood.

(** With self-connections switched off, weights that have become NaN stop the training: every further gradient step raises. *)
Theorem C112_nan_weights_refused :
  forall m e w k, sm_allow m = false -> (0 < sm_B m)%nat -> (k < sm_K m)%nat -> (forall j, (j < sm_P m)%nat -> w k j = NaN) ->
  f_gd_rows m e w (seq 0 (sm_K m)) = Raise AssertionError.
Proof.
  intros m e w k Ha HB Hk Hn.
  assert (G : forall ks w, In k ks -> (forall j, (j < sm_P m)%nat -> w k j = NaN) -> f_gd_rows m e w ks = Raise AssertionError).
  { clear w Hn. induction ks as [|k1 ks IH]; intros w Hin Hn; [contradiction|]. cbn [f_gd_rows]. unfold f_gradient. rewrite Ha.
    destruct (Nat.eq_dec k1 k) as [->|Hne].
    - assert (E : forall_lt (sm_P m) (fun j => if self_block (sm_B m) k j then f_close0 (w k j) else true) = false).
      { destruct (forall_lt _ _) eqn:E; [|reflexivity]. rewrite forall_lt_true in E. exfalso.
        assert (Hj : (1 + k * sm_B m < sm_P m)%nat) by (unfold sm_P; nia).
        specialize (E (1 + k * sm_B m)%nat Hj). rewrite Hn in E by exact Hj.
        assert (Sb : self_block (sm_B m) k (1 + k * sm_B m) = true).
        { unfold self_block. apply andb_true_iff. split; [apply Nat.leb_le|apply Nat.ltb_lt]; lia. }
        rewrite Sb in E. discriminate. }
      rewrite E. reflexivity.
    - destruct (forall_lt (sm_P m) _); [|reflexivity]. cbn [bindr]. apply IH.
      + destruct Hin as [E|Hin]; [contradiction|exact Hin].
      + intros j Hj. unfold f_set_row. destruct (Nat.eqb_spec k k1); [congruence|]. now apply Hn. }
  apply G; [apply in_seq; lia|exact Hn].
Qed.
Print Assumptions C112_nan_weights_refused.

(** The example model: two processes over two bins, the second silent, the first bin without filtered input. *)
Example C112_nonvacuous : sound_model ex_smd /\ sm_data ex_smd <> [] /\ step_ok ex_smd /\ total_events (sm_data ex_smd) 1 = 0 /\
  (exists d t, In d (sm_data ex_smd) /\ (t < sd_T d)%nat /\ forall j, (0 < j < sm_P ex_smd)%nat -> sd_F d t j = 0) /\
  sound_model ex_stat /\ step_ok ex_stat /\ sm_data ex_stat <> [] /\ 0 < sm_dt ex_stat /\
  (forall k, (k < sm_K ex_stat)%nat -> 0 < total_events (sm_data ex_stat) k).
Proof.
  split.
  { intros d [<-|[]]. split; [cbn; lia|]. split; [reflexivity|]. split.
    - intros t j _ _. cbn [ex_sd sd_F]. destruct (Nat.eqb j 0), (Nat.eqb t 1 && Nat.eqb j 1)%bool; lra.
    - intros t k _ _. cbn [ex_sd sd_S]. unfold ex_S. destruct (Nat.eqb t 0 && Nat.eqb k 0)%bool; lia. }
  split; [discriminate|]. split; [split; [intros k j _ _; cbn; lra|intros H; discriminate H]|]. split; [unfold total_events; cbn; lra|]. split.
  { exists ex_sd, 0%nat. split; [now left|]. split; [cbn; lia|]. intros j [Hj _]. cbn [ex_sd sd_F]. destruct j; [lia|reflexivity]. }
  split.
  { intros d [<-|[]]. split; [cbn; lia|]. split; [intros t Ht; cbn in *; reflexivity|]. split; intros; cbn; try lra; try lia. }
  split; [split; [intros k j _ _; cbn; lra|intros H; discriminate H]|]. split; [discriminate|]. split; [cbn; lra|].
  intros k Hk. cbn in Hk. unfold total_events. cbn. lra.
Qed.
