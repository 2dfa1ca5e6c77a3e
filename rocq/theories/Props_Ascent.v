(** * Props_Ascent: gradient_descent_step climbs the log posterior (C129) and sgd_step's average direction (C130). *)
From Coq Require Import Reals Lra Lia List ZArith FunctionalExtensionality.
From Verif Require Import Prelude ExtReal Arrays M_Basis M_Parents M_Discrete M_Standard L_Discrete L_Standard Props_Network Props_Standard.
Import ListNotations.
Set Implicit Arguments.
Open Scope R_scope.

(** The filtered data as add_data stores them: no negative entry, and the first column is the column of ones. *)
Definition features_ok (m : smodel) : Prop :=
  forall d t, In d (sm_data m) -> (t < sd_T d)%nat ->
    sd_F d t 0%nat = 1 /\ forall j, (j < sm_P m)%nat -> 0 <= sd_F d t j.
(** Event counts: no negative entry. *)
Definition counts_ok (m : smodel) : Prop :=
  forall d t k, In d (sm_data m) -> (t < sd_T d)%nat -> (k < sm_K m)%nat -> (0 <= sd_S d t k)%Z.
(** Two models with the same weights. *)
Definition same_weights (m m' : smodel) : Prop :=
  forall k j, (k < sm_K m)%nat -> (j < sm_P m)%nat -> sm_w m' k j = sm_w m k j.
(** Weights the fit may take: positive, self weights as they are when self-connections are disallowed. *)
Definition admissible (m : smodel) (w : mat) : Prop :=
  (forall k j, (k < sm_K m)%nat -> (j < sm_P m)%nat -> 0 < w k j) /\
  (sm_allow m = false -> forall k j, (k < sm_K m)%nat -> (j < sm_P m)%nat -> self_block (sm_B m) k j = true -> w k j = sm_w m k j).

Lemma rates_of_pos m w : features_ok m -> (forall k j, (k < sm_K m)%nat -> (j < sm_P m)%nat -> 0 < w k j) ->
  forall d t k, In d (sm_data m) -> (t < sd_T d)%nat -> (k < sm_K m)%nat -> 0 < s_rate (sm_P m) (w k) d t.
Proof.
  intros HF Hw d t k Hd Ht Hk. destruct (HF d t Hd Ht) as (H1 & HF'). unfold s_rate.
  assert (HP : (0 < sm_P m)%nat) by (unfold sm_P; lia).
  apply Rlt_le_trans with (sd_F d t 0%nat * w k 0%nat).
  - rewrite H1, Rmult_1_l. now apply Hw.
  - apply (@Rsum_term_le (sm_P m) (fun j => sd_F d t j * w k j) 0%nat); [|exact HP].
    intros j Hj. apply Rmult_le_pos; [now apply HF'|]. left. now apply Hw.
Qed.

(** ** The step in closed form *)
Lemma s_grad_all m k : step_ok m -> (k < sm_K m)%nat -> exists g, s_compute_gradient m k All = Ok g /\
  (sm_allow m = false -> forall j, self_block (sm_B m) k j = true -> g j = 0) /\
  (forall j, sm_allow m = true \/ self_block (sm_B m) k j = false ->
     g j = lsum (map (fun d => s_grad_data m k (sm_w m k) d j) (sm_data m)) + s_grad_prior (sm_alpha m) (sm_beta m) (sm_w m k) j).
Proof.
  intros Hm Hk. destruct (@s_grad_ok m k (sm_data m) Hm Hk) as (g & Eg & Hg).
  exists g. unfold s_compute_gradient. rewrite s_data_list_all. cbn [bindr]. rewrite (proj2 (Nat.ltb_lt k (sm_K m))) by auto.
  split; [exact Eg|]. split; [exact Hg|]. intros j Hj. unfold s_gradient_row in Eg.
  destruct (sm_allow m); [now injection Eg as <-|]. destruct (forall_lt _ _); [|discriminate]. injection Eg as <-.
  destruct Hj as [Hj|Hj]; [discriminate|]. now rewrite Hj.
Qed.

Lemma rows_closed e ks : NoDup ks -> forall m, step_ok m -> (forall k, In k ks -> (k < sm_K m)%nat) ->
  exists m', s_rows (fun m k => s_gd_row m e k) m ks = Ok m' /\ step_ok m' /\ same_but_w m m' /\
    (forall k, In k ks -> forall g, s_compute_gradient m k All = Ok g -> forall j, (j < sm_P m)%nat ->
       sm_w m' k j = sm_w m k j * exp (e * (g j * sm_w m k j))) /\
    (forall k, ~ In k ks -> forall j, sm_w m' k j = sm_w m k j).
Proof.
  induction ks as [|k ks IH]; intros Hnd m Hm Hks; cbn [s_rows].
  - exists m. split; [reflexivity|]. split; [exact Hm|]. split; [apply same_refl|]. split; [intros k []|reflexivity].
  - assert (Hk := Hks k (or_introl eq_refl)). inversion Hnd as [|? ? Hni Hnd']; subst.
    destruct (s_grad_all Hm Hk) as (g & Eg & Hg0 & _). unfold s_gd_row at 1. rewrite Eg. cbn [bindr]. set (m1 := sm_with_w m _).
    assert (Hm1 : step_ok m1).
    { apply (@row_step_ok m k (fun j => exp (ln (sm_w m k j) + e * (g j * sm_w m k j))) (fun j => e * (g j * sm_w m k j))); auto.
      intros Ha j Hj Hb. rewrite Hg0 by auto. ring. }
    destruct (IH Hnd' m1 Hm1) as (m' & E & Hm' & Hs & Hin & Hout). { intros k' Hk'. apply Hks. now right. }
    assert (Hs1 : same_but_w m m1) by apply with_w_same.
    exists m'. split; [exact E|]. split; [exact Hm'|]. split; [eapply same_trans; eauto|]. split.
    + intros k' [<-|Hk'] g' Eg' j Hj.
      * rewrite Hout by exact Hni. unfold m1. cbn [sm_w sm_with_w]. rewrite Nat.eqb_refl. rewrite Eg in Eg'. injection Eg' as <-.
        rewrite exp_plus, exp_ln; [reflexivity|]. now apply Hm.
      * assert (Hne : k' <> k) by (intros ->; contradiction).
        assert (Hr : forall j, sm_w m1 k' j = sm_w m k' j).
        { intros i. unfold m1. cbn [sm_w sm_with_w]. destruct (Nat.eqb_spec k' k); [contradiction|reflexivity]. }
        assert (Hk1 : (k' < sm_K m1)%nat) by (apply Hks; now right).
        destruct (s_grad_all Hm1 Hk1) as (g1 & Eg1 & _).
        assert (Eq : g' j = g1 j).
        { refine (@s_compute_gradient_ext m m1 k' All g' g1 _ Eg' Eg1 j Hj). split; [exact Hs1|]. intros i _. now rewrite Hr. }
        rewrite (Hin k' Hk' g1 Eg1 j Hj), Hr, Eq. reflexivity.
    + intros k' Hk' j. rewrite Hout by (intros H; apply Hk'; now right). unfold m1. cbn [sm_w sm_with_w].
      destruct (Nat.eqb_spec k' k) as [->|]; [|reflexivity]. exfalso. apply Hk'. now left.
Qed.

(** The weights along the direction of a step: weight times exp(e * gradient * weight). *)
Definition path (w g : mat) (e : R) : mat := fun k j => w k j * exp (e * (g k j * w k j)).

Lemma ll_fin_ext m w w' l ds : (forall k j, In k l -> (j < sm_P m)%nat -> w k j = w' k j) -> ll_fin m w l ds = ll_fin m w' l ds.
Proof.
  intros H. unfold ll_fin. apply lsum_map_ext. intros d _. apply Rsum_ext. intros t _. apply lsum_map_ext. intros k Hk.
  rewrite (@s_rate_ext (sm_P m) (w k) (w' k)) by (intros; now apply H). reflexivity.
Qed.
Lemma prior_fin_ext m w w' l : (forall k j, In k l -> (j < sm_P m)%nat -> w k j = w' k j) -> prior_fin m w l = prior_fin m w' l.
Proof.
  intros H. unfold prior_fin. apply lsum_map_ext. intros k Hk.
  assert (E : forall j, (j < sm_P m - 1)%nat -> w k (S j) = w' k (S j)) by (intros; apply H; auto; lia).
  f_equal; [destruct (Rltb 1 (sm_alpha m)); [f_equal|reflexivity]|]; apply Rsum_ext; intros j Hj; now rewrite E.
Qed.

(** ** The derivative of the log posterior along the path *)
Lemma derivable_path w c : derivable_pt_lim (fun e => w * exp (e * c)) 0 (w * c).
Proof.
  apply (derivable_pt_lim_scal (fun e => exp (e * c))).
  assert (H : derivable_pt_lim (fun e => e * c) 0 c).
  { apply (@derivable_lim_eq _ _ (1 * c + 0 * 0)); [ring|]. apply (derivable_pt_lim_mult (fun e => e) (fun _ => c)); [apply derivable_pt_lim_id|apply derivable_pt_lim_const]. }
  apply (@derivable_lim_eq _ _ (exp (0 * c) * c)); [rewrite Rmult_0_l, exp_0; ring|].
  apply (derivable_pt_lim_comp (fun e => e * c) exp); [exact H|]. apply derivable_pt_lim_exp.
Qed.
Lemma derivable_ln_of f x f' : 0 < f x -> derivable_pt_lim f x f' -> derivable_pt_lim (fun y => ln (f y)) x (f' / f x).
Proof.
  intros Hp H. apply (@derivable_lim_eq _ _ (/ f x * f')); [unfold Rdiv; ring|].
  apply (derivable_pt_lim_comp f ln); [exact H|]. now apply derivable_pt_lim_ln.
Qed.

Lemma path_0 w g k j : path w g 0 k j = w k j.
Proof. unfold path. rewrite Rmult_0_l, exp_0. ring. Qed.

Lemma derivable_rate m w g k d t : derivable_pt_lim (fun e => s_rate (sm_P m) (path w g e k) d t) 0
  (Rsum (sm_P m) (fun j => sd_F d t j * (w k j * (g k j * w k j)))).
Proof.
  unfold s_rate. apply derivable_lim_Rsum with (f := fun j e => sd_F d t j * path w g e k j). intros j _.
  apply (derivable_pt_lim_scal (fun e => path w g e k j)). apply derivable_path.
Qed.

Lemma derivable_ll m w g l ds : (forall d t k, In d ds -> (t < sd_T d)%nat -> In k l -> 0 < s_rate (sm_P m) (w k) d t) ->
  derivable_pt_lim (fun e => ll_fin m (path w g e) l ds) 0
   (lsum (map (fun k => Rsum (sm_P m) (fun j => lsum (map (fun d => s_grad_data m k (w k) d j) ds) * (w k j * (g k j * w k j)))) l)).
Proof.
  intros Hr.
  assert (R0 : forall k d t, s_rate (sm_P m) (path w g 0 k) d t = s_rate (sm_P m) (w k) d t) by (intros; apply s_rate_ext; intros; apply path_0).
  apply (@derivable_lim_eq _ _ (lsum (map (fun d => Rsum (sd_T d) (fun t => lsum (map (fun k =>
      (IZR (sd_S d t k) / s_rate (sm_P m) (w k) d t - sm_dt m) * Rsum (sm_P m) (fun j => sd_F d t j * (w k j * (g k j * w k j)))) l))) ds))).
  - clear Hr R0. induction ds as [|d ds IH].
    + cbn [map lsum]. symmetry. rewrite (lsum_map_ext _ (fun _ => 0)); [rewrite lsum_map_const; ring|]. intros k _. apply Rsum_0. intros. ring.
    + cbn [map lsum]. rewrite IH. rewrite (lsum_map_ext (fun k => Rsum (sm_P m) (fun j => (s_grad_data m k (w k) d j + lsum (map (fun d0 => s_grad_data m k (w k) d0 j) ds)) * (w k j * (g k j * w k j))))
        (fun k => Rsum (sm_P m) (fun j => s_grad_data m k (w k) d j * (w k j * (g k j * w k j))) + Rsum (sm_P m) (fun j => lsum (map (fun d0 => s_grad_data m k (w k) d0 j) ds) * (w k j * (g k j * w k j))))).
      2:{ intros k _. rewrite <- Rsum_plus. apply Rsum_ext. intros j _. ring. }
      rewrite lsum_map_plus. f_equal. clear IH.
      induction l as [|k l IHl]; cbn [map lsum]; [now apply Rsum_0|]. rewrite Rsum_plus, IHl. f_equal. clear IHl.
      unfold s_grad_data. rewrite (@Rsum_ext (sm_P m) (fun j => Rsum (sd_T d) _ * _) (fun j => Rsum (sd_T d) (fun t => (IZR (sd_S d t k) / s_rate (sm_P m) (w k) d t - sm_dt m) * sd_F d t j * (w k j * (g k j * w k j))))).
      2:{ intros j _. now rewrite Rsum_scal_r. }
      rewrite Rsum_swap. apply Rsum_ext. intros t _. rewrite <- Rsum_scal. apply Rsum_ext. intros j _. ring.
  - unfold ll_fin. apply derivable_lim_lsum with (f := fun d e => Rsum (sd_T d) (fun t => lsum (map (fun k =>
      IZR (sd_S d t k) * ln (s_rate (sm_P m) (path w g e k) d t) - s_rate (sm_P m) (path w g e k) d t * sm_dt m) l))). intros d Hd.
    apply derivable_lim_Rsum with (f := fun t e => lsum (map (fun k =>
      IZR (sd_S d t k) * ln (s_rate (sm_P m) (path w g e k) d t) - s_rate (sm_P m) (path w g e k) d t * sm_dt m) l)). intros t Ht.
    apply derivable_lim_lsum with (f := fun k e => IZR (sd_S d t k) * ln (s_rate (sm_P m) (path w g e k) d t) - s_rate (sm_P m) (path w g e k) d t * sm_dt m).
    intros k Hk. assert (Hp := Hr d t k Hd Ht Hk). pose proof (derivable_rate m w g k d t) as HD. set (D := Rsum (sm_P m) _) in *.
    apply (@derivable_lim_eq _ _ (IZR (sd_S d t k) * (D / s_rate (sm_P m) (w k) d t) - (D * sm_dt m + s_rate (sm_P m) (w k) d t * 0))).
    { field. lra. }
    apply (derivable_pt_lim_minus (fun e => IZR (sd_S d t k) * ln (s_rate (sm_P m) (path w g e k) d t)) (fun e => s_rate (sm_P m) (path w g e k) d t * sm_dt m)).
    + apply (derivable_pt_lim_scal (fun e => ln (s_rate (sm_P m) (path w g e k) d t))).
      rewrite <- (R0 k d t). apply (@derivable_ln_of (fun e => s_rate (sm_P m) (path w g e k) d t) 0 D); [now rewrite R0|exact HD].
    + rewrite <- (R0 k d t). apply (derivable_pt_lim_mult (fun e => s_rate (sm_P m) (path w g e k) d t) (fun _ => sm_dt m)); [exact HD|apply derivable_pt_lim_const].
Qed.

Lemma derivable_prior m w g l : (forall k j, In k l -> (0 < j < sm_P m)%nat -> 0 < w k j) ->
  derivable_pt_lim (fun e => prior_fin m (path w g e) l) 0
   (lsum (map (fun k => Rsum (sm_P m) (fun j => s_grad_prior (sm_alpha m) (sm_beta m) (w k) j * (w k j * (g k j * w k j)))) l)).
Proof.
  intros Hw. unfold prior_fin.
  apply derivable_lim_lsum with (f := fun k e => (if Rltb 1 (sm_alpha m) then (sm_alpha m - 1) * Rsum (sm_P m - 1) (fun j => ln (path w g e k (S j))) else 0)
                      + Rsum (sm_P m - 1) (fun j => - sm_beta m * path w g e k (S j))). intros k Hk.
  replace (Rsum (sm_P m) (fun j => s_grad_prior (sm_alpha m) (sm_beta m) (w k) j * (w k j * (g k j * w k j))))
    with ((if Rltb 1 (sm_alpha m) then (sm_alpha m - 1) * Rsum (sm_P m - 1) (fun j => w k (S j) * (g k (S j) * w k (S j)) / path w g 0 k (S j)) else 0)
          + Rsum (sm_P m - 1) (fun j => - sm_beta m * (w k (S j) * (g k (S j) * w k (S j))))).
  - apply (derivable_pt_lim_plus (fun e => if Rltb 1 (sm_alpha m) then (sm_alpha m - 1) * Rsum (sm_P m - 1) (fun j => ln (path w g e k (S j))) else 0)
      (fun e => Rsum (sm_P m - 1) (fun j => - sm_beta m * path w g e k (S j)))).
    + destruct (Rltb 1 (sm_alpha m)); [|apply derivable_pt_lim_const].
      apply (derivable_pt_lim_scal (fun e => Rsum (sm_P m - 1) (fun j => ln (path w g e k (S j))))).
      apply derivable_lim_Rsum with (f := fun j e => ln (path w g e k (S j))). intros j Hj.
      apply (@derivable_ln_of (fun e => path w g e k (S j)) 0 (w k (S j) * (g k (S j) * w k (S j)))); [rewrite path_0; apply Hw; auto; lia|apply derivable_path].
    + apply derivable_lim_Rsum with (f := fun j e => - sm_beta m * path w g e k (S j)). intros j Hj.
      apply (derivable_pt_lim_scal (fun e => path w g e k (S j))). apply derivable_path.
  - assert (EP : sm_P m = S (sm_P m - 1)) by (unfold sm_P; lia). rewrite EP at 3. rewrite Rsum_S_l. cbn [s_grad_prior]. rewrite Rmult_0_l, Rplus_0_l.
    destruct (Rltb 1 (sm_alpha m)).
    + rewrite <- Rsum_scal, <- Rsum_plus. apply Rsum_ext. intros j Hj. rewrite path_0. assert (0 < w k (S j)) by (apply Hw; auto; lia). field. lra.
    + rewrite Rplus_0_l. apply Rsum_ext. intros j Hj. ring.
Qed.

Lemma positive_derivative f L : derivable_pt_lim f 0 L -> 0 < L -> exists eps, 0 < eps /\ forall e, 0 < e <= eps -> f 0 < f e.
Proof.
  intros H HL. destruct (H (L / 2)) as (d & Hd); [lra|]. exists (d / 2). assert (Hp := cond_pos d). split; [lra|]. intros e He.
  specialize (Hd e). assert (Hx : Rabs ((f (0 + e) - f 0) / e - L) < L / 2).
  { apply Hd; [lra|]. rewrite Rabs_pos_eq; lra. }
  rewrite Rplus_0_l in Hx. apply Rabs_def2 in Hx as (H1 & H2).
  assert (H3 : 0 < (f e - f 0) / e) by lra. assert (H4 : f e - f 0 = (f e - f 0) / e * e) by (field; lra).
  assert (0 < (f e - f 0) / e * e) by (apply Rmult_lt_0_compat; lra). lra.
Qed.

(** Everything the theorems need about one model, in one place: gradients g, the slope of the log posterior along the step. *)
Lemma step_facts m : step_ok m -> features_ok m -> (0 < sm_K m)%nat ->
  exists g : mat,
   (forall k, (k < sm_K m)%nat -> s_compute_gradient m k All = Ok (g k)) /\
   (sm_allow m = false -> forall k j, (k < sm_K m)%nat -> self_block (sm_B m) k j = true -> g k j = 0) /\
   (forall e, exists m', s_gradient_descent_step m e = Ok m' /\ step_ok m' /\ same_but_w m m' /\
      (forall k j, (k < sm_K m)%nat -> (j < sm_P m)%nat -> sm_w m' k j = path (sm_w m) g e k j)) /\
   (forall w, (forall k j, (k < sm_K m)%nat -> (j < sm_P m)%nat -> 0 < w k j) ->
      s_log_posterior (sm_with_w m w) All KNone = Ok (Fin (ll_fin m w (seq 0 (sm_K m)) (sm_data m) + prior_fin m w (seq 0 (sm_K m))))) /\
   derivable_pt_lim (fun e => ll_fin m (path (sm_w m) g e) (seq 0 (sm_K m)) (sm_data m) + prior_fin m (path (sm_w m) g e) (seq 0 (sm_K m))) 0
     (lsum (map (fun k => Rsum (sm_P m) (fun j => (g k j * sm_w m k j) * (g k j * sm_w m k j))) (seq 0 (sm_K m)))).
Proof.
  intros Hm HF HK.
  assert (Hg : exists g : mat, forall k, (k < sm_K m)%nat -> s_compute_gradient m k All = Ok (g k) /\
    (sm_allow m = false -> forall j, self_block (sm_B m) k j = true -> g k j = 0) /\
    (forall j, sm_allow m = true \/ self_block (sm_B m) k j = false ->
       g k j = lsum (map (fun d => s_grad_data m k (sm_w m k) d j) (sm_data m)) + s_grad_prior (sm_alpha m) (sm_beta m) (sm_w m k) j)).
  { exists (fun k => match s_compute_gradient m k All with Ok g => g | Raise _ => fun _ => 0 end). intros k Hk.
    destruct (s_grad_all Hm Hk) as (g & E & H1 & H2). rewrite E. auto. }
  destruct Hg as (g & Hg). exists g.
  assert (Hin : forall k, In k (seq 0 (sm_K m)) -> (k < sm_K m)%nat) by (intros k Hk; apply in_seq in Hk; lia).
  assert (Hne : seq 0 (sm_K m) <> []) by (destruct (sm_K m); [lia|discriminate]).
  split; [intros k Hk; now apply Hg|]. split; [intros Ha k j Hk Hb; now apply Hg|]. split; [|split].
  - intros e. destruct (@rows_closed e (seq 0 (sm_K m)) (seq_NoDup _ _) m Hm Hin) as (m' & E & Hm' & Hs & Hw & _).
    exists m'. split; [exact E|]. split; [exact Hm'|]. split; [exact Hs|]. intros k j Hk Hj.
    rewrite (Hw k) with (g := g k); auto; [apply in_seq; lia|now apply Hg].
  - intros w Hw. change (s_log_posterior (sm_with_w m w) All KNone) with (s_log_posterior (sm_with_w m w) All (KArr (seq 0 (sm_K m)))).
    apply (@s_log_posterior_fin (sm_with_w m w)); auto.
    + intros d t k Hd Ht Hk. apply (@rates_of_pos m w); auto.
    + intros k j Hk Hj. apply Hw; [now apply Hin|apply Hj].
  - eapply derivable_lim_eq; [|apply derivable_pt_lim_plus; [apply derivable_ll|apply derivable_prior]].
    + rewrite <- lsum_map_plus. apply lsum_map_ext. intros k Hk. rewrite <- Rsum_plus. apply Rsum_ext. intros j Hj.
      destruct (Hg k (Hin k Hk)) as (_ & H0 & H1). destruct (sm_allow m) eqn:Ea; [|destruct (self_block (sm_B m) k j) eqn:Eb].
      * rewrite <- Rmult_plus_distr_r, <- H1 by auto. ring.
      * rewrite H0 by auto. ring.
      * rewrite <- Rmult_plus_distr_r, <- H1 by auto. ring.
    + intros d t k Hd Ht Hk. apply rates_of_pos; auto. intros; now apply Hm.
    + intros k j Hk Hj. apply Hm; [now apply Hin|apply Hj].
Qed.

Lemma sq_sum_zero m (x : mat) : lsum (map (fun k => Rsum (sm_P m) (fun j => x k j * x k j)) (seq 0 (sm_K m))) <= 0 ->
  forall k j, (k < sm_K m)%nat -> (j < sm_P m)%nat -> x k j = 0.
Proof.
  intros H k j Hk Hj.
  assert (P1 : forall k, 0 <= Rsum (sm_P m) (fun j => x k j * x k j)) by (intros; apply Rsum_nonneg; intros; nra).
  assert (H1 : Rsum (sm_P m) (fun j => x k j * x k j) <= lsum (map (fun k => Rsum (sm_P m) (fun j => x k j * x k j)) (seq 0 (sm_K m)))).
  { assert (Hin : In k (seq 0 (sm_K m))) by (apply in_seq; lia). revert Hin. generalize (seq 0 (sm_K m)). intros l.
    induction l as [|a l IH]; cbn [map lsum In]; [intros []|].
    assert (0 <= lsum (map (fun k => Rsum (sm_P m) (fun j => x k j * x k j)) l)).
    { clear -P1. induction l as [|b l IH]; cbn [map lsum]; [lra|]. specialize (P1 b). lra. }
    intros [->|Hi]; [lra|]. specialize (P1 a). specialize (IH Hi). lra. }
  assert (H2 : x k j * x k j <= Rsum (sm_P m) (fun j => x k j * x k j)).
  { apply (@Rsum_term_le (sm_P m) (fun j => x k j * x k j) j); [intros; nra|exact Hj]. }
  nra.
Qed.

Lemma sm_with_w_self m : sm_with_w m (sm_w m) = m. Proof. now destruct m. Qed.

(** ** C129.  From positive weights, every sufficiently small step raises the log posterior strictly, unless it leaves every
    weight as it was. *)
Theorem C129_small_steps_climb_partial :
  forall m, step_ok m -> features_ok m -> (0 < sm_K m)%nat ->
  exists eps, 0 < eps /\ forall e, 0 < e <= eps ->
    exists m' v v', s_gradient_descent_step m e = Ok m' /\ same_but_w m m' /\
      s_log_posterior m All KNone = Ok (Fin v) /\ s_log_posterior m' All KNone = Ok (Fin v') /\
      (v < v' \/ same_weights m m' /\ v' = v).
Proof.
  intros m Hm HF HK. destruct (step_facts Hm HF HK) as (g & Hg & Hg0 & Hstep & Hpost & HD).
  set (phi := fun e => _) in HD. set (L := lsum _) in HD.
  assert (Hwp : forall e k j, (k < sm_K m)%nat -> (j < sm_P m)%nat -> 0 < path (sm_w m) g e k j).
  { intros e k j Hk Hj. unfold path. apply Rmult_lt_0_compat; [now apply Hm|apply exp_pos]. }
  assert (Hphi0 : s_log_posterior m All KNone = Ok (Fin (phi 0))).
  { rewrite <- (sm_with_w_self m) at 1. rewrite Hpost by (intros; now apply Hm). unfold phi.
    rewrite (@ll_fin_ext m (path (sm_w m) g 0) (sm_w m)), (@prior_fin_ext m (path (sm_w m) g 0) (sm_w m)); [reflexivity| |]; intros; apply path_0. }
  assert (Hphi : forall e m', same_but_w m m' -> (forall k j, (k < sm_K m)%nat -> (j < sm_P m)%nat -> sm_w m' k j = path (sm_w m) g e k j) ->
     s_log_posterior m' All KNone = Ok (Fin (phi e))).
  { intros e m' Hs Hw. rewrite Hs. rewrite Hpost by (intros; rewrite Hw by auto; now apply Hwp). unfold phi.
    rewrite (@ll_fin_ext m (sm_w m') (path (sm_w m) g e)), (@prior_fin_ext m (sm_w m') (path (sm_w m) g e)); [reflexivity| |];
      intros k j Hk Hj; apply in_seq in Hk; apply Hw; auto; lia. }
  destruct (Rlt_or_le 0 L) as [HL|HL].
  - destruct (positive_derivative HD HL) as (eps & He & Hup). exists eps. split; [exact He|]. intros e Hee.
    destruct (Hstep e) as (m' & E & Hm' & Hs & Hw). exists m', (phi 0), (phi e). split; [exact E|]. split; [exact Hs|].
    split; [exact Hphi0|]. split; [now apply Hphi|]. left. now apply Hup.
  - assert (Z := @sq_sum_zero m (fun k j => g k j * sm_w m k j) HL). exists 1. split; [lra|]. intros e Hee.
    destruct (Hstep e) as (m' & E & Hm' & Hs & Hw). exists m', (phi 0), (phi e). split; [exact E|]. split; [exact Hs|].
    split; [exact Hphi0|]. split; [now apply Hphi|]. right.
    assert (Hsame : forall k j, (k < sm_K m)%nat -> (j < sm_P m)%nat -> path (sm_w m) g e k j = sm_w m k j).
    { intros k j Hk Hj. unfold path. rewrite Z by auto. rewrite Rmult_0_r, exp_0. ring. }
    split; [intros k j Hk Hj; rewrite Hw by auto; now apply Hsame|]. unfold phi.
    rewrite (@ll_fin_ext m (path (sm_w m) g e) (path (sm_w m) g 0)), (@prior_fin_ext m (path (sm_w m) g e) (path (sm_w m) g 0)); [reflexivity| |];
      intros k j Hk Hj; apply in_seq in Hk; rewrite path_0; apply Hsame; auto; lia.
Qed.
Print Assumptions C129_small_steps_climb_partial.

(** ** A step of any size other than zero leaves every weight as it was exactly when no admissible weights have a larger log
    posterior. *)
Theorem C129_stays_exactly_at_the_maximum :
  forall m e m' v, step_ok m -> features_ok m -> counts_ok m -> (0 < sm_K m)%nat -> 1 <= sm_alpha m -> e <> 0 ->
  s_gradient_descent_step m e = Ok m' -> s_log_posterior m All KNone = Ok (Fin v) ->
  (same_weights m m' <->
   forall w v2, admissible m w -> s_log_posterior (sm_with_w m w) All KNone = Ok (Fin v2) -> v2 <= v).
Proof.
  intros m e m' v Hm HF HC HK Ha He E Ev. destruct (step_facts Hm HF HK) as (g & Hg & Hg0 & Hstep & Hpost & HD).
  assert (Hin : forall k, In k (seq 0 (sm_K m)) -> (k < sm_K m)%nat) by (intros k Hk; apply in_seq in Hk; lia).
  assert (Hne : seq 0 (sm_K m) <> []) by (destruct (sm_K m); [lia|discriminate]).
  destruct (Hstep e) as (m1 & E1 & Hm1 & Hs1 & Hw1). rewrite E1 in E. injection E as ->.
  split.
  - intros Hsame w v2 (Hwp & Hwself) E2.
    refine (@C55_stationary_is_global_maximum m (seq 0 (sm_K m)) w v v2 Ha Hne Hin _ _ _ _ _ _ _ Ev E2).
    + intros d t k Hd Ht Hk. apply HC; auto.
    + intros d t k Hd Ht Hk. apply rates_of_pos; auto. intros; now apply Hm.
    + intros k j Hk Hj. apply Hm; [now apply Hin|apply Hj].
    + intros d t k Hd Ht Hk. apply (@rates_of_pos m w); auto.
    + intros k j Hk Hj. apply Hwp; [now apply Hin|apply Hj].
    + intros k Hk. exists (g k). split; [apply Hg; auto|]. intros j Hj. assert (Hk' := Hin k Hk).
      specialize (Hsame k j Hk' Hj). rewrite Hw1 in Hsame by auto. unfold path in Hsame.
      assert (Hp : 0 < sm_w m k j) by now apply Hm.
      assert (Hx : exp (e * (g k j * sm_w m k j)) = exp 0).
      { rewrite exp_0. apply Rmult_eq_reg_l with (sm_w m k j); lra. }
      apply exp_inv in Hx. destruct (Rmult_integral _ _ Hx) as [?|Hx2]; [contradiction|]. destruct (Rmult_integral _ _ Hx2); lra.
    + intros Hal k j Hk Hj Hb. apply Hwself; auto.
  - intros Hmax. destruct (C129_small_steps_climb_partial Hm HF HK) as (eps & Heps & Hup).
    destruct (Hup eps) as (m2 & u & u' & E2 & Hs2 & Eu & Eu' & Hor); [lra|].
    rewrite Ev in Eu. injection Eu as <-.
    destruct (Hstep eps) as (m3 & E3 & Hm3 & Hs3 & Hw3). rewrite E2 in E3. injection E3 as <-.
    assert (Hw2 : same_weights m m2).
    { destruct Hor as [Hlt|(H & _)]; [|exact H]. exfalso. specialize (Hmax (sm_w m2) u').
      assert (u' <= v); [|lra]. apply Hmax.
      - split; [intros k j Hk Hj; rewrite Hw3 by auto; unfold path; apply Rmult_lt_0_compat; [now apply Hm|apply exp_pos]|].
        intros Hal k j Hk Hj Hb. rewrite Hw3 by auto. unfold path. rewrite Hg0 by auto. rewrite Rmult_0_l, Rmult_0_r, exp_0. ring.
      - rewrite <- Eu'. f_equal. symmetry. exact Hs2. }
    intros k j Hk Hj. specialize (Hw2 k j Hk Hj). rewrite Hw3 in Hw2 by auto. rewrite Hw1 by auto. unfold path in *.
    assert (Hp : 0 < sm_w m k j) by now apply Hm.
    assert (Hx : exp (eps * (g k j * sm_w m k j)) = exp 0).
    { rewrite exp_0. apply Rmult_eq_reg_l with (sm_w m k j); lra. }
    apply exp_inv in Hx. destruct (Rmult_integral _ _ Hx) as [?|Hx2]; [lra|]. rewrite Hx2, Rmult_0_r, exp_0. ring.
Qed.
Print Assumptions C129_stays_exactly_at_the_maximum.

(** The starting weights of a new model and one data set of one bin with n events, filtered to [1, 0] (no event before it). *)
Definition one_bin (n : Z) : smodel :=
  {| sm_K := 1; sm_B := 1; sm_dt := 1; sm_alpha := 1; sm_beta := 1; sm_allow := true; sm_L := 2;
     sm_bas := fun l _ => if Nat.eqb l 1 then 1 else 0; sm_w := fun _ _ => / 10 ^ 3;
     sm_data := [{| sd_T := 1; sd_S := fun _ _ => n; sd_F := fun _ j => if Nat.eqb j 0 then 1 else 0 |}] |}.
Lemma one_bin_reached n : (0 <= n)%Z -> exists m0,
  sm_init 1 1 1 1 1 true false 2 (fun l _ => if Nat.eqb l 1 then 1 else 0) = Ok m0 /\
  s_add_data m0 (sval_of 1 1 (fun _ _ => n)) (Some (fun _ j => if Nat.eqb j 0 then 1 else 0)) None = Ok (one_bin n).
Proof.
  intros Hn. unfold sm_init. cbn [andb]. destruct (Rltb 1 1) eqn:E; [apply Rltb_true in E; lra|]. eexists. split; [reflexivity|].
  unfold s_add_data, check_S, sval_of. cbn [sv_isarray sv_dims sv_isint sv_at negb sm_K Nat.eqb orb].
  cbn [forall_lt]. rewrite (proj2 (Z.leb_le 0 n) Hn). reflexivity.
Qed.
Lemma one_bin_ok n : (0 <= n)%Z -> step_ok (one_bin n) /\ features_ok (one_bin n) /\ counts_ok (one_bin n) /\ (0 < sm_K (one_bin n))%nat.
Proof.
  intros Hn. split; [split; [intros; cbn; lra|discriminate]|]. split; [|split; [|cbn; lia]].
  - intros d t [<-|[]] Ht. cbn [sd_F]. split; [reflexivity|]. intros j _. destruct (Nat.eqb j 0); lra.
  - intros d t k [<-|[]] _ _. exact Hn.
Qed.

Lemma exp_cubic x : 0 <= x -> 1 + x + x * x / 3 + x * x * x / 27 <= exp x.
Proof.
  intros Hx. assert (H : 1 + x / 3 <= exp (x / 3)) by (destruct (Req_dec x 0) as [->|]; [unfold Rdiv; rewrite Rmult_0_l, exp_0; lra|]; left; apply exp_ineq1; lra).
  replace (exp x) with (exp (x / 3) * exp (x / 3) * exp (x / 3)) by (rewrite <- !exp_plus; f_equal; field).
  assert (H2 : (1 + x / 3) * (1 + x / 3) <= exp (x / 3) * exp (x / 3)) by (apply Rmult_le_compat; lra).
  assert (H3 : (1 + x / 3) * (1 + x / 3) * (1 + x / 3) <= exp (x / 3) * exp (x / 3) * exp (x / 3)) by (apply Rmult_le_compat; try lra; nra).
  nra.
Qed.

(** ** Whatever the step size, also the default 0.01, there is a data set for which the first step from the starting weights
    lowers the log posterior. *)
Theorem C129_fixed_step_refuted :
  forall e, 0 < e -> exists n m0 m m' v v',
    sm_init 1 1 1 1 1 true false 2 (fun l _ => if Nat.eqb l 1 then 1 else 0) = Ok m0 /\
    s_add_data m0 (sval_of 1 1 (fun _ _ => n)) (Some (fun _ j => if Nat.eqb j 0 then 1 else 0)) None = Ok m /\
    step_ok m /\ features_ok m /\ counts_ok m /\
    s_gradient_descent_step m e = Ok m' /\
    s_log_posterior m All KNone = Ok (Fin v) /\ s_log_posterior m' All KNone = Ok (Fin v') /\ v' < v.
Proof.
  intros e He. set (x0 := 27000 / e + 2). assert (Hx0 : 2 < x0) by (unfold x0; assert (0 < 27000 / e) by (apply Rdiv_lt_0_compat; lra); lra).
  set (n := (up (x0 / e) + 1)%Z).
  assert (Hn : x0 / e + 1 < IZR n) by (unfold n; rewrite plus_IZR; destruct (archimed (x0 / e)); lra).
  assert (Hn0 : 0 < x0 / e) by (apply Rdiv_lt_0_compat; lra).
  assert (Hnz : (0 <= n)%Z) by (apply le_IZR; lra).
  destruct (one_bin_reached Hnz) as (m0 & E0 & E1). destruct (one_bin_ok Hnz) as (Hm & HF & HC & HK).
  destruct (step_facts Hm HF HK) as (g & Hg & _ & Hstep & Hpost & _). destruct (Hstep e) as (m' & Es & Hm' & Hs & Hw).
  assert (Hg0 : g 0%nat 0%nat = IZR n * 10 ^ 3 - 1 /\ g 0%nat 1%nat = - (1)).
  { assert (H := Hg 0%nat). cbn [sm_K one_bin] in H. specialize (H ltac:(lia)). unfold s_compute_gradient in H. rewrite s_data_list_all in H.
    cbn [bindr sm_K one_bin Nat.ltb Nat.leb sm_data] in H. unfold s_gradient_row in H. cbn [sm_allow one_bin] in H. injection H as H.
    rewrite <- H. unfold s_grad_data, s_rate, sm_P. cbn [map lsum one_bin sm_data sd_T sd_S sd_F sm_dt sm_w sm_alpha sm_beta sm_K sm_B Nat.add Nat.mul Rsum Nat.eqb s_grad_prior].
    rewrite (proj2 (Rltb_false 1 1)) by lra. split; field. }
  destruct Hg0 as (G0 & G1).
  exists n, m0, (one_bin n), m'. do 2 eexists. split; [exact E0|]. split; [exact E1|]. split; [exact Hm|]. split; [exact HF|]. split; [exact HC|].
  split; [exact Es|]. split; [rewrite <- (sm_with_w_self (one_bin n)) at 1; apply Hpost; intros; now apply Hm|].
  split; [transitivity (s_log_posterior (sm_with_w (one_bin n) (sm_w m')) All KNone); [f_equal; exact Hs|]; apply Hpost; intros k j Hk Hj; apply (proj1 Hm'); rewrite Hs; auto|].
  assert (W0 : sm_w m' 0%nat 0%nat = / 10 ^ 3 * exp (e * (IZR n - / 10 ^ 3))).
  { rewrite Hw by (cbn; lia). unfold path. rewrite G0. cbn [sm_w one_bin]. f_equal. f_equal. field. }
  assert (W1 : 0 < sm_w m' 0%nat 1%nat) by (apply Hm'; rewrite Hs; cbn; lia).
  unfold ll_fin, prior_fin, s_rate, sm_P. cbn [sm_data one_bin map lsum sd_T sd_S sd_F Rsum sm_K sm_B seq Nat.add Nat.mul Nat.eqb sm_dt sm_w sm_alpha sm_beta Nat.sub].
  rewrite (proj2 (Rltb_false 1 1)) by lra.
  set (y := sm_w m' 0%nat 1%nat) in *. rewrite W0.
  set (x := e * (IZR n - / 10 ^ 3)).
  replace (0 + 1 * (/ 10 ^ 3 * exp x) + 0 * y) with (/ 10 ^ 3 * exp x) by ring.
  replace (0 + 1 * / 10 ^ 3 + 0 * / 10 ^ 3) with (/ 10 ^ 3) by ring.
  rewrite ln_mult, ln_exp; [|lra|apply exp_pos].
  assert (Hx : x0 < x).
  { unfold x. assert (A : e * (x0 / e) = x0) by (field; lra). assert (e * (x0 / e) < e * (IZR n - / 10 ^ 3)) by (apply Rmult_lt_compat_l; lra). lra. }
  assert (Hexp := @exp_cubic x ltac:(lra)).
  assert (Hnx : IZR n = x / e + / 10 ^ 3) by (unfold x; field; lra).
  assert (Hbig : 10 ^ 3 * IZR n * x + 2 < exp x).
  { rewrite Hnx. assert (A : x / e <= x * (x - 2) / 27000).
    { apply Rmult_le_reg_r with (27000 * e); [lra|]. replace (x / e * (27000 * e)) with (x * 27000) by (field; lra).
      replace (x * (x - 2) / 27000 * (27000 * e)) with (x * ((x - 2) * e)) by field. apply Rmult_le_compat_l; [lra|].
      assert (B : (x0 - 2) * e = 27000) by (unfold x0; field; lra). assert ((x0 - 2) * e <= (x - 2) * e) by (apply Rmult_le_compat_r; lra). lra. }
    assert (A2 : x / e * x <= x * (x - 2) / 27000 * x) by (apply Rmult_le_compat_r; lra).
    replace (10 ^ 3 * (x / e + / 10 ^ 3) * x) with (10 ^ 3 * (x / e * x) + x) by (field; lra).
    assert (A3 : x * x > 4) by nra.
    lra. }
  nra.
Qed.
Print Assumptions C129_fixed_step_refuted.

Example C129_nonvacuous : step_ok ex_smd /\ features_ok ex_smd /\ counts_ok ex_smd /\ (0 < sm_K ex_smd)%nat /\ 1 <= sm_alpha ex_smd /\
  (exists m e m', step_ok m /\ features_ok m /\ counts_ok m /\ e <> 0 /\ (0 < sm_K m)%nat /\ 1 <= sm_alpha m /\ s_gradient_descent_step m e = Ok m' /\ ~ same_weights m m').
Proof.
  split; [split; [intros k j _ _; cbn; lra|intros H; discriminate H]|]. split.
  { intros d t [<-|[]] Ht. cbn [ex_sd sd_F]. split; [reflexivity|]. intros j _. destruct (Nat.eqb j 0); [lra|]. destruct (_ && _)%bool; lra. }
  split; [intros d t k [<-|[]] _ _; cbn [ex_sd sd_S]; unfold Props_Discrete.ex_S; destruct (_ && _)%bool; lia|]. split; [cbn; lia|]. split; [cbn; lra|].
  destruct (@C129_fixed_step_refuted 1 ltac:(lra)) as (n & m0 & m & m' & v & v' & E0 & E1 & H1 & H2 & H3 & E2 & Ev & Ev' & Hlt).
  assert (HK : (0 < sm_K m)%nat).
  { unfold s_add_data in E1. apply bindr_ok in E1 as (T & HT & E1). cbn [bindr] in E1. injection E1 as <-. apply check_S_ok in HT. cbn in HT |- *.
    unfold sm_init in E0. cbn [andb] in E0. destruct (Rltb 1 1); [discriminate|]. injection E0 as <-. cbn. lia. }
  assert (HA : 1 <= sm_alpha m).
  { unfold s_add_data in E1. apply bindr_ok in E1 as (T & HT & E1). cbn [bindr] in E1. injection E1 as <-.
    unfold sm_init in E0. cbn [andb] in E0. destruct (Rltb 1 1); [discriminate|]. injection E0 as <-. cbn. lra. }
  exists m, 1, m'. split; [exact H1|]. split; [exact H2|]. split; [exact H3|]. split; [lra|]. split; [exact HK|]. split; [exact HA|]. split; [exact E2|].
  intros Hsame. destruct (step_facts H1 H2 HK) as (g & _ & _ & Hstep & Hpost & _). destruct (Hstep 1) as (m1 & Em1 & Hm1 & Hs & _).
  rewrite E2 in Em1. injection Em1 as <-.
  replace (s_log_posterior m' All KNone) with (s_log_posterior (sm_with_w m (sm_w m')) All KNone) in Ev' by (f_equal; symmetry; exact Hs).
  rewrite Hpost in Ev' by (intros k j Hk Hj; apply (proj1 Hm1); rewrite Hs; auto). rewrite <- (sm_with_w_self m) in Ev. rewrite Hpost in Ev by (intros; now apply H1).
  injection Ev as <-. injection Ev' as <-. rewrite (@ll_fin_ext m (sm_w m') (sm_w m)), (@prior_fin_ext m (sm_w m') (sm_w m)) in Hlt; [lra| |];
    intros k j Hk Hj; apply in_seq in Hk; apply Hsame; auto; lia.
Qed.

(* ------------------------------------------------------------------ *)
(** ** C130: the random direction of sgd_step *)

(** The same model with its prior counted n times: the log prior (up to a constant) multiplied by n. *)
Definition prior_times (n : nat) (m : smodel) : smodel :=
  {| sm_K := sm_K m; sm_B := sm_B m; sm_dt := sm_dt m; sm_alpha := 1 + INR n * (sm_alpha m - 1); sm_beta := INR n * sm_beta m;
     sm_allow := sm_allow m; sm_L := sm_L m; sm_bas := sm_bas m; sm_w := sm_w m; sm_data := sm_data m |}.
(** The previous velocity: zero when None is passed. *)
Definition velocity_of (prev : option mat) : mat := match prev with None => fun _ _ => 0 | Some v => v end.
(** The mean of a quantity over the data set np.random.choice picks, each of n being equally likely. *)
Definition mean_choice (n : nat) (f : nat -> R) : R := Rsum n f / INR n.

Lemma sgd_rows_closed mb lr mom prev ks : NoDup ks -> forall m vel m' vel' d, nth_error (sm_data m) mb = Some d ->
  (forall k, In k ks -> (k < sm_K m)%nat) ->
  s_sgd_rows mb lr mom prev (m, vel) ks = Ok (m', vel') ->
  (forall k, In k ks -> exists g, s_gradient_row m k (sm_w m k) [d] = Ok g /\ forall j, (j < sm_P m)%nat ->
     vel' k j = mom * prev k j + lr * (g j * sm_w m k j / INR (sd_T d)) /\
     sm_w m' k j = exp (ln (sm_w m k j) + vel' k j)) /\
  (forall k, ~ In k ks -> forall j, vel' k j = vel k j /\ sm_w m' k j = sm_w m k j).
Proof.
  induction ks as [|k ks IH]; intros Hnd m vel m' vel' d Hd Hks E; cbn [s_sgd_rows] in E.
  - injection E as <- <-. split; [intros k []|auto].
  - inversion Hnd as [|? ? Hni Hnd']; subst. assert (Hk := Hks k (or_introl eq_refl)).
    rewrite (@s_data_at_nat m mb d Hd) in E. cbn [bindr] in E. apply bindr_ok in E as (g & Eg & E).
    unfold s_compute_gradient in Eg. cbn [s_indices s_data_list] in Eg. rewrite (@s_data_at_nat m mb d Hd) in Eg. cbn [bindr] in Eg.
    rewrite (proj2 (Nat.ltb_lt k (sm_K m))) in Eg by auto.
    set (m1 := sm_with_w m _) in E. set (v1 := fun k' j => _) in E.
    assert (Hs1 : same_but_w m m1) by apply with_w_same.
    destruct (IH Hnd' m1 v1 m' vel' d Hd) as (Hin & Hout); [intros k' Hk'; apply Hks; now right|exact E|].
    split.
    + intros k' [<-|Hk'].
      * exists g. split; [exact Eg|]. intros j Hj. destruct (Hout k Hni j) as (-> & ->). unfold v1, m1. cbn [sm_w sm_with_w]. rewrite Nat.eqb_refl. auto.
      * assert (Hne : k' <> k) by (intros ->; contradiction).
        assert (Hr : forall j, sm_w m1 k' j = sm_w m k' j).
        { intros i. unfold m1. cbn [sm_w sm_with_w]. destruct (Nat.eqb_spec k' k); [contradiction|reflexivity]. }
        destruct (Hin k' Hk') as (g1 & Eg1 & H1).
        assert (Hag : agree_row k' m m1) by (split; [exact Hs1|intros; now rewrite Hr]).
        assert (Hex : exists g0, s_gradient_row m k' (sm_w m k') [d] = Ok g0).
        { unfold s_gradient_row in *. change (sm_allow m1) with (sm_allow m) in Eg1. destruct (sm_allow m); [eauto|].
          change (sm_B m1) with (sm_B m) in Eg1. change (sm_P m1) with (sm_P m) in Eg1.
          assert (EQ : sm_w m1 k' = sm_w m k') by (extensionality j; apply Hr). rewrite EQ in Eg1.
          destruct (forall_lt _ _); [eauto|discriminate]. }
        destruct Hex as (g0 & Eg0). exists g0. split; [exact Eg0|]. intros j Hj.
        rewrite (@s_gradient_row_ext m m1 k' [d] g0 g1 Hag Eg0 Eg1 j Hj). destruct (H1 j Hj) as (A & B). rewrite Hr in A, B. auto.
    + intros k' Hk' j. destruct (Hout k') with (j := j) as (-> & ->); [intros H; apply Hk'; now right|].
      unfold v1, m1. cbn [sm_w sm_with_w]. destruct (Nat.eqb_spec k' k) as [->|]; [exfalso; apply Hk'; now left|auto].
Qed.

Lemma lsum_nth {A} (f : A -> R) (l : list A) (d0 : A) : lsum (map f l) = Rsum (length l) (fun i => f (nth i l d0)).
Proof.
  induction l as [|a l IH]; [reflexivity|]. cbn [map lsum length]. rewrite Rsum_S_l. cbn [nth]. now rewrite IH.
Qed.

(** The mean of the new velocity over the choice of the data set: momentum times the old one, plus the learning rate times
    the mean over the data sets of (gradient of that data set's log likelihood + gradient of the whole log prior) / its length. *)
Lemma sgd_mean m prev lr mom (v : nat -> mat) : step_ok m -> (0 < length (sm_data m))%nat ->
  (forall mb, (mb < length (sm_data m))%nat -> exists m', s_sgd_step m prev lr mom mb = Ok (m', v mb)) ->
  forall k j, (k < sm_K m)%nat -> (j < sm_P m)%nat ->
  mean_choice (length (sm_data m)) (fun mb => v mb k j)
  = mom * velocity_of prev k j + lr * sm_w m k j / INR (length (sm_data m)) *
      (if (negb (sm_allow m) && self_block (sm_B m) k j)%bool then 0 else
       lsum (map (fun d => (s_grad_data m k (sm_w m k) d j + s_grad_prior (sm_alpha m) (sm_beta m) (sm_w m k) j) / INR (sd_T d)) (sm_data m))).
Proof.
  intros Hm Hn Hv k j Hk Hj. set (n := length (sm_data m)) in *. assert (HnR : 0 < INR n) by now apply lt_0_INR.
  assert (Hd0 : exists d0 ds0, sm_data m = d0 :: ds0) by (unfold n in Hn; destruct (sm_data m); [cbn in Hn; lia|eauto]).
  destruct Hd0 as (d0 & ds0 & Ed).
  set (G := fun d => if (negb (sm_allow m) && self_block (sm_B m) k j)%bool then 0 else
     s_grad_data m k (sm_w m k) d j + s_grad_prior (sm_alpha m) (sm_beta m) (sm_w m k) j).
  assert (Hval : forall mb, (mb < n)%nat -> v mb k j = mom * velocity_of prev k j + lr * (G (nth mb (sm_data m) d0) * sm_w m k j / INR (sd_T (nth mb (sm_data m) d0)))).
  { intros mb Hmb. destruct (Hv mb Hmb) as (m' & E). unfold s_sgd_step in E. rewrite Ed in E at 1. change (match prev with None => fun _ _ => 0 | Some v => v end) with (velocity_of prev) in E.
    assert (Hnth : nth_error (sm_data m) mb = Some (nth mb (sm_data m) d0)) by (apply nth_error_nth'; exact Hmb).
    destruct (@sgd_rows_closed mb lr mom (velocity_of prev) (seq 0 (sm_K m)) (seq_NoDup _ _) m (fun _ _ => 0) m' (v mb) _ Hnth) as (Hin & _).
    { intros i Hi. apply in_seq in Hi. lia. } { exact E. }
    destruct (Hin k) as (g & Eg & H1); [apply in_seq; lia|]. destruct (H1 j Hj) as (-> & _). f_equal. f_equal. f_equal. f_equal.
    unfold s_gradient_row in Eg. unfold G. cbn [map lsum] in Eg. destruct (sm_allow m); cbn [negb andb].
    - injection Eg as <-. ring.
    - destruct (forall_lt _ _); [|discriminate]. injection Eg as <-. destruct (self_block (sm_B m) k j); [reflexivity|ring]. }
  unfold mean_choice. rewrite (@Rsum_ext n (fun mb => v mb k j) (fun mb => mom * velocity_of prev k j + lr * sm_w m k j * (G (nth mb (sm_data m) d0) / INR (sd_T (nth mb (sm_data m) d0))))).
  2:{ intros mb Hmb. rewrite Hval by exact Hmb. unfold Rdiv. ring. }
  rewrite Rsum_plus, Rsum_const, Rsum_scal. unfold n at 2. rewrite <- (@lsum_nth sdata (fun d => G d / INR (sd_T d)) (sm_data m) d0).
  fold n. unfold G. destruct (negb (sm_allow m) && self_block (sm_B m) k j)%bool.
  - rewrite (lsum_map_ext _ (fun _ => 0)) by (intros; unfold Rdiv; ring). rewrite lsum_map_const. field. lra.
  - field. lra.
Qed.

(** ** C130.  With data sets of equal length T, the mean direction of sgd_step is, up to the factor learning rate / (n T), the
    direction gradient_descent_step would take if the prior were counted n times, n being the number of data sets. *)
Theorem C130_mean_direction_equal_lengths :
  forall m prev lr mom T (v : nat -> mat), step_ok m -> (0 < length (sm_data m))%nat -> (0 < T)%nat ->
  (forall d, In d (sm_data m) -> sd_T d = T) ->
  (forall mb, (mb < length (sm_data m))%nat -> exists m', s_sgd_step m prev lr mom mb = Ok (m', v mb)) ->
  forall k j, (k < sm_K m)%nat -> (j < sm_P m)%nat ->
  exists g, s_compute_gradient (prior_times (length (sm_data m)) m) k All = Ok g /\
    mean_choice (length (sm_data m)) (fun mb => v mb k j)
    = mom * velocity_of prev k j + lr / (INR (length (sm_data m)) * INR T) * (g j * sm_w m k j).
Proof.
  intros m prev lr mom T v Hm Hn HT Hlen Hv k j Hk Hj. rewrite (@sgd_mean m prev lr mom v Hm Hn Hv k j Hk Hj). set (n := length (sm_data m)) in *.
  assert (HnR : 0 < INR n) by now apply lt_0_INR. assert (HTR : 0 < INR T) by now apply lt_0_INR.
  assert (Hmn : step_ok (prior_times n m)) by exact Hm.
  destruct (@s_grad_all (prior_times n m) k Hmn Hk) as (g & Eg & H0 & H1). exists g. split; [exact Eg|]. f_equal.
  cbn [sm_allow prior_times sm_B sm_data sm_alpha sm_beta sm_w] in H0, H1.
  destruct (sm_allow m) eqn:Ea; cbn [negb andb]; [|destruct (self_block (sm_B m) k j) eqn:Eb; [rewrite H0 by auto; field; lra|]];
    (rewrite H1 by auto;
     rewrite (lsum_map_ext (fun d => (s_grad_data m k (sm_w m k) d j + s_grad_prior (sm_alpha m) (sm_beta m) (sm_w m k) j) / INR (sd_T d))
       (fun d => / INR T * (s_grad_data m k (sm_w m k) d j + s_grad_prior (sm_alpha m) (sm_beta m) (sm_w m k) j)))
       by (intros d Hd; rewrite (Hlen d Hd); unfold Rdiv; ring);
     rewrite lsum_map_scal, lsum_map_plus, lsum_map_const; fold n;
     change (fun d => s_grad_data (prior_times n m) k (sm_w m k) d j) with (fun d => s_grad_data m k (sm_w m k) d j);
     assert (HP : s_grad_prior (1 + INR n * (sm_alpha m - 1)) (INR n * sm_beta m) (sm_w m k) j = INR n * s_grad_prior (sm_alpha m) (sm_beta m) (sm_w m k) j) by
       (unfold s_grad_prior; destruct j as [|j]; [ring|];
        assert (Hwp : 0 < sm_w m k (S j)) by (now apply Hm);
        destruct (Rltb 1 (sm_alpha m)) eqn:E1;
        [apply Rltb_true in E1; rewrite (proj2 (Rltb_true 1 _)) by nra; field; lra
        |apply Rltb_false in E1; rewrite (proj2 (Rltb_false 1 _)) by nra; ring]);
     rewrite HP; field; lra).
Qed.
Print Assumptions C130_mean_direction_equal_lengths.

(** ** With one data set, or with a flat prior (alpha = 1, beta = 0) and data sets of equal length, the mean direction is that of
    the gradient of the log posterior. *)
Theorem C130_unbiased_partial :
  forall m prev lr mom T (v : nat -> mat), step_ok m -> (0 < length (sm_data m))%nat -> (0 < T)%nat ->
  (forall d, In d (sm_data m) -> sd_T d = T) ->
  length (sm_data m) = 1%nat \/ sm_alpha m = 1 /\ sm_beta m = 0 ->
  (forall mb, (mb < length (sm_data m))%nat -> exists m', s_sgd_step m prev lr mom mb = Ok (m', v mb)) ->
  forall k j, (k < sm_K m)%nat -> (j < sm_P m)%nat ->
  exists g, s_compute_gradient m k All = Ok g /\
    mean_choice (length (sm_data m)) (fun mb => v mb k j)
    = mom * velocity_of prev k j + lr / (INR (length (sm_data m)) * INR T) * (g j * sm_w m k j).
Proof.
  intros m prev lr mom T v Hm Hn HT Hlen Hflat Hv k j Hk Hj.
  destruct (@C130_mean_direction_equal_lengths m prev lr mom T v Hm Hn HT Hlen Hv k j Hk Hj) as (g & Eg & E).
  exists g. split; [|exact E]. rewrite <- Eg. f_equal. destruct m. unfold prior_times. cbn in *. f_equal.
  - destruct Hflat as [->|(-> & _)]; cbn; ring.
  - destruct Hflat as [->|(_ & ->)]; cbn; ring.
Qed.
Print Assumptions C130_unbiased_partial.

(** Two data sets of one bin each: no event at filtered data [1, 0], four events at filtered data [1, 1]. *)
Definition two_sets (beta : R) (c : Z) : smodel :=
  {| sm_K := 1; sm_B := 1; sm_dt := 1; sm_alpha := 1; sm_beta := beta; sm_allow := true; sm_L := 2;
     sm_bas := fun l _ => if Nat.eqb l 1 then 1 else 0; sm_w := fun _ _ => 1;
     sm_data := [{| sd_T := 1; sd_S := fun _ _ => 0%Z; sd_F := fun _ j => if Nat.eqb j 0 then 1 else 0 |};
                 {| sd_T := 1; sd_S := fun _ _ => c; sd_F := fun _ _ => 1 |}] |}.

(** ** In general it is not: at weights that maximise the log posterior, where gradient_descent_step stays, the mean step of
    sgd_step from rest still moves every time, for any learning rate. *)
Theorem C130_unbiased_refuted :
  exists m, step_ok m /\ features_ok m /\ counts_ok m /\ 1 <= sm_alpha m /\ sm_beta m = 1 /\
   (forall d, In d (sm_data m) -> sd_T d = 1%nat) /\
   (forall e m', s_gradient_descent_step m e = Ok m' -> same_weights m m') /\
   (forall w v v2, admissible m w -> s_log_posterior m All KNone = Ok (Fin v) -> s_log_posterior (sm_with_w m w) All KNone = Ok (Fin v2) -> v2 <= v) /\
   (forall lr mom (v : nat -> mat), (forall mb, (mb < length (sm_data m))%nat -> exists m', s_sgd_step m None lr mom mb = Ok (m', v mb)) ->
      mean_choice (length (sm_data m)) (fun mb => v mb 0%nat 1%nat) = - lr / 2).
Proof.
  set (m := two_sets 1 4). exists m.
  assert (Hm : step_ok m) by (split; [intros; cbn; lra|discriminate]).
  assert (HF : features_ok m).
  { intros d t [<-|[<-|[]]] Ht; cbn [sd_F]; (split; [reflexivity|]); intros j _; [destruct (Nat.eqb j 0)|]; lra. }
  assert (HC : counts_ok m) by (intros d t k [<-|[<-|[]]] _ _; cbn [sd_S]; lia).
  assert (HK : (0 < sm_K m)%nat) by (cbn; lia).
  assert (Hg : forall k j, (k < sm_K m)%nat -> (j < sm_P m)%nat -> forall g, s_compute_gradient m k All = Ok g -> g j = 0).
  { intros k j Hk Hj g Eg. unfold s_compute_gradient in Eg. rewrite s_data_list_all in Eg. cbn [bindr] in Eg. rewrite (proj2 (Nat.ltb_lt _ _) Hk) in Eg.
    unfold s_gradient_row in Eg. cbn [sm_allow m two_sets] in Eg. injection Eg as <-. unfold s_grad_data, s_rate, sm_P.
    cbn [map lsum m two_sets sm_data sd_T sd_S sd_F sm_dt sm_w sm_alpha sm_beta sm_K sm_B Nat.add Nat.mul Rsum Nat.eqb].
    cbn in Hj. destruct j as [|[|j]]; [| |lia]; cbn [s_grad_prior Nat.eqb]; [field|]. rewrite (proj2 (Rltb_false 1 1)) by lra. field. }
  assert (Hstay : forall e m', s_gradient_descent_step m e = Ok m' -> same_weights m m').
  { intros e m' E k j Hk Hj. destruct (step_facts Hm HF HK) as (g & Eg & _ & Hst & _). destruct (Hst e) as (m1 & E1 & _ & _ & Hw).
    rewrite E in E1. injection E1 as <-. rewrite Hw by auto. unfold path. rewrite (Hg k j Hk Hj _ (Eg k Hk)). rewrite Rmult_0_l, Rmult_0_r, exp_0. ring. }
  split; [exact Hm|]. split; [exact HF|]. split; [exact HC|]. split; [cbn; lra|]. split; [reflexivity|].
  split; [intros d [<-|[<-|[]]]; reflexivity|]. split; [exact Hstay|]. split.
  - intros w v v2 Hw Ev Ev2. destruct (step_facts Hm HF HK) as (g & _ & _ & Hst & _). destruct (Hst 1) as (m1 & E1 & _).
    assert (HA : 1 <= sm_alpha m) by (cbn; lra). assert (H1 : 1 <> 0) by lra.
    exact (proj1 (@C129_stays_exactly_at_the_maximum m 1 m1 v Hm HF HC HK HA H1 E1 Ev) (Hstay 1 m1 E1) w v2 Hw Ev2).
  - intros lr mom v Hv. rewrite (@sgd_mean m None lr mom v Hm ltac:(cbn; lia) Hv 0%nat 1%nat ltac:(cbn; lia) ltac:(cbn; lia)).
    unfold s_grad_data, s_rate, sm_P.
    cbn [map lsum m two_sets sm_data sd_T sd_S sd_F sm_dt sm_w sm_alpha sm_beta sm_K sm_B sm_allow length Nat.add Nat.mul Rsum Nat.eqb negb andb s_grad_prior velocity_of INR].
    rewrite (proj2 (Rltb_false 1 1)) by lra. field.
Qed.
Print Assumptions C130_unbiased_refuted.

(** ** Nor with a flat prior when the lengths differ: each data set's gradient is divided by its own length. *)
Definition short_and_long : smodel :=
  {| sm_K := 1; sm_B := 1; sm_dt := 1; sm_alpha := 1; sm_beta := 0; sm_allow := true; sm_L := 2;
     sm_bas := fun l _ => if Nat.eqb l 1 then 1 else 0; sm_w := fun _ _ => 1;
     sm_data := [{| sd_T := 1; sd_S := fun _ _ => 3%Z; sd_F := fun _ j => if Nat.eqb j 0 then 1 else 0 |};
                 {| sd_T := 2; sd_S := fun _ _ => 0%Z; sd_F := fun _ j => if Nat.eqb j 0 then 1 else 0 |}] |}.
Theorem C130_unequal_lengths_refuted :
  let m := short_and_long in step_ok m /\ features_ok m /\ counts_ok m /\
  (forall e m', s_gradient_descent_step m e = Ok m' -> same_weights m m') /\
  (forall lr mom (v : nat -> mat), (forall mb, (mb < length (sm_data m))%nat -> exists m', s_sgd_step m None lr mom mb = Ok (m', v mb)) ->
      mean_choice (length (sm_data m)) (fun mb => v mb 0%nat 0%nat) = lr / 2).
Proof.
  intros m.
  assert (Hm : step_ok m) by (split; [intros; cbn; lra|discriminate]).
  assert (HF : features_ok m).
  { intros d t [<-|[<-|[]]] Ht; cbn [sd_F]; (split; [reflexivity|]); intros j _; destruct (Nat.eqb j 0); lra. }
  assert (HK : (0 < sm_K m)%nat) by (cbn; lia).
  split; [exact Hm|]. split; [exact HF|]. split; [intros d t k [<-|[<-|[]]] _ _; cbn [sd_S]; lia|]. split.
  - intros e m' E k j Hk Hj. destruct (step_facts Hm HF HK) as (g & Eg & _ & Hst & _). destruct (Hst e) as (m1 & E1 & _ & _ & Hw).
    rewrite E in E1. injection E1 as <-. rewrite Hw by auto. unfold path.
    replace (g k j) with 0; [rewrite Rmult_0_l, Rmult_0_r, exp_0; ring|]. specialize (Eg k Hk). symmetry.
    unfold s_compute_gradient in Eg. rewrite s_data_list_all in Eg. cbn [bindr] in Eg. rewrite (proj2 (Nat.ltb_lt _ _) Hk) in Eg.
    unfold s_gradient_row in Eg. cbn [sm_allow m short_and_long] in Eg. injection Eg as Eg. rewrite <- Eg. unfold s_grad_data, s_rate, sm_P.
    cbn [map lsum m short_and_long sm_data sd_T sd_S sd_F sm_dt sm_w sm_alpha sm_beta sm_K sm_B Nat.add Nat.mul Rsum Nat.eqb].
    cbn in Hj. destruct j as [|[|j]]; [| |lia]; cbn [s_grad_prior Nat.eqb]; [field|]. rewrite (proj2 (Rltb_false 1 1)) by lra. field.
  - intros lr mom v Hv. rewrite (@sgd_mean m None lr mom v Hm ltac:(cbn; lia) Hv 0%nat 0%nat ltac:(cbn; lia) ltac:(cbn; lia)).
    unfold s_grad_data, s_rate, sm_P.
    cbn [map lsum m short_and_long sm_data sd_T sd_S sd_F sm_dt sm_w sm_alpha sm_beta sm_K sm_B sm_allow length Nat.add Nat.mul Rsum Nat.eqb negb andb s_grad_prior velocity_of INR].
    field.
Qed.
Print Assumptions C130_unequal_lengths_refuted.

(** sgd_step does return from any of these models, so the hypotheses on v are met. *)
Example C130_nonvacuous : forall m prev lr mom, step_ok m -> vel_ok m prev -> (0 < length (sm_data m))%nat ->
  exists v : nat -> mat, forall mb, (mb < length (sm_data m))%nat -> exists m', s_sgd_step m prev lr mom mb = Ok (m', v mb).
Proof.
  intros m prev lr mom Hm Hp Hn.
  exists (fun mb => match s_sgd_step m prev lr mom mb with Ok mv => snd mv | Raise _ => fun _ _ => 0 end). intros mb Hmb.
  destruct (@C51_history_positive m prev [SSgd false lr mom mb] Hm Hp Hn) as (m' & v' & E & _); [intros o [<-|[]]; exact Hmb|].
  cbn [s_run s_op fst snd] in E. destruct (s_sgd_step m prev lr mom mb) as [[m1 v1]|]; [|discriminate]. exists m1. reflexivity.
Qed.
