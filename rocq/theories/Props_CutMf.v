(** * Props_CutMf: variational inference with a recording cut at a silence (C137, continued). *)
From Coq Require Import FunctionalExtensionality.
From Verif Require Import Prelude ExtReal Arrays Spec_Basis Spec_Discrete Spec_Cut M_Basis L_Basis Props_Basis M_Parents M_Discrete M_Gibbs M_Network M_Sweep M_MeanField M_Vlb
  L_Discrete L_Gibbs L_Standard L_Relabel Props_Network Props_Gibbs Props_Discrete Props_Cut Props_Order Props_CutGibbs.
Set Implicit Arguments.
Open Scope R_scope.

(** The expected parent counts are split as well. *)
Definition mf_cut (p p1 p2 : parents) : Prop :=
  cut p p1 p2 /\
  (forall k r c, (r < pa_Tk p1 k)%nat -> pa_EZ p k r c = pa_EZ p1 k r c) /\
  (forall k r c, (r < pa_Tk p2 k)%nat -> pa_EZ p k (pa_Tk p1 k + r)%nat c = pa_EZ p2 k r c).

Lemma mf_norm1 e p p1 p2 k r : cut p p1 p2 -> (r < pa_Tk p1 k)%nat -> mf_norm p e k r = mf_norm p1 e k r.
Proof. intros C Hr. unfold mf_norm, pkb. now rewrite (cut_Fs1 C), (cut_K1 C), (cut_B1 C). Qed.
Lemma mf_norm2 e p p1 p2 k r : cut p p1 p2 -> (r < pa_Tk p2 k)%nat -> mf_norm p e k (pa_Tk p1 k + r) = mf_norm p2 e k r.
Proof. intros C Hr. unfold mf_norm, pkb. now rewrite (cut_Fs2 C), (cut_K2 C), (cut_B2 C). Qed.
Lemma cut_mf_update e p p1 p2 : cut p p1 p2 ->
  match mf_update_python p e with
  | Ok p' => exists p1' p2', mf_update_python p1 e = Ok p1' /\ mf_update_python p2 e = Ok p2' /\ mf_cut p' p1' p2'
  | Raise x => x = AssertionError /\ (mf_update_python p1 e = Raise x \/ (exists y, mf_update_python p1 e = Ok y) /\ mf_update_python p2 e = Raise x)
  end.
Proof.
  intros C. unfold mf_update_python.
  rewrite (@all_rows_cut p p1 p2 _ (fun k r => negb (Reqb (mf_norm p1 e k r) 0)) (fun k r => negb (Reqb (mf_norm p2 e k r) 0)) C).
  2:{ intros k r Hr. now rewrite (@mf_norm1 e p p1 p2 k r C Hr). }
  2:{ intros k r Hr. now rewrite (@mf_norm2 e p p1 p2 k r C Hr). }
  destruct (all_rows p1 _), (all_rows p2 _); cbn [andb negb]; eauto.
  do 2 eexists. split; [reflexivity|]. split; [reflexivity|]. split; [|split].
  - destruct C. constructor; auto.
  - intros k r c Hr. cbn [set_EZ pa_EZ]. change (pa_Tk (set_EZ p1 _) k) with (pa_Tk p1 k) in Hr.
    unfold pkb. rewrite (@mf_norm1 e p p1 p2 k r C Hr), (cut_Ss1 C), (cut_Fs1 C), (cut_B1 C) by auto. reflexivity.
  - intros k r c Hr. cbn [set_EZ pa_EZ]. change (pa_Tk (set_EZ p1 _) k) with (pa_Tk p1 k). change (pa_Tk (set_EZ p2 _) k) with (pa_Tk p2 k) in Hr.
    unfold pkb. rewrite (@mf_norm2 e p p1 p2 k r C Hr), (cut_Ss2 C), (cut_Fs2 C), (cut_B2 C) by auto. reflexivity.
Qed.

Section one.
Variables (p p1 p2 : parents).
Hypothesis M : mf_cut p p1 p2.
Let C := proj1 M.
Let E1 := proj1 (proj2 M).
Let E2 := proj2 (proj2 M).
Lemma cut_exp_bkgd0 k : exp_bkgd_ss0 p k = exp_bkgd_ss0 p1 k + exp_bkgd_ss0 p2 k.
Proof. unfold exp_bkgd_ss0. rewrite (cut_Tk C), Rsum_app. f_equal; apply Rsum_ext; intros; auto. Qed.
Lemma cut_exp_bkgd1 k : exp_bkgd_ss1 p k = exp_bkgd_ss1 p1 k + exp_bkgd_ss1 p2 k.
Proof. unfold exp_bkgd_ss1. rewrite (cut_T C), plus_INR, (cut_dt1 C), (cut_dt2 C). ring. Qed.
Lemma cut_exp_ir k1 k2 b : exp_ir_ss p k1 k2 b = exp_ir_ss p1 k1 k2 b + exp_ir_ss p2 k1 k2 b.
Proof. unfold exp_ir_ss. rewrite (cut_Tk C), Rsum_app, (cut_B1 C), (cut_B2 C). f_equal; apply Rsum_ext; intros; auto. Qed.
Lemma cut_exp_weight0 k1 k2 : exp_weight_ss0 p k1 k2 = exp_weight_ss0 p1 k1 k2 + exp_weight_ss0 p2 k1 k2.
Proof.
  change (exp_weight_ss0 p k1 k2) with (Rsum (pa_B p) (exp_ir_ss p k1 k2)). change (exp_weight_ss0 p1 k1 k2) with (Rsum (pa_B p1) (exp_ir_ss p1 k1 k2)).
  change (exp_weight_ss0 p2 k1 k2) with (Rsum (pa_B p2) (exp_ir_ss p2 k1 k2)). rewrite (cut_B1 C), (cut_B2 C), <- Rsum_plus.
  apply Rsum_ext. intros. apply cut_exp_ir.
Qed.
Lemma cut_vlb ln_lam lam ln_W W ln_g k : cy_vlb_er_k p ln_lam lam ln_W W ln_g k
  = eadd (cy_vlb_er_k p1 ln_lam lam ln_W W ln_g k) (cy_vlb_er_k p2 ln_lam lam ln_W W ln_g k).
Proof.
  unfold cy_vlb_er_k. rewrite (cut_Tk C), esum_app.
  assert (EN : - INR (pa_T p) * lam k + Rsum (pa_K p) (fun k1 => - IZR (pa_Ns p k1) * W k1 k)
    = (- INR (pa_T p1) * lam k + Rsum (pa_K p1) (fun k1 => - IZR (pa_Ns p1 k1) * W k1 k))
    + (- INR (pa_T p2) * lam k + Rsum (pa_K p2) (fun k1 => - IZR (pa_Ns p2 k1) * W k1 k))).
  { rewrite (cut_T C), plus_INR, (cut_K1 C), (cut_K2 C).
    rewrite (@Rsum_ext (pa_K p) (fun k1 => - IZR (pa_Ns p k1) * W k1 k) (fun k1 => - IZR (pa_Ns p1 k1) * W k1 k + - IZR (pa_Ns p2 k1) * W k1 k)).
    2:{ intros k1 _. rewrite (cut_Ns C), plus_IZR. ring. }
    rewrite Rsum_plus. ring. }
  rewrite EN. clear EN.
  match goal with |- eadd (Fin (?a + ?b)) (eadd ?c ?d) = eadd (eadd _ ?c') (eadd _ ?d') => replace c with c'; [replace d with d'|] end.
  - rewrite <- eadd_fin. rewrite !eadd_assoc. f_equal. rewrite <- !eadd_assoc. f_equal. apply eadd_comm.
  - apply esum_ext. intros r Hr. rewrite (cut_K2 C), (cut_B2 C), (cut_Ss2 C) by auto. rewrite (cut_Fs2 C) by auto. rewrite E2 by auto. f_equal.
    apply esum_ext; intros k1 _. apply esum_ext; intros b _. cbv zeta. now rewrite E2 by auto.
  - apply esum_ext. intros r Hr. rewrite (cut_K1 C), (cut_B1 C), (cut_Ss1 C) by auto. rewrite (cut_Fs1 C) by auto. rewrite E1 by auto. f_equal.
    apply esum_ext; intros k1 _. apply esum_ext; intros b _. cbv zeta. now rewrite E1 by auto.
Qed.
Lemma cut_data_vlb psi m : data_vlb psi m p = eadd (data_vlb psi m p1) (data_vlb psi m p2).
Proof. unfold data_vlb. rewrite (cut_K1 C), (cut_K2 C), <- esum_plus. apply esum_ext. intros. apply cut_vlb. Qed.
End one.

(** [l'] holds the parts where [l] holds the whole. *)
Definition data_cut (l l' : list parents) : Prop :=
  exists pre post p p1 p2, cut p p1 p2 /\ l = pre ++ p :: post /\ l' = pre ++ p1 :: p2 :: post.
Definition data_mf_cut (l l' : list parents) : Prop :=
  exists pre post p p1 p2, mf_cut p p1 p2 /\ l = pre ++ p :: post /\ l' = pre ++ p1 :: p2 :: post.

Lemma mf_parents_app e l1 l2 : mf_parents e (l1 ++ l2) = do a <- mf_parents e l1 ;; do b <- mf_parents e l2 ;; Ok (a ++ b).
Proof.
  induction l1 as [|x l1 IH]; cbn [mf_parents app].
  - cbn [bindr]. destruct (mf_parents e l2); reflexivity.
  - destruct (mf_update_python x e); [|reflexivity]. cbn [bindr]. rewrite IH. destruct (mf_parents e l1); [|reflexivity]. cbn [bindr].
    destruct (mf_parents e l2); reflexivity.
Qed.
Lemma cut_parents e l l' : data_cut l l' ->
  match mf_parents e l with
  | Ok d => exists d', mf_parents e l' = Ok d' /\ data_mf_cut d d'
  | Raise x => mf_parents e l' = Raise x
  end.
Proof.
  intros (pre & post & p & p1 & p2 & C & -> & ->). rewrite !mf_parents_app. destruct (mf_parents e pre) as [a|x]; [|reflexivity]. cbn [bindr mf_parents].
  assert (U := cut_mf_update e C). destruct (mf_update_python p e) as [p'|x].
  - destruct U as (p1' & p2' & -> & -> & M). cbn [bindr]. destruct (mf_parents e post) as [b|x]; cbn [bindr]; [|reflexivity].
    eexists; split; [reflexivity|]. exists a, b, p', p1', p2'. auto.
  - cbn [bindr]. destruct U as (_ & [->|[[y ->] ->]]); reflexivity.
Qed.

Section lists.
Variables l l' : list parents.
Hypothesis D : data_mf_cut l l'.
Lemma pool_data_cut (f : parents -> R) : (forall p p1 p2, mf_cut p p1 p2 -> f p = f p1 + f p2) -> pool f l = pool f l'.
Proof. intros H. destruct D as (pre & post & p & p1 & p2 & M & -> & ->). apply pool_cut. auto. Qed.
Lemma nonempty_cut : exists d x d' x', l = d :: x /\ l' = d' :: x'.
Proof. destruct D as (pre & post & p & p1 & p2 & M & -> & ->). destruct pre; cbn; eauto 6. Qed.
Lemma bias_mf_cut a b x : bias_mf a b l x = bias_mf a b l' x.
Proof.
  assert (A0 : forall k, pool (fun d => exp_bkgd_ss0 d k) l = pool (fun d => exp_bkgd_ss0 d k) l') by (intros; apply pool_data_cut; intros; now apply cut_exp_bkgd0).
  assert (A1 : forall k, pool (fun d => exp_bkgd_ss1 d k) l = pool (fun d => exp_bkgd_ss1 d k) l') by (intros; apply pool_data_cut; intros; now apply cut_exp_bkgd1).
  unfold bias_mf, mf_update_lambda0. destruct nonempty_cut as (d & y & d' & y' & El & El'). rewrite El, El' in A0, A1 |- *; clear El El'.
  do 2 f_equal; apply functional_extensionality; intros k; first [rewrite A0; reflexivity | rewrite A1; reflexivity].
Qed.
Lemma ir_mf_cut g x : ir_mf g l x = ir_mf g l' x.
Proof.
  unfold ir_mf, mf_update_gamma. do 3 (apply functional_extensionality; intros ?).
  rewrite (@pool_data_cut (fun d => exp_ir_ss d x0 x1 x2)) by (intros; now apply cut_exp_ir). reflexivity.
Qed.
Lemma weights_mf_cut lgam k0 n0 n w : weights_mf lgam k0 n0 n l w = weights_mf lgam k0 n0 n l' w.
Proof.
  assert (A0 : forall i j, pool (fun d => exp_weight_ss0 d i j) l = pool (fun d => exp_weight_ss0 d i j) l') by (intros; apply pool_data_cut; intros; now apply cut_exp_weight0).
  assert (A1 : forall i, pool (fun d => IZR (pa_Ns d i)) l = pool (fun d => IZR (pa_Ns d i)) l').
  { intros; apply pool_data_cut; intros q q1 q2 H. rewrite (cut_Ns (proj1 H)). apply plus_IZR. }
  unfold weights_mf, meanfieldupdate_kappa_v. destruct nonempty_cut as (d & y & d' & y' & El & El'). rewrite El, El' in A0, A1 |- *; clear El El'.
  cbn [bindr]. do 2 f_equal. f_equal; do 2 (apply functional_extensionality; intros ?); first [rewrite A0; reflexivity | rewrite A1; reflexivity].
Qed.
Lemma vlb_cut lgam psi m : mf_get_vlb lgam psi (mm_with_data m l) = mf_get_vlb lgam psi (mm_with_data m l').
Proof.
  unfold mf_get_vlb. cbn [mm_with_data mm_h mm_bias mm_gamma mm_w mm_net mm_data].
  change (data_vlb psi (mm_with_data m ?x)) with (data_vlb psi m).
  replace (fold_left (fun v d => eadd v (data_vlb psi m d)) l (Fin 0)) with (fold_left (fun v d => eadd v (data_vlb psi m d)) l' (Fin 0)); [reflexivity|].
  destruct D as (pre & post & p & p1 & p2 & M & -> & ->). symmetry. apply (fold_cut (fun d => data_vlb psi m d)). now apply cut_data_vlb.
Qed.
End lists.

(** A number of coordinate-ascent steps, with the bounds they return. *)
Fixpoint mf_steps (lgam psi : R -> R) (n : nat) (m : mfmodel) : result (mfmodel * list er) :=
  match n with
  | O => Ok (m, [])
  | S n' => do mv <- mf_cd_step lgam psi m ;; do r <- mf_steps lgam psi n' (fst mv) ;; Ok (fst r, snd mv :: snd r)
  end.
Lemma mf_cut_cut l l' : data_mf_cut l l' -> data_cut l l'.
Proof. intros (pre & post & p & p1 & p2 & [C _] & -> & ->). exists pre, post, p, p1, p2. auto. Qed.
Lemma step_cut lgam psi m l : data_cut (mm_data m) l ->
  match mf_cd_step lgam psi m with
  | Ok (m1, v) => exists l1, mf_cd_step lgam psi (mm_with_data m l) = Ok (mm_with_data m1 l1, v) /\ data_mf_cut (mm_data m1) l1
  | Raise x => mf_cd_step lgam psi (mm_with_data m l) = Raise x
  end.
Proof.
  intros D. unfold mf_cd_step, mf_batch_step. cbn [mm_with_data mm_h mm_bias mm_gamma mm_w mm_net mm_data mm_off].
  change (mf_in_of psi (mm_with_data m l)) with (mf_in_of psi m).
  assert (U := cut_parents (mf_in_of psi m) D). destruct (mf_parents (mf_in_of psi m) (mm_data m)) as [d|x]; [|rewrite U; reflexivity].
  destruct U as (d' & -> & D'). cbn [bindr]. rewrite <- (bias_mf_cut D'). destruct (bias_mf _ _ d _) as [b|x]; [|reflexivity]. cbn [bindr].
  destruct (mfnet_view psi (mm_net m)) as [n|x]; [|reflexivity]. cbn [bindr]. rewrite <- (weights_mf_cut D').
  destruct (weights_mf _ _ _ n d _) as [w|x]; [|reflexivity]. cbn [bindr]. destruct (mfnet_batch _ _ _ _) as [no|x]; [|reflexivity]. cbn [bindr].
  rewrite <- (ir_mf_cut D').
  match goal with |- match (do v <- mf_get_vlb _ _ ?y ;; _) with _ => _ end => set (Y := y) end.
  match goal with |- context [mf_get_vlb lgam psi ?x] => lazymatch x with Y => fail | _ => set (X := x) end end.
  assert (EX : X = mm_with_data Y d') by reflexivity. assert (EV : mf_get_vlb lgam psi X = mf_get_vlb lgam psi Y).
  { rewrite EX. symmetry. change (mf_get_vlb lgam psi Y) with (mf_get_vlb lgam psi (mm_with_data Y d)). now apply vlb_cut. }
  rewrite EV. destruct (mf_get_vlb lgam psi Y) as [v|x]; cbn [bindr]; [|reflexivity].
  exists d'. split; [now rewrite EX|exact D'].
Qed.

(** Any number of coordinate-ascent steps on the parts and on the whole give the same variational parameters and the same reported
    bounds (infinite and NaN ones included), and one fails, with the same exception, exactly when the other does. *)
Theorem C137_mean_field : forall lgam psi n m l, data_cut (mm_data m) l ->
  match mf_steps lgam psi n m with
  | Ok (m1, vs) => exists l1, mf_steps lgam psi n (mm_with_data m l) = Ok (mm_with_data m1 l1, vs) /\ data_cut (mm_data m1) l1
  | Raise x => mf_steps lgam psi n (mm_with_data m l) = Raise x
  end.
Proof.
  intros lgam psi n. induction n as [|n IH]; intros m l D; cbn [mf_steps]; [exists l; auto|].
  assert (U := step_cut lgam psi m D). destruct (mf_cd_step lgam psi m) as [[m1 v]|x]; [|rewrite U; reflexivity].
  destruct U as (l1 & -> & D1). cbn [bindr fst snd]. specialize (IH m1 l1 (mf_cut_cut D1)).
  destruct (mf_steps lgam psi n m1) as [[m2 vs]|x]; cbn [bindr fst snd].
  - destruct IH as (l2 & -> & D2). cbn [bindr fst snd]. eauto.
  - now rewrite IH.
Qed.
Print Assumptions C137_mean_field.

(** What add_data stores for a recording and for its parts are such data lists. *)
Theorem C137_added_data : forall m T1 T2 S1 S2,
  proper_dims m -> (0 < T1)%nat -> (0 < T2)%nat -> counts T1 (dm_K m) S1 -> counts T2 (dm_K m) S2 ->
  (forall K, quiet_end T1 (dm_L m) K S1) ->
  exists m' m1 m2,
    add_data m (sval_of (T1 + T2) (dm_K m) (glue T1 S1 S2)) None None = Ok m' /\
    add_data m (sval_of T1 (dm_K m) S1) None None = Ok m1 /\
    add_data m1 (sval_of T2 (dm_K m) S2) None None = Ok m2 /\
    data_cut (dm_data m') (dm_data m2).
Proof.
  intros m T1 T2 S1 S2 (HK & HB & HL) H1 H2 C1 C2 Hq.
  assert (Cg : counts (T1 + T2) (dm_K m) (glue T1 S1 S2)).
  { intros t k Ht Hk. unfold glue. destruct (Nat.ltb_spec t T1); [apply C1|apply C2]; auto; lia. }
  destruct (@convolve_ok (T1 + T2) (dm_K m) (glue T1 S1 S2) (dm_L m) (dm_B m) (dm_bas m)) as (F & E); try lia.
  destruct (@convolve_ok T1 (dm_K m) S1 (dm_L m) (dm_B m) (dm_bas m)) as (F1 & E1); try lia.
  destruct (@convolve_ok T2 (dm_K m) S2 (dm_L m) (dm_B m) (dm_bas m)) as (F2 & E2); try lia.
  set (p := mk_parents (dm_K m) (dm_B m) (dm_dt m) (T1 + T2) (glue T1 S1 S2) F).
  set (p1 := mk_parents (dm_K m) (dm_B m) (dm_dt m) T1 S1 F1).
  set (p2 := mk_parents (dm_K m) (dm_B m) (dm_dt m) T2 S2 F2).
  exists (with_data m (dm_data m ++ [p])), (with_data m (dm_data m ++ [p1])), (with_data m (dm_data m ++ [p1; p2])).
  split; [apply (@add_data_ok m (T1 + T2) (glue T1 S1 S2) None [p] F); auto; lia|].
  split; [apply (@add_data_ok m T1 S1 None [p1] F1); auto|].
  split. { pose proof (@add_data_ok (with_data m (dm_data m ++ [p1])) T2 S2 None [p2] F2) as H. cbn [dm_K dm_data with_data] in H.
    rewrite H by auto. f_equal. unfold with_data. cbn [dm_data]. now rewrite <- app_assoc. }
  exists (dm_data m), [], p, p1, p2. split; [|split; reflexivity].
  constructor; try reflexivity; cbn [p p1 p2 mk_parents pa_T pa_S pa_F]; intros t k; intros.
  - now apply glue_l.
  - apply glue_r.
  - eapply (@convolve_same (T1 + T2) T1); eauto; try lia. intros. now apply conv_glue_l.
  - eapply (@convolve_same (T1 + T2) T2); eauto; try lia. intros k0 b0. apply (@conv_glue_r T1 (dm_L m) (S k0)); [apply Hq|lia].
Qed.
Print Assumptions C137_added_data.

Example C137_mf_nonvacuous : exists l l', data_cut l l' /\ exists d, In d l /\ pa_S d 0%nat 0%nat = 2%Z.
Proof.
  destruct C137_nonvacuous as (A & B & C & _ & _ & _).
  destruct (@C137_added_data ex_m 2 1 ex_S ex_S A ltac:(lia) ltac:(lia) B C) as (m' & m1 & m2 & E & _ & _ & D).
  { intros K t k Ht HL _. cbn in HL. replace t with 1%nat by lia. reflexivity. }
  exists (dm_data m'), (dm_data m2). split; [exact D|].
  destruct (@convolve_ok (2 + 1) (dm_K ex_m) (glue 2 ex_S ex_S) (dm_L ex_m) (dm_B ex_m) (dm_bas ex_m)) as (F & EF); try (cbn; lia).
  assert (Cg : counts (2 + 1) (dm_K ex_m) (glue 2 ex_S ex_S)).
  { intros t k _ _. unfold glue, ex_S. destruct (Nat.ltb t 2); destruct (_ && _)%bool; lia. }
  rewrite (@add_data_ok ex_m (2 + 1) (glue 2 ex_S ex_S) None [mk_parents (dm_K ex_m) (dm_B ex_m) (dm_dt ex_m) (2 + 1) (glue 2 ex_S ex_S) F] F) in E
    by (auto; cbn; lia).
  injection E as <-. cbn [dm_data with_data]. eexists. split; [left; reflexivity|]. reflexivity.
Qed.
