(** * Props_CutGibbs: sampling with a recording cut at a silence (C137, continued). *)
From Coq Require Import FunctionalExtensionality.
From Verif Require Import Prelude ExtReal Arrays Spec_Basis Spec_Discrete Spec_Cut M_Basis L_Basis Props_Basis
  M_Parents M_Discrete M_Gibbs M_Network M_Sweep L_Discrete L_Minibatch L_Gibbs L_Standard L_Relabel Props_Network Props_Gibbs Props_Discrete Props_Cut Props_Order.
Set Implicit Arguments.
Open Scope R_scope.

(** Recording [p] holds the bins, features and attributions of [p1] followed by those of [p2]. *)
Record cut (p p1 p2 : parents) : Prop := {
  cut_T : pa_T p = (pa_T p1 + pa_T p2)%nat;
  cut_K1 : pa_K p1 = pa_K p; cut_K2 : pa_K p2 = pa_K p;
  cut_B1 : pa_B p1 = pa_B p; cut_B2 : pa_B p2 = pa_B p;
  cut_dt1 : pa_dt p1 = pa_dt p; cut_dt2 : pa_dt p2 = pa_dt p;
  cut_S1 : forall t k, (t < pa_T p1)%nat -> pa_S p t k = pa_S p1 t k;
  cut_S2 : forall t k, (t < pa_T p2)%nat -> pa_S p (pa_T p1 + t)%nat k = pa_S p2 t k;
  cut_F1 : forall t k b, (t < pa_T p1)%nat -> pa_F p t k b = pa_F p1 t k b;
  cut_F2 : forall t k b, (t < pa_T p2)%nat -> pa_F p (pa_T p1 + t)%nat k b = pa_F p2 t k b;
  cut_Z1 : forall k r c, (r < pa_Tk p1 k)%nat -> pa_Z p k r c = pa_Z p1 k r c;
  cut_Z2 : forall k r c, (r < pa_Tk p2 k)%nat -> pa_Z p k (pa_Tk p1 k + r)%nat c = pa_Z p2 k r c }.

Section one.
Variables (p p1 p2 : parents).
Hypothesis C : cut p p1 p2.
Lemma cut_ts k : pa_ts p k = pa_ts p1 k ++ map (fun t => (pa_T p1 + t)%nat) (pa_ts p2 k).
Proof.
  unfold pa_ts. rewrite (cut_T C), seq_app, filter_app. f_equal.
  - apply filter_ext_in. intros t Ht. apply in_seq in Ht. rewrite (cut_S1 C) by lia. reflexivity.
  - cbn [Nat.add]. rewrite (seq_shift_add (pa_T p1)), filter_map. f_equal. apply filter_ext_in. intros t Ht. apply in_seq in Ht.
    rewrite (cut_S2 C) by lia. reflexivity.
Qed.
Lemma cut_Tk k : pa_Tk p k = (pa_Tk p1 k + pa_Tk p2 k)%nat.
Proof. unfold pa_Tk. now rewrite cut_ts, app_length, map_length. Qed.
Lemma row_in q k r : (r < pa_Tk q k)%nat -> (pa_row q k r < pa_T q)%nat.
Proof.
  intros Hr. assert (H : In (pa_row q k r) (pa_ts q k)) by (apply nth_In; exact Hr).
  unfold pa_ts in H. apply filter_In in H as [H _]. apply in_seq in H. lia.
Qed.
Lemma cut_row1 k r : (r < pa_Tk p1 k)%nat -> pa_row p k r = pa_row p1 k r.
Proof. intros Hr. unfold pa_row. rewrite cut_ts. now apply app_nth1. Qed.
Lemma cut_row2 k r : (r < pa_Tk p2 k)%nat -> pa_row p k (pa_Tk p1 k + r) = (pa_T p1 + pa_row p2 k r)%nat.
Proof.
  intros Hr. unfold pa_row. rewrite cut_ts, app_nth2 by (unfold pa_Tk; lia).
  replace (pa_Tk p1 k + r - length (pa_ts p1 k))%nat with r by (unfold pa_Tk; lia).
  rewrite (nth_indep _ 0%nat (pa_T p1 + 0)%nat) by (rewrite map_length; exact Hr).
  now rewrite (map_nth (fun t => (pa_T p1 + t)%nat)).
Qed.
Lemma cut_Ss1 k r : (r < pa_Tk p1 k)%nat -> pa_Ss p k r = pa_Ss p1 k r.
Proof. intros Hr. unfold pa_Ss. rewrite cut_row1 by auto. now rewrite (cut_S1 C) by now apply row_in. Qed.
Lemma cut_Ss2 k r : (r < pa_Tk p2 k)%nat -> pa_Ss p k (pa_Tk p1 k + r) = pa_Ss p2 k r.
Proof. intros Hr. unfold pa_Ss. rewrite cut_row2 by auto. now rewrite (cut_S2 C) by now apply row_in. Qed.
Lemma cut_Fs1 k r : (r < pa_Tk p1 k)%nat -> pa_Fs p k r = pa_Fs p1 k r.
Proof.
  intros Hr. unfold pa_Fs. do 2 (apply functional_extensionality; intros ?). rewrite cut_row1 by auto. apply (cut_F1 C). now apply row_in.
Qed.
Lemma cut_Fs2 k r : (r < pa_Tk p2 k)%nat -> pa_Fs p k (pa_Tk p1 k + r) = pa_Fs p2 k r.
Proof.
  intros Hr. unfold pa_Fs. do 2 (apply functional_extensionality; intros ?). rewrite cut_row2 by auto. apply (cut_F2 C). now apply row_in.
Qed.
Lemma cut_Ns k : pa_Ns p k = (pa_Ns p1 k + pa_Ns p2 k)%Z.
Proof.
  unfold pa_Ns. rewrite cut_ts, map_app, map_map, lsumZ_app. f_equal; f_equal; apply map_ext_in; intros t Ht;
    apply filter_In in Ht as [Ht _]; apply in_seq in Ht; [apply (cut_S1 C)|apply (cut_S2 C)]; lia.
Qed.

(** What the updates read adds up. *)
Lemma cut_bkgd0 k : bkgd_ss0 p k = (bkgd_ss0 p1 k + bkgd_ss0 p2 k)%Z.
Proof.
  unfold bkgd_ss0. rewrite cut_Tk, Zsum_app. f_equal; apply Zsum_ext; intros; [now apply (cut_Z1 C)|now apply (cut_Z2 C)].
Qed.
Lemma cut_bkgd1 k : bkgd_ss1 p k = bkgd_ss1 p1 k + bkgd_ss1 p2 k.
Proof. unfold bkgd_ss1. rewrite (cut_T C), plus_INR, (cut_dt1 C), (cut_dt2 C). ring. Qed.
Lemma cut_ir k1 k2 b : ir_ss p k1 k2 b = (ir_ss p1 k1 k2 b + ir_ss p2 k1 k2 b)%Z.
Proof.
  unfold ir_ss. rewrite cut_Tk, Zsum_app, (cut_B1 C), (cut_B2 C).
  f_equal; apply Zsum_ext; intros; [now apply (cut_Z1 C)|now apply (cut_Z2 C)].
Qed.
Lemma Zsum_plus n f g : Zsum n (fun i => (f i + g i)%Z) = (Zsum n f + Zsum n g)%Z.
Proof. induction n as [|n IH]; cbn; [reflexivity|]. rewrite IH. lia. Qed.
Lemma cut_weight0 k1 k2 : weight_ss0 p k1 k2 = (weight_ss0 p1 k1 k2 + weight_ss0 p2 k1 k2)%Z.
Proof.
  change (weight_ss0 p k1 k2) with (Zsum (pa_B p) (ir_ss p k1 k2)). change (weight_ss0 p1 k1 k2) with (Zsum (pa_B p1) (ir_ss p1 k1 k2)).
  change (weight_ss0 p2 k1 k2) with (Zsum (pa_B p2) (ir_ss p2 k1 k2)). rewrite (cut_B1 C), (cut_B2 C), <- Zsum_plus.
  apply Zsum_ext. intros. apply cut_ir.
Qed.
Lemma cut_weight1 k1 k2 : weight_ss1 p k1 k2 = (weight_ss1 p1 k1 k2 + weight_ss1 p2 k1 k2)%Z.
Proof. apply cut_Ns. Qed.
Lemma Rsum_Ns (w : vec) : Rsum (pa_K p) (fun k1 => w k1 * IZR (pa_Ns p k1))
  = Rsum (pa_K p1) (fun k1 => w k1 * IZR (pa_Ns p1 k1)) + Rsum (pa_K p2) (fun k1 => w k1 * IZR (pa_Ns p2 k1)).
Proof. rewrite (cut_K1 C), (cut_K2 C), <- Rsum_plus. apply Rsum_ext; intros. rewrite cut_Ns, plus_IZR. ring. Qed.
Lemma eadd4 a b c d e f : eadd (eadd (Fin (a + b)) (Fin (c + d))) (eadd e f) = eadd (eadd (eadd (Fin a) (Fin c)) e) (eadd (eadd (Fin b) (Fin d)) f).
Proof.
  rewrite !eadd_fin. replace (a + b + (c + d)) with ((a + c) + (b + d)) by ring. rewrite <- (eadd_fin (a + c) (b + d)).
  rewrite !eadd_assoc. f_equal. rewrite <- !eadd_assoc. f_equal. apply eadd_comm.
Qed.
Lemma cut_row_rate1 q k r : (r < pa_Tk p1 k)%nat -> row_rate p q k r = row_rate p1 q k r.
Proof. intros Hr. unfold row_rate. now rewrite (cut_K1 C), (cut_B1 C), cut_Fs1. Qed.
Lemma cut_row_rate2 q k r : (r < pa_Tk p2 k)%nat -> row_rate p q k (pa_Tk p1 k + r) = row_rate p2 q k r.
Proof. intros Hr. unfold row_rate. now rewrite (cut_K2 C), (cut_B2 C), cut_Fs2. Qed.
Lemma cut_ll q k : ll_single p q k = eadd (ll_single p1 q k) (ll_single p2 q k).
Proof.
  unfold ll_single. rewrite (Rsum_Ns (fun k1 => q_W q k1 k)), cut_Tk, esum_app, (cut_T C), plus_INR, (cut_dt1 C), (cut_dt2 C), Ropp_plus_distr.
  replace (- q_lam q k * (INR (pa_T p1) + INR (pa_T p2)) * pa_dt p)
    with (- q_lam q k * INR (pa_T p1) * pa_dt p + - q_lam q k * INR (pa_T p2) * pa_dt p) by ring.
  rewrite eadd4. f_equal; f_equal; apply esum_ext; intros r Hr.
  - now rewrite cut_Ss1, cut_row_rate1.
  - now rewrite cut_Ss2, cut_row_rate2.
Qed.
Lemma cut_par_ll dt lam W g k : par_ll_single p dt lam W g k = eadd (par_ll_single p1 dt lam W g k) (par_ll_single p2 dt lam W g k).
Proof.
  unfold par_ll_single. rewrite Rsum_Ns, cut_Tk, esum_app, (cut_T C), plus_INR, Ropp_plus_distr.
  replace (0 + - lam k * (INR (pa_T p1) + INR (pa_T p2)) * dt)
    with (0 + - lam k * INR (pa_T p1) * dt + (0 + - lam k * INR (pa_T p2) * dt)) by ring.
  rewrite eadd4. f_equal; f_equal; apply esum_ext; intros r Hr.
  - now rewrite cut_Ss1, cut_Fs1, (cut_K1 C), (cut_B1 C).
  - now rewrite cut_Ss2, cut_Fs2, (cut_K2 C), (cut_B2 C).
Qed.
End one.

(** The draws for the rows of the whole: those for the first part, then those for the second. *)
Definition join_mult (n1 : nat -> nat) (m1 m2 : mult_oracle) : mult_oracle :=
  fun k r n v c => if Nat.ltb r (n1 k) then m1 k r n v c else m2 k (r - n1 k)%nat n v c.

Lemma all_rows_cut p p1 p2 f f1 f2 : cut p p1 p2 ->
  (forall k r, (r < pa_Tk p1 k)%nat -> f k r = f1 k r) -> (forall k r, (r < pa_Tk p2 k)%nat -> f k (pa_Tk p1 k + r)%nat = f2 k r) ->
  all_rows p f = (all_rows p1 f1 && all_rows p2 f2)%bool.
Proof.
  intros C H1 H2. apply eq_true_iff_eq. rewrite andb_true_iff. unfold all_rows. rewrite !forall_lt_true. split.
  - intros H. split; intros k Hk; apply forall_lt_true; intros r Hr.
    + rewrite (cut_K1 C) in Hk. specialize (H k Hk). rewrite forall_lt_true in H. rewrite <- H1 by auto. apply H. rewrite (cut_Tk C). lia.
    + rewrite (cut_K2 C) in Hk. specialize (H k Hk). rewrite forall_lt_true in H. rewrite <- H2 by auto. apply H. rewrite (cut_Tk C). lia.
  - intros [A B] k Hk. apply forall_lt_true. intros r Hr. rewrite (cut_Tk C) in Hr.
    specialize (A k). rewrite (cut_K1 C), forall_lt_true in A. specialize (B k). rewrite (cut_K2 C), forall_lt_true in B.
    destruct (Nat.lt_ge_cases r (pa_Tk p1 k)) as [Hl|Hl].
    + rewrite H1 by auto. auto.
    + replace r with (pa_Tk p1 k + (r - pa_Tk p1 k))%nat by lia. rewrite H2 by lia. apply B; auto; lia.
Qed.
Lemma cut_set_Z p p1 p2 Z0 Z1 Z2 : cut p p1 p2 ->
  (forall k r c, (r < pa_Tk p1 k)%nat -> Z0 k r c = Z1 k r c) -> (forall k r c, (r < pa_Tk p2 k)%nat -> Z0 k (pa_Tk p1 k + r)%nat c = Z2 k r c) ->
  cut (set_Z p Z0) (set_Z p1 Z1) (set_Z p2 Z2).
Proof. intros C H1 H2. destruct C. constructor; cbn; auto. Qed.

Section resample.
Variables (p p1 p2 : parents) (q : params) (m1 m2 : mult_oracle).
Hypothesis C : cut p p1 p2.
Lemma pvec_py1 k r : (r < pa_Tk p1 k)%nat -> pvec_python p q k r = pvec_python p1 q k r.
Proof. intros Hr. apply functional_extensionality. intros [|i]; [reflexivity|]. cbn. now rewrite (cut_Fs1 C) by auto; rewrite (cut_B1 C). Qed.
Lemma pvec_py2 k r : (r < pa_Tk p2 k)%nat -> pvec_python p q k (pa_Tk p1 k + r) = pvec_python p2 q k r.
Proof. intros Hr. apply functional_extensionality. intros [|i]; [reflexivity|]. cbn. now rewrite (cut_Fs2 C) by auto; rewrite (cut_B2 C). Qed.
Lemma pvec_gsl1 k r : (r < pa_Tk p1 k)%nat -> pvec_gsl p q k r = pvec_gsl p1 q k r.
Proof. intros Hr. apply functional_extensionality. intros [|i]; [reflexivity|]. cbn. now rewrite (cut_Fs1 C) by auto; rewrite (cut_B1 C). Qed.
Lemma pvec_gsl2 k r : (r < pa_Tk p2 k)%nat -> pvec_gsl p q k (pa_Tk p1 k + r) = pvec_gsl p2 q k r.
Proof. intros Hr. apply functional_extensionality. intros [|i]; [reflexivity|]. cbn. now rewrite (cut_Fs2 C) by auto; rewrite (cut_B2 C). Qed.
Lemma join_1 k r n v c : (r < pa_Tk p1 k)%nat -> join_mult (pa_Tk p1) m1 m2 k r n v c = m1 k r n v c.
Proof. intros H. unfold join_mult. now rewrite (proj2 (Nat.ltb_lt _ _) H). Qed.
Lemma join_2 k r n v c : join_mult (pa_Tk p1) m1 m2 k (pa_Tk p1 k + r)%nat n v c = m2 k r n v c.
Proof. unfold join_mult. rewrite (proj2 (Nat.ltb_ge _ _)) by lia. f_equal. lia. Qed.

(** Attributing the events of the whole is attributing those of the parts, with the same draws. *)
Lemma cut_resample gsl :
  (forall p1' p2', pa_resample gsl m1 p1 q = Ok p1' -> pa_resample gsl m2 p2 q = Ok p2' ->
     exists p', pa_resample gsl (join_mult (pa_Tk p1) m1 m2) p q = Ok p' /\ cut p' p1' p2' /\ pa_Tk p1' = pa_Tk p1) /\
  ((exists p', pa_resample gsl (join_mult (pa_Tk p1) m1 m2) p q = Ok p') ->
     exists p1' p2', pa_resample gsl m1 p1 q = Ok p1' /\ pa_resample gsl m2 p2 q = Ok p2').
Proof.
  destruct gsl; cbn [pa_resample].
  - unfold resample_Z_gsl.
    rewrite (@all_rows_cut p p1 p2 _ (fun k r => negb (Reqb (Rsum (1 + pa_K p1 * pa_B p1) (pvec_gsl p1 q k r)) 0))
      (fun k r => negb (Reqb (Rsum (1 + pa_K p2 * pa_B p2) (pvec_gsl p2 q k r)) 0)) C).
    2:{ intros k r Hr. rewrite pvec_gsl1 by auto. now rewrite (cut_K1 C), (cut_B1 C). }
    2:{ intros k r Hr. rewrite pvec_gsl2 by auto. now rewrite (cut_K2 C), (cut_B2 C). }
    destruct (all_rows p1 _), (all_rows p2 _); cbn [andb negb]; split; try discriminate; try (intros (p' & H); discriminate); eauto.
    intros p1' p2' [= <-] [= <-]. eexists; split; [reflexivity|]. split; [|reflexivity]. apply cut_set_Z; [exact C| |]; intros k r c Hr; unfold request_gsl, request_python; cbv beta iota.
    + f_equal. rewrite join_1 by auto. rewrite (cut_Ss1 C) by auto. now rewrite pvec_gsl1, (cut_K1 C), (cut_B1 C).
    + f_equal. rewrite join_2. rewrite (cut_Ss2 C) by auto. now rewrite pvec_gsl2, (cut_K2 C), (cut_B2 C).
  - unfold resample_Z_python.
    rewrite (@all_rows_cut p p1 p2 _ (fun k r => Z.ltb 0 (pa_Ss p1 k r)) (fun k r => Z.ltb 0 (pa_Ss p2 k r)) C).
    2:{ intros k r Hr. now rewrite (cut_Ss1 C). }
    2:{ intros k r Hr. now rewrite (cut_Ss2 C). }
    rewrite (@all_rows_cut p p1 p2 _ (fun k r => negb (Reqb (Rsum (1 + pa_K p1 * pa_B p1) (pvec_python p1 q k r)) 0))
      (fun k r => negb (Reqb (Rsum (1 + pa_K p2 * pa_B p2) (pvec_python p2 q k r)) 0)) C).
    2:{ intros k r Hr. rewrite pvec_py1 by auto. now rewrite (cut_K1 C), (cut_B1 C). }
    2:{ intros k r Hr. rewrite pvec_py2 by auto. now rewrite (cut_K2 C), (cut_B2 C). }
    destruct (all_rows p1 (fun k r => Z.ltb 0 (pa_Ss p1 k r))), (all_rows p2 (fun k r => Z.ltb 0 (pa_Ss p2 k r)));
    destruct (all_rows p1 _), (all_rows p2 _); cbn [andb negb]; split; try discriminate; try (intros (p' & H); discriminate); eauto.
    intros p1' p2' [= <-] [= <-]. eexists; split; [reflexivity|]. split; [|reflexivity]. apply cut_set_Z; [exact C| |]; intros k r c Hr; unfold request_gsl, request_python; cbv beta iota.
    + f_equal. rewrite join_1 by auto. rewrite (cut_Ss1 C) by auto. now rewrite pvec_py1, (cut_K1 C), (cut_B1 C).
    + f_equal. rewrite join_2. rewrite (cut_Ss2 C) by auto. now rewrite pvec_py2, (cut_K2 C), (cut_B2 C).
Qed.
End resample.

(* ------------------------------------------------------------------ *)
(** ** Everything after the parents reads sums over the recordings *)
Definition reads_alike (l l' : list parents) : Prop :=
  (forall k, pool (fun d => IZR (bkgd_ss0 d k)) l = pool (fun d => IZR (bkgd_ss0 d k)) l') /\
  (forall k, pool (fun d => bkgd_ss1 d k) l = pool (fun d => bkgd_ss1 d k) l') /\
  (forall k1 k2, pool (fun d => IZR (weight_ss0 d k1 k2)) l = pool (fun d => IZR (weight_ss0 d k1 k2)) l') /\
  (forall k1 k2, pool (fun d => IZR (weight_ss1 d k1 k2)) l = pool (fun d => IZR (weight_ss1 d k1 k2)) l') /\
  (forall k1 k2 b, pool (fun d => IZR (ir_ss d k1 k2 b)) l = pool (fun d => IZR (ir_ss d k1 k2 b)) l') /\
  (forall m, data_ll m l = data_ll m l') /\ (forall m, par_ll m l = par_ll m l') /\ (l = [] <-> l' = []).

Lemma pool_cut (f : parents -> R) p p1 p2 pre post : f p = f p1 + f p2 -> pool f (pre ++ p :: post) = pool f (pre ++ p1 :: p2 :: post).
Proof. intros H. rewrite !pool_lsum, !map_app, !lsum_app. cbn [map lsum]. rewrite H. ring. Qed.
Lemma fold_cut (f : parents -> er) p p1 p2 pre post a : f p = eadd (f p1) (f p2) ->
  fold_left (fun s d => eadd s (f d)) (pre ++ p :: post) a = fold_left (fun s d => eadd s (f d)) (pre ++ p1 :: p2 :: post) a.
Proof. intros H. rewrite !fold_eadd_elsum, !map_app, !elsum_app. cbn [map elsum]. now rewrite H, !eadd_assoc. Qed.
Lemma reads_cut p p1 p2 pre post : cut p p1 p2 -> reads_alike (pre ++ p :: post) (pre ++ p1 :: p2 :: post).
Proof.
  intros C. repeat split; intros.
  - apply pool_cut. now rewrite (cut_bkgd0 C), plus_IZR.
  - apply pool_cut. apply (cut_bkgd1 C).
  - apply pool_cut. now rewrite (cut_weight0 C), plus_IZR.
  - apply pool_cut. now rewrite (cut_weight1 C), plus_IZR.
  - apply pool_cut. now rewrite (cut_ir C), plus_IZR.
  - unfold data_ll. do 2 (apply functional_extensionality; intros ?). apply fold_cut. apply (cut_ll C).
  - unfold par_ll. do 2 (apply functional_extensionality; intros ?). apply fold_cut. apply (cut_par_ll C).
  - destruct pre; discriminate.
  - destruct pre; discriminate.
Qed.

Section reads.
Variables l l' : list parents.
Hypothesis P : reads_alike l l'.
Let P1 := proj1 P.
Let P2 := proj1 (proj2 P).
Let P3 := proj1 (proj2 (proj2 P)).
Let P4 := proj1 (proj2 (proj2 (proj2 P))).
Let P5 := proj1 (proj2 (proj2 (proj2 (proj2 P)))).
Let P6 := proj1 (proj2 (proj2 (proj2 (proj2 (proj2 P))))).
Let P7 := proj1 (proj2 (proj2 (proj2 (proj2 (proj2 (proj2 P)))))).
Let P8 := proj2 (proj2 (proj2 (proj2 (proj2 (proj2 (proj2 P)))))).
Lemma bias_reads g a b : bias_resample g a b l = bias_resample g a b l'.
Proof. apply functional_extensionality. intros k. unfold bias_resample, bias_request. now rewrite (P1 k), (P2 k). Qed.
Lemma ir_reads dr gamma : ir_resample dr gamma l = ir_resample dr gamma l'.
Proof.
  unfold ir_resample. do 2 (apply functional_extensionality; intros ?). apply functional_extensionality. intros b.
  f_equal. unfold ir_request. apply functional_extensionality. intros c. now rewrite P5.
Qed.
Lemma ssW_reads g n A : ss_W_resample g n A l = ss_W_resample g n A l'.
Proof. unfold ss_W_resample, ss_W_request. do 2 (apply functional_extensionality; intros ?). now rewrite P3, P4. Qed.
Lemma mix_ss_reads i j : mix_ss l i j = mix_ss l' i j.
Proof. unfold mix_ss. now rewrite P3, P4. Qed.
Lemma mixA_reads lgam k0 n0 n u : mix_resample_A lgam k0 n0 n u l = mix_resample_A lgam k0 n0 n u l'.
Proof. unfold mix_resample_A. do 2 (apply functional_extensionality; intros ?). now rewrite mix_ss_reads. Qed.
Lemma mixW_reads g k0 n0 n A : mix_W_resample g k0 n0 n A l = mix_W_resample g k0 n0 n A l'.
Proof. unfold mix_W_resample, mix_W_request. do 2 (apply functional_extensionality; intros ?). now rewrite mix_ss_reads. Qed.
Lemma Apar_reads order m n u : resample_A_parallel order m n u l = resample_A_parallel order m n u l'.
Proof.
  destruct l as [|d x] eqn:El.
  - now rewrite (proj1 P8 eq_refl).
  - destruct l' as [|d' x'] eqn:El'; [discriminate (proj2 P8 eq_refl)|]. unfold resample_A_parallel. now rewrite P7.
Qed.
Lemma Aser_reads m n u : resample_A_serial m n u l = resample_A_serial m n u l'.
Proof. unfold resample_A_serial. now rewrite P6. Qed.
Lemma ss_resample_reads par order g u n m :
  ss_resample par order g u n (with_data m l') = with_data (ss_resample par order g u n (with_data m l)) l'.
Proof.
  unfold ss_resample. cbn [dm_data dm_A with_data with_A with_W]. rewrite (ssW_reads g n (dm_A m)).
  set (W := ss_W_resample _ _ _ _).
  change (with_data (with_A ?x ?y) l') with (with_A (with_data x l') y). change (with_data (with_W (with_data m l) W) l') with (with_W (with_data m l') W).
  f_equal. destruct par; [rewrite Apar_reads|rewrite Aser_reads]; reflexivity.
Qed.
Lemma mix_resample_reads lgam k0 n0 g u n m :
  mix_resample lgam k0 n0 g u n (with_data m l') = with_data (mix_resample lgam k0 n0 g u n (with_data m l)) l'.
Proof. unfold mix_resample. cbn [dm_data with_data]. rewrite mixA_reads, mixW_reads. reflexivity. Qed.
End reads.

(** The draws of a sweep over the parts, handed to the whole: recording number [i] is the whole, [i] and [i+1] the parts; [n1 k]
    bins of the first part have events of process k. *)
Definition join_draws (i : nat) (n1 : nat -> nat) (d : sweep_draws) : sweep_draws :=
  {| sd_mult := fun j => if Nat.ltb j i then sd_mult d j else if Nat.eqb j i then join_mult n1 (sd_mult d i) (sd_mult d (S i)) else sd_mult d (S j);
     sd_bias := sd_bias d; sd_ir := sd_ir d; sd_net := sd_net d; sd_er := sd_er d; sd_W := sd_W d; sd_u := sd_u d; sd_order := sd_order d |}.
Lemma finish_reads lgam rn d i n1 st l0 l l' : reads_alike l l' ->
  finish lgam rn d (gi_with_data st l0) l' = gi_with_data (finish lgam rn (join_draws i n1 d) st l) l'.
Proof.
  intros P. unfold finish. cbn [gi_with_data gi_m gi_h gi_net dm_mix with_data join_draws sd_bias sd_ir sd_net sd_er sd_W sd_u sd_order].
  rewrite <- (bias_reads P (sd_bias d) (h_alpha (gi_h st)) (h_beta (gi_h st))), <- (ir_reads P (sd_ir d) (h_gamma (gi_h st))).
  set (lam := bias_resample _ _ _ _). set (g := ir_resample _ _ _).
  change (with_g (with_lam (with_data (with_data (gi_m st) l0) l') lam) g) with (with_data (with_g (with_lam (gi_m st) lam) g) l').
  change (with_g (with_lam (with_data (gi_m st) l) lam) g) with (with_data (with_g (with_lam (gi_m st) lam) g) l).
  destruct (dm_mix (gi_m st)).
  - rewrite (mix_resample_reads P lgam _ _ (sd_W d) (sd_u d) (net_view (gi_net st)) _). reflexivity.
  - cbn [dm_A dm_W with_data].
    rewrite (ss_resample_reads P (h_parallel (gi_h st)) (sd_order d) (sd_W d) (sd_u d) _ _). reflexivity.
Qed.

Lemma mapi_app {A B} (f : nat -> A -> result B) l1 : forall i l2,
  mapi f i (l1 ++ l2) = do a <- mapi f i l1 ;; do b <- mapi f (i + length l1) l2 ;; Ok (a ++ b).
Proof.
  induction l1 as [|x l1 IH]; intros i l2; cbn [mapi app length].
  - cbn [bindr]. rewrite Nat.add_0_r. destruct (mapi f i l2); reflexivity.
  - destruct (f i x); [|reflexivity]. cbn [bindr]. rewrite IH. rewrite <- plus_n_Sm. cbn [Nat.add].
    destruct (mapi f (S i) l1); [|reflexivity]. cbn [bindr]. destruct (mapi f (S (i + length l1)) l2); reflexivity.
Qed.
Lemma mapi_ext {A B} (f f' : nat -> A -> result B) l : forall i i',
  (forall j x, (j < length l)%nat -> f (i + j)%nat x = f' (i' + j)%nat x) -> mapi f i l = mapi f' i' l.
Proof.
  induction l as [|x l IH]; intros i i' H; cbn [mapi]; [reflexivity|].
  assert (H0 := H 0%nat x). rewrite !Nat.add_0_r in H0. rewrite H0 by (cbn; lia). rewrite (IH (S i) (S i')); [reflexivity|].
  intros j y Hj. rewrite !Nat.add_succ_comm. apply H. cbn. lia.
Qed.

(** [st'] holds the parts [p1], [p2] where [st] holds the whole; everything else is the same. *)
Definition cut_at (i : nat) (n1 : nat -> nat) (st st' : gibbs) : Prop :=
  exists pre post p p1 p2, length pre = i /\ cut p p1 p2 /\ pa_Tk p1 = n1 /\
    dm_data (gi_m st) = pre ++ p :: post /\ st' = gi_with_data st (pre ++ p1 :: p2 :: post).
Lemma sweep_cut lgam rn d i n1 st st' : cut_at i n1 st st' ->
  (forall st1', sweep lgam rn d st' = Ok st1' -> exists st1, sweep lgam rn (join_draws i n1 d) st = Ok st1 /\ cut_at i n1 st1 st1') /\
  ((exists st1, sweep lgam rn (join_draws i n1 d) st = Ok st1) -> exists st1', sweep lgam rn d st' = Ok st1').
Proof.
  intros (pre & post & p & p1 & p2 & Hi & C & Hn & E & ->).
  set (q := params_of (gi_m st)). set (gsl := h_gsl (gi_h st)).
  set (f' := fun j x => pa_resample gsl (sd_mult d j) x q).
  set (f := fun j x => pa_resample gsl (sd_mult (join_draws i n1 d) j) x q).
  assert (E1 : mapi f 0 pre = mapi f' 0 pre).
  { apply mapi_ext. intros j x Hj. unfold f, f'. cbn [Nat.add join_draws sd_mult]. now rewrite (proj2 (Nat.ltb_lt _ _)) by lia. }
  assert (E2 : mapi f (S i) post = mapi f' (S (S i)) post).
  { apply mapi_ext. intros j x Hj. unfold f, f'. cbn [join_draws sd_mult]. rewrite (proj2 (Nat.ltb_ge _ _)) by lia.
    now rewrite (proj2 (Nat.eqb_neq _ _)) by lia. }
  assert (E3 : forall x, f i x = pa_resample gsl (join_mult n1 (sd_mult d i) (sd_mult d (S i))) x q).
  { intros x. unfold f. cbn [join_draws sd_mult]. now rewrite Nat.ltb_irrefl, Nat.eqb_refl. }
  assert (M : forall l, mapi f 0 (pre ++ p :: l) = do a <- mapi f' 0 pre ;; do y <- f i p ;; do b <- mapi f (S i) l ;; Ok (a ++ y :: b)).
  { intros l. rewrite mapi_app, E1. destruct (mapi f' 0 pre); [|reflexivity]. cbn [bindr mapi Nat.add]. rewrite Hi.
    destruct (f i p); [|reflexivity]. cbn [bindr]. destruct (mapi f (S i) l); reflexivity. }
  assert (M' : mapi f' 0 (pre ++ p1 :: p2 :: post) = do a <- mapi f' 0 pre ;; do y1 <- f' i p1 ;; do y2 <- f' (S i) p2 ;;
     do b <- mapi f' (S (S i)) post ;; Ok (a ++ y1 :: y2 :: b)).
  { rewrite mapi_app. destruct (mapi f' 0 pre); [|reflexivity]. cbn [bindr mapi Nat.add]. rewrite Hi.
    destruct (f' i p1); [|reflexivity]. cbn [bindr]. destruct (f' (S i) p2); [|reflexivity]. cbn [bindr].
    destruct (mapi f' (S (S i)) post); reflexivity. }
  destruct (@cut_resample p p1 p2 q (sd_mult d i) (sd_mult d (S i)) C gsl) as [R1 R2]. rewrite Hn in R1, R2.
  rewrite !sweep_finish. cbn [gi_with_data gi_h gi_m with_data dm_data]. rewrite E.
  change (params_of (with_data (gi_m st) (pre ++ p1 :: p2 :: post))) with q. fold q gsl. fold f f'. rewrite M, M', E2, E3. split.
  - intros st1' H. apply bindr_ok in H as (out & H & [= <-]). apply bindr_ok in H as (a & Ea & H). apply bindr_ok in H as (y1 & Ey1 & H).
    apply bindr_ok in H as (y2 & Ey2 & H). apply bindr_ok in H as (b & Eb & [= <-]).
    destruct (R1 y1 y2 Ey1 Ey2) as (y & Ey & Cy & Hy). rewrite Ea, Eb. cbn [bindr]. rewrite Ey. cbn [bindr].
    eexists; split; [reflexivity|]. exists a, b, y, y1, y2.
    split. { rewrite <- Hi. apply mapi_spec in Ea. apply Ea. }
    split; [exact Cy|]. split; [now rewrite Hy|]. split; [now rewrite finish_data|].
    apply finish_reads. now apply reads_cut.
  - intros [st1 H]. apply bindr_ok in H as (out & H & _). apply bindr_ok in H as (a & Ea & H). apply bindr_ok in H as (y & Ey & H).
    apply bindr_ok in H as (b & Eb & _). destruct R2 as (y1 & y2 & Ey1 & Ey2); [eauto|].
    rewrite Ea, Eb. cbn [bindr]. unfold f'. rewrite Ey1. cbn [bindr]. rewrite Ey2. cbn [bindr]. eauto.
Qed.

Definition join_op (i : nat) (n1 : nat -> nat) (o : gop) : gop :=
  match o with GSweep rn d => GSweep rn (join_draws i n1 d) | GAdd a f mb => GAdd a f mb end.
(** A sampler given the parts and one given the whole, with the same random numbers for the same bins, go through the same values of
    every parameter, whatever is added and sampled later, and attribute the events of each bin to the same parents. *)
Theorem C137_gibbs_histories : forall lgam i n1 h st st', cut_at i n1 st st' ->
  cut_at i n1 (grun lgam (map (join_op i n1) h) st) (grun lgam h st').
Proof.
  intros lgam i n1 h. induction h as [|o h IH]; intros st st' Hs; [exact Hs|]. cbn [map grun].
  destruct o as [a f mb | rn d]; cbn [join_op gstep].
  - destruct (@add_data_frame (gi_m st) a f mb) as (ps & r & Hf). destruct Hs as (pre & post & p & p1 & p2 & Hi & C & Hn & E & ->).
    cbn [gi_with_data gi_m].
    assert (E0 : add_data_st (gi_m st) a f mb = (r, with_data (gi_m st) (dm_data (gi_m st) ++ ps))).
    { rewrite <- Hf. f_equal. destruct st as [[] ? ?]. reflexivity. }
    rewrite E0, Hf. cbn [snd]. apply IH. exists pre, (post ++ ps), p, p1, p2. repeat (split; [assumption|]).
    split; [cbn; now rewrite E, <- app_assoc|]. cbn. unfold with_model, gi_with_data. cbn. now rewrite <- app_assoc.
  - destruct (@sweep_cut lgam rn d i n1 st st' Hs) as [H1 H2].
    destruct (sweep lgam rn d st') as [st1'|e] eqn:E1.
    + destruct (H1 st1' eq_refl) as (st1 & -> & Hs1). cbn [snd]. now apply IH.
    + destruct (sweep lgam rn (join_draws i n1 d) st) as [st1|e'] eqn:E2; cbn [snd]; [|now apply IH].
      destruct H2 as (st1' & H2); [eauto|]. discriminate.
Qed.
Print Assumptions C137_gibbs_histories.

Lemma convolve_same T1 T2 K S1 S2 L B bas F1 F2 t1 t2 :
  (forall t k, (t < T1)%nat -> (k < K)%nat -> (0 <= S1 t k)%Z) -> (forall t k, (t < T2)%nat -> (k < K)%nat -> (0 <= S2 t k)%Z) ->
  convolve_with_basis T1 K S1 L B bas = Ok F1 -> convolve_with_basis T2 K S2 L B bas = Ok F2 ->
  (t1 < T1)%nat -> (t2 < T2)%nat ->
  (forall k b, causal_conv L bas S1 t1 k b = causal_conv L bas S2 t2 k b) -> forall k b, F1 t1 k b = F2 t2 k b.
Proof.
  intros H1 H2 E1 E2 Ht1 Ht2 H k b. unfold convolve_with_basis in E1, E2.
  destruct (Nat.eqb L 0 || Nat.eqb B 0 || Nat.eqb T1 0 || Nat.eqb K 0)%bool; [discriminate|].
  destruct (Nat.eqb L 0 || Nat.eqb B 0 || Nat.eqb T2 0 || Nat.eqb K 0)%bool; [discriminate|].
  assert (N1 : forall_lt T1 (fun t => forall_lt K (fun k => Z.leb 0 (S1 t k))) = true).
  { apply forall_lt_true; intros t Ht. apply forall_lt_true; intros j Hj. apply Z.leb_le; auto. }
  assert (N2 : forall_lt T2 (fun t => forall_lt K (fun k => Z.leb 0 (S2 t k))) = true).
  { apply forall_lt_true; intros t Ht. apply forall_lt_true; intros j Hj. apply Z.leb_le; auto. }
  rewrite N1 in E1. rewrite N2 in E2.
  assert (V : conv_full T1 L (fun s => IZR (S1 s k)) (fun l => bas l b) t1 = conv_full T2 L (fun s => IZR (S2 s k)) (fun l => bas l b) t2).
  { rewrite !conv_full_causal by auto. apply H. }
  destruct (forall_lt L (fun l => forall_lt B (fun b => Rleb 0 (bas l b)))); cbn [andb] in E1, E2.
  - destruct (forall_lt T1 _) in E1; [|discriminate]. destruct (forall_lt T2 _) in E2; [|discriminate].
    injection E1 as <-. injection E2 as <-. now rewrite V.
  - injection E1 as <-. injection E2 as <-. exact V.
Qed.

(** Adding a recording, or its two parts, to a sampler in any state: from then on, for every history of further additions and sweeps
    with the same random numbers, background rates, weights, adjacency, impulse responses, network and hyperparameters agree. *)
Theorem C137_gibbs_same_chain : forall st T1 T2 S1 S2,
  let m := gi_m st in
  proper_dims m -> (0 < T1)%nat -> (0 < T2)%nat -> counts T1 (dm_K m) S1 -> counts T2 (dm_K m) S2 ->
  (forall K, quiet_end T1 (dm_L m) K S1) ->
  exists n1 : nat -> nat,
    (forall k, n1 k = length (filter (fun t => negb (Z.eqb (S1 t k) 0)) (seq 0 T1))) /\
  forall lgam h,
    let whole := grun lgam (GAdd (sval_of (T1 + T2) (dm_K m) (glue T1 S1 S2)) None None :: map (join_op (length (dm_data m)) n1) h) st in
    let parts := grun lgam (GAdd (sval_of T1 (dm_K m) S1) None None :: GAdd (sval_of T2 (dm_K m) S2) None None :: h) st in
    dm_lam (gi_m parts) = dm_lam (gi_m whole) /\ dm_W (gi_m parts) = dm_W (gi_m whole) /\ dm_A (gi_m parts) = dm_A (gi_m whole) /\
    dm_g (gi_m parts) = dm_g (gi_m whole) /\ gi_net parts = gi_net whole /\ gi_h parts = gi_h whole /\
    cut_at (length (dm_data m)) n1 whole parts.
Proof.
  intros st T1 T2 S1 S2 m (HK & HB & HL) H1 H2 C1 C2 Hq.
  assert (Cg : counts (T1 + T2) (dm_K m) (glue T1 S1 S2)).
  { intros t k Ht Hk. unfold glue. destruct (Nat.ltb_spec t T1); [apply C1|apply C2]; auto; lia. }
  destruct (@convolve_ok (T1 + T2) (dm_K m) (glue T1 S1 S2) (dm_L m) (dm_B m) (dm_bas m)) as (F & E); try lia.
  destruct (@convolve_ok T1 (dm_K m) S1 (dm_L m) (dm_B m) (dm_bas m)) as (F1 & E1); try lia.
  destruct (@convolve_ok T2 (dm_K m) S2 (dm_L m) (dm_B m) (dm_bas m)) as (F2 & E2); try lia.
  set (p := mk_parents (dm_K m) (dm_B m) (dm_dt m) (T1 + T2) (glue T1 S1 S2) F).
  set (p1 := mk_parents (dm_K m) (dm_B m) (dm_dt m) T1 S1 F1).
  set (p2 := mk_parents (dm_K m) (dm_B m) (dm_dt m) T2 S2 F2).
  assert (C : cut p p1 p2).
  { constructor; try reflexivity; cbn [p p1 p2 mk_parents pa_T pa_S pa_F]; intros t k; intros.
    - now apply glue_l.
    - apply glue_r.
    - eapply (@convolve_same (T1 + T2) T1); eauto; try lia. intros. now apply conv_glue_l.
    - eapply (@convolve_same (T1 + T2) T2); eauto; try lia. intros k0 b0. apply (@conv_glue_r T1 (dm_L m) (S k0)); [apply Hq|lia]. }
  assert (A : forall m0 T S_ F0, dm_K m0 = dm_K m -> dm_B m0 = dm_B m -> dm_dt m0 = dm_dt m -> dm_L m0 = dm_L m -> dm_bas m0 = dm_bas m ->
     (0 < T)%nat -> counts T (dm_K m) S_ -> convolve_with_basis T (dm_K m) S_ (dm_L m) (dm_B m) (dm_bas m) = Ok F0 ->
     snd (add_data_st m0 (sval_of T (dm_K m) S_) None None) = with_data m0 (dm_data m0 ++ [mk_parents (dm_K m) (dm_B m) (dm_dt m) T S_ F0])).
  { intros m0 T S_ F0 EK EB Ed EL Ebas HT Hc HF. unfold add_data_st. rewrite EK.
    rewrite (proj2 (check_S_ok (dm_K m) (sval_of T (dm_K m) S_) T)) by (repeat split; auto).
    cbn [get_F sv_at sval_of]. rewrite EK, EL, EB, Ebas, HF. cbn [snd]. unfold append_data. now rewrite ?EK, ?EB, ?Ed. }
  exists (pa_Tk p1). split; [reflexivity|]. intros lgam h. cbv zeta.
  assert (G : cut_at (length (dm_data m)) (pa_Tk p1)
     (snd (gstep lgam (GAdd (sval_of (T1 + T2) (dm_K m) (glue T1 S1 S2)) None None) st))
     (snd (gstep lgam (GAdd (sval_of T2 (dm_K m) S2) None None) (snd (gstep lgam (GAdd (sval_of T1 (dm_K m) S1) None None) st))))).
  { exists (dm_data m), [], p, p1, p2. split; [reflexivity|]. split; [exact C|]. split; [reflexivity|].
    cbn [gstep]. fold m.
    pose proof (@A m (T1 + T2)%nat (glue T1 S1 S2) F eq_refl eq_refl eq_refl eq_refl eq_refl ltac:(lia) Cg E) as W0.
    pose proof (@A m T1 S1 F1 eq_refl eq_refl eq_refl eq_refl eq_refl H1 C1 E1) as W1.
    destruct (add_data_st m (sval_of (T1 + T2) (dm_K m) (glue T1 S1 S2)) None None) as [r0 m0]. cbn [snd] in W0. subst m0.
    destruct (add_data_st m (sval_of T1 (dm_K m) S1) None None) as [r1 m1]. cbn [snd] in W1. subst m1.
    cbn [snd with_model gi_m]. fold p1 p.
    pose proof (@A (with_data m (dm_data m ++ [p1])) T2 S2 F2 eq_refl eq_refl eq_refl eq_refl eq_refl H2 C2 E2) as W2.
    destruct (add_data_st (with_data m (dm_data m ++ [p1])) (sval_of T2 (dm_K m) S2) None None) as [r2 m2]. cbn [snd] in W2. subst m2.
    cbn [snd with_model gi_m dm_data with_data]. fold p2. split; [reflexivity|].
    unfold gi_with_data, with_model. cbn [gi_m gi_net gi_h dm_data with_data]. rewrite <- app_assoc. reflexivity. }
  assert (H := @C137_gibbs_histories lgam (length (dm_data m)) (pa_Tk p1) h _ _ G). cbn [grun].
  remember (grun lgam (map _ h) _) as whole eqn:Ew. clear Ew. remember (grun lgam h _) as parts eqn:Ep. clear Ep.
  assert (H' := H). destruct H' as (pre & post & x & x1 & x2 & _ & _ & _ & _ & ->). cbn. repeat (split; [reflexivity|]). exact H.
Qed.
Print Assumptions C137_gibbs_same_chain.

(** The hypotheses concern the model only, so any network object and hyperparameters will do. *)
Example C137_chain_nonvacuous : forall net h, let st := {| gi_m := ex_m; gi_net := net; gi_h := h |} in
  proper_dims (gi_m st) /\ counts 2 (dm_K (gi_m st)) ex_S /\ counts 1 (dm_K (gi_m st)) ex_S /\
  (forall K, quiet_end 2 (dm_L (gi_m st)) K ex_S) /\ ex_S 0%nat 0%nat = 2%Z.
Proof.
  intros net h st. cbn [gi_m st]. destruct C137_nonvacuous as (A & B & C & _ & E & _).
  split; [exact A|]. split; [exact B|]. split; [exact C|]. split; [|exact E].
  intros K t k Ht HL _. cbn in HL. replace t with 1%nat by lia. unfold ex_S. cbn. reflexivity.
Qed.
