(** * Props_CtBuffers: reusing the arrays of a continuous-time data set (C113, continuous-time part). *)
From Coq Require Import Permutation FunctionalExtensionality.
From Verif Require Import Prelude ExtReal Arrays Spec_Gibbs Spec_Continuous M_Basis M_Parents M_Discrete M_Gibbs M_Dist M_Network M_Sweep
  L_Gibbs Props_Network M_Continuous L_Continuous Props_Continuous M_Buffers M_CtBuffers.
Set Implicit Arguments.
Open Scope R_scope.

(** Right after add_data the live data set is the one of the value-level model. *)
Theorem C113_ct_add : forall h m s c T f m', ct_add_data m (tval_in h s) (ival_in h c) T f = Ok m' ->
  exists N, tr_dims s = [N] /\ m' = cm_with_data m (cm_data m ++ [ctdata_in h (mk_ctlive h N s c T)]).
Proof.
  intros h m s c T f m' E. unfold ct_add_data in E.
  apply bindr_ok in E as (? & _ & E). apply bindr_ok in E as (N & EN & E). apply bindr_ok in E as (? & _ & E).
  apply bindr_ok in E as (? & _ & E). apply bindr_ok in E as (? & _ & E). apply bindr_ok in E as (? & _ & E).
  apply bindr_ok in E as (? & G & E). apply bindr_ok in E as (? & _ & E). apply bindr_ok in E as (? & _ & E).
  exists N. cbn in EN, G. destruct (tr_dims s) as [|n [|? ?]]; try discriminate. cbn in EN. injection EN as ->.
  split; [reflexivity|]. match type of E with Ok ?a = Ok ?b => assert (Q : a = b) by congruence; rewrite <- Q end. reflexivity.
Qed.

(** The stored counts agree with the labels now in the array. *)
Definition counts_agree (h : ctmem) (m : ctmodel) (d : ctlive) : Prop :=
  forall k, (k < cm_K m)%nat -> cl_Ns d k = ct_Ns (cl_N d) (live_C h d) k.

Lemma Ns_agree_guard : forall h m d (x : nat -> R), counts_agree h m d ->
  forall_lt (cm_K m) (fun k => Reqb (x k) (IZR (cl_Ns d k))) =
  forall_lt (cm_K m) (fun k => Reqb (x k) (IZR (ct_Ns (cl_N d) (live_C h d) k))).
Proof.
  intros h m d x A. assert (G : forall l, (forall k, In k l -> (k < cm_K m)%nat) ->
    forallb (fun k => Reqb (x k) (IZR (cl_Ns d k))) l = forallb (fun k => Reqb (x k) (IZR (ct_Ns (cl_N d) (live_C h d) k))) l).
  { induction l as [|k l IH]; intro L; [reflexivity|]. cbn [forallb]. rewrite (A k) by (apply L; left; reflexivity).
    rewrite IH; [reflexivity|]. intros j I. apply L. right. exact I. }
  unfold forall_lt. apply G. intros k I. apply in_seq in I. lia.
Qed.

(** The parent update when the arrays have been overwritten: if the new labels happen to have the same counts, it is the
    update on the new contents; if the count of any process differs, it does not return, whatever is drawn. *)
Theorem C113_ct_resample : forall h m order u d,
  (counts_agree h m d ->
     match ctlive_resample h m order u d, ct_parents_resample m order u (ctdata_in h d) with
     | Ok d1, Ok d2 => ctdata_in h d1 = d2
     | Raise x, Raise y => x = y
     | _, _ => False
     end) /\
  ((forall n, (n < cl_N d)%nat -> (live_C h d n < cm_K m)%nat) -> ~ counts_agree h m d ->
     exists e, ctlive_resample h m order u d = Raise e).
Proof.
  intros h m order u d. split.
  - intro A. unfold ctlive_resample, ct_parents_resample. cbn [ctdata_in cd_S cd_C cd_N cd_Z].
    destruct (ct_resample_Z order (t_times h (cl_S d)) (live_C h d) (cm_dtmax m) (cm_lam m) (ct_W_effective m) (cm_mu m) (cm_tau m) u (cl_Z d))
      as [z|x]; cbn [bindr]; [|reflexivity].
    destruct (guard (forall_lt (cl_N d) (fun n => (-2 <? z n)%Z)) AssertionError); cbn [bindr]; [|reflexivity].
    destruct (guard (forall_lt (cl_N d) (fun n => (z n <? Z.of_nat n)%Z)) AssertionError); cbn [bindr]; [|reflexivity].
    destruct (ct_suff_stats (cl_N d) (t_times h (cl_S d)) (live_C h d) z (cm_dtmax m)) as [[[bk ws] im]|x]; cbn [bindr]; [|reflexivity].
    unfold cd_Ns. cbn [cd_N cd_C]. rewrite (@Ns_agree_guard h m d (fun k => bk k + Rsum (cm_K m) (fun k1 => ws k1 k)) A).
    destruct (guard _ AssertionError); cbn [bindr]; reflexivity.
  - intros L NA. destruct (ctlive_resample h m order u d) as [d'|e] eqn:E; [|exists e; reflexivity]. exfalso. apply NA.
    unfold ctlive_resample in E.
    apply bindr_ok in E as (z & _ & E). apply bindr_ok in E as (? & G1 & E). apply bindr_ok in E as (? & G2 & E).
    apply bindr_ok in E as ([[bk ws] im] & SS & E). apply bindr_ok in E as (? & G3 & _).
    unfold guard in G1, G2, G3.
    destruct (forall_lt (cl_N d) (fun n => (-2 <? z n)%Z)) eqn:E1; [|discriminate].
    destruct (forall_lt (cl_N d) (fun n => (z n <? Z.of_nat n)%Z)) eqn:E2; [|discriminate].
    destruct (forall_lt (cm_K m) (fun k => Reqb (bk k + Rsum (cm_K m) (fun k1 => ws k1 k)) (IZR (cl_Ns d k)))) eqn:E3; [|discriminate].
    rewrite forall_lt_true in E1, E2, E3.
    assert (Hr : forall n, (n < cl_N d)%nat -> (-1 <= z n < Z.of_nat n)%Z).
    { intros n Hn. specialize (E1 n Hn). specialize (E2 n Hn). apply Z.ltb_lt in E1, E2. lia. }
    unfold ct_suff_stats in SS.
    pose proof (pass1_spec (t_times h (cl_S d)) (live_C h d) z (cm_dtmax m) (cl_N d)) as H1.
    destruct (fold_left (ss_pass1 (t_times h (cl_S d)) (live_C h d) z (cm_dtmax m)) (seq 0 (cl_N d)) (fun _ => 0, fun _ _ => 0, fun _ _ => 0, fun _ _ => 0))
      as [[[bk' ws'] i0] i1].
    destruct H1 as (B1 & B2 & _ & _).
    apply bindr_ok in SS as (? & _ & SS). injection SS as -> -> _.
    intros k Hk. specialize (E3 k Hk). apply Reqb_true in E3. rewrite B1 in E3.
    rewrite (@Rsum_ext (cm_K m) _ (fun a => count (cl_N d) (att (live_C h d) z a k))) in E3 by (intros; apply B2).
    rewrite (@balance (cm_K m) (cl_N d) (live_C h d) z k L Hr) in E3. apply eq_IZR in E3. symmetry. exact E3.
Qed.

(** The likelihood when the arrays have been overwritten: that of the new contents, off by the weight of the difference
    between the new and the stored counts. *)
Theorem C113_ct_likelihood : forall h m order d,
  ctlive_ll h order m d =
  eadd (ct_ll_data (fun _ => order) m (ctdata_in h d))
       (Fin (Rsum (cm_K m) (fun k => Rsum (cm_K m) (fun k1 =>
          ct_W_effective m k1 k * (IZR (ct_Ns (cl_N d) (live_C h d) k1) - IZR (cl_Ns d k1)))))).
Proof.
  intros h m order d. unfold ctlive_ll, ct_ll_data, ct_model_rate. cbn [ctdata_in cd_N cd_S cd_C].
  match goal with |- eadd _ ?x = eadd (eadd _ ?y) _ => change y with x; destruct x end; cbn [eadd]; try reflexivity.
  f_equal.
  assert (Q : Rsum (cm_K m) (ct_integrated m (ctdata_in h d)) =
     Rsum (cm_K m) (ctlive_integrated m d) + Rsum (cm_K m) (fun k => Rsum (cm_K m) (fun k1 =>
          ct_W_effective m k1 k * (IZR (ct_Ns (cl_N d) (live_C h d) k1) - IZR (cl_Ns d k1))))).
  { rewrite <- Rsum_plus. apply Rsum_ext. intros k Hk. unfold ct_integrated, ctlive_integrated. cbn [cd_T ctdata_in].
    unfold cd_Ns. cbn [cd_N cd_C ctdata_in].
    rewrite Rplus_assoc, <- Rsum_plus. f_equal. apply Rsum_ext. intros k1 _. ring. }
  lra.
Qed.

(** So overwriting the labels of a valid data set with other valid labels can stop the sampler: before the write every parent
    update succeeds, after it none does. *)
Theorem C113_ct_labels_refuted :
  (forall h m s c T f N x order u, tr_dims s = [N] ->
     acceptable (cm_K m) (tval_in h s) (ival_in h c) T f -> params_ok m ->
     Permutation order (seq 0 N) -> (forall n, (n < N)%nat -> unit_interval (u n)) ->
     (forall n, (n < N)%nat -> (0 <= x n < Z.of_nat (cm_K m))%Z) ->
     (exists k, (k < cm_K m)%nat /\ ct_Ns N (fun n => Z.to_nat (x n)) k <> ct_Ns N (fun n => Z.to_nat (t_labels h (cr_addr c) n)) k) ->
     let d := mk_ctlive h N s c T in
     (exists d', ctlive_resample h m order u d = Ok d') /\
     (exists e, ctlive_resample (put_labels h (cr_addr c) x) m order u d = Raise e)).
Proof.
  intros h m s c T f N x order u DN AC P O U X (k & Hk & D) d. split.
  - assert (A : counts_agree h m d). { intros j _. reflexivity. }
    pose proof (proj1 (C113_ct_resample h m order u d) A) as Q.
    assert (DO : data_ok (cm_K m) (ctdata_in h d)).
    { destruct (proj1 (C78_add_data_accepts m (tval_in h s) (ival_in h c) T f) AC) as (d0 & E0 & ND & DO & TD & SC & _).
      cbn in ND. assert (cd_N d0 = N) by congruence. destruct DO as (D1 & D2 & D3). rewrite H in *. split; [|split].
      - intros n Hn. specialize (SC n Hn). cbn in SC. destruct SC as (SC & _). specialize (D1 n Hn). cbn in *. rewrite <- SC, <- TD. exact D1.
      - intros i j Hij Hj. cbn. cbn in Hj. destruct (SC i ltac:(lia)) as (S1 & _). destruct (SC j ltac:(lia)) as (S2 & _). cbn in S1, S2.
        rewrite <- S1, <- S2. apply D2; assumption.
      - intros n Hn. cbn in Hn. destruct (SC n Hn) as (_ & S1 & _). cbn in S1. cbn. unfold live_C. cbn. rewrite <- S1.
        rewrite Nat2Z.id. apply D3. exact Hn. }
    destruct (@C59_parent_update m order u (ctdata_in h d) P DO O U) as (d2 & E2 & _). rewrite E2 in Q.
    destruct (ctlive_resample h m order u d) as [d1|e]; [exists d1; reflexivity | destruct Q].
  - assert (LC : forall n, live_C (put_labels h (cr_addr c) x) d n = Z.to_nat (x n)).
    { intro n. unfold live_C, d. cbn. unfold put.
      assert (R : addr_eqb (cr_addr c) (cr_addr c) = true) by (destruct (cr_addr c); apply Nat.eqb_refl). rewrite R. reflexivity. }
    apply (proj2 (C113_ct_resample (put_labels h (cr_addr c) x) m order u d)).
    + intros n Hn. rewrite LC. cbn in Hn. specialize (X n Hn). lia.
    + intro A. specialize (A k Hk). apply D. cbn in A. rewrite A.
      unfold ct_Ns. f_equal. extensionality n. rewrite LC. reflexivity.
Qed.

(** The hypotheses are met: two events of process 0, relabelled as one event of each process. *)
Example C113_ct_nonvacuous : exists h s c x,
  acceptable 2 (tval_in h s) (ival_in h c) 3 true /\ tr_dims s = [2%nat] /\
  (forall n, (n < 2)%nat -> (0 <= x n < Z.of_nat 2)%Z) /\
  ct_Ns 2 (fun n => Z.to_nat (x n)) 1 <> ct_Ns 2 (fun n => Z.to_nat (t_labels h (cr_addr c) n)) 1.
Proof.
  exists {| t_times := fun _ n => INR n; t_labels := fun _ _ => 0%Z |}.
  exists {| tr_isarray := true; tr_dims := [2%nat]; tr_isfloat := true; tr_addr := User 0 |}.
  exists {| cr_isarray := true; cr_dims := [2%nat]; cr_isint := true; cr_addr := User 0 |}.
  exists Z.of_nat. split; [|split; [reflexivity | split; [intros n Hn; lia | cbn; discriminate]]].
  unfold acceptable. cbn. repeat (split; [reflexivity|]). exists 2%nat. split; [reflexivity|]. split; [reflexivity|]. split; [reflexivity|].
  split; [intros n Hn; split; [apply pos_INR|]; destruct n as [|[|n]]; [cbn; lra | cbn; lra | lia]|].
  split; [intros i j Hij Hj; apply le_INR; exact Hij | intros; lia].
Qed.
Print Assumptions C113_ct_add.
Print Assumptions C113_ct_resample.
Print Assumptions C113_ct_likelihood.
Print Assumptions C113_ct_labels_refuted.
