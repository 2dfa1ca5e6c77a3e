(** * L_Gibbs: lemmas about the acceptance rule and adjacency sweeps. *)
From Coq Require Import Permutation.
From Verif Require Import Prelude ExtReal Arrays Spec_Basis Spec_Discrete Spec_Parents Spec_Gibbs
  M_Basis M_Parents M_Discrete M_Gibbs L_Discrete L_Minibatch L_Parents Props_Discrete.
Set Implicit Arguments.
Open Scope R_scope.

Lemma pool_lsum {A} (f : A -> R) l : pool f l = lsum (map f l).
Proof.
  unfold pool. assert (H : forall l s, fold_left (fun s d => s + f d) l s = s + lsum (map f l)).
  { clear. induction l as [|x l IH]; intros s; cbn [fold_left map lsum]; [lra|]. rewrite IH. lra. }
  rewrite H. lra.
Qed.
Lemma fold_eadd {A} (f : A -> er) l s :
  fold_left (fun s d => eadd s (f d)) l s = eadd s (elsum (map f l)).
Proof.
  revert s. induction l as [|x l IH]; intros s; cbn [fold_left map elsum]; [now rewrite eadd_0_r|].
  rewrite IH. now rewrite eadd_assoc.
Qed.

(* ---------------- acceptance rule ---------------- *)
Lemma accept_fin u a b : unit_interval u ->
  accept u (Fin a) (Fin b) = Rltb u (exp b / (exp a + exp b)).
Proof.
  intros [H0 H1]. unfold accept. rewrite logsumexp2_fin, esub_fin.
  pose proof (exp_pos a). pose proof (exp_pos b).
  assert (Hq : 0 < exp b / (exp a + exp b)) by (apply Rdiv_lt_0_compat; lra).
  destruct (Req_dec u 0) as [->|Hu].
  - rewrite elog_0. cbn [elt]. symmetry. now apply Rltb_true.
  - rewrite elog_fin by lra. rewrite elt_fin.
    assert (E : b - ln (exp a + exp b) = ln (exp b / (exp a + exp b))).
    { rewrite ln_div by lra. now rewrite ln_exp. }
    rewrite E. apply eq_true_iff_eq. rewrite !Rltb_true. apply ln_lt_iff; lra.
Qed.
Lemma accept_l u b : unit_interval u -> accept u NInf (Fin b) = true.
Proof.
  intros [H0 H1]. unfold accept. rewrite logsumexp2_NInf_l, esub_fin, Rminus_diag_eq by reflexivity.
  destruct (Req_dec u 0) as [->|Hu]; [now rewrite elog_0|].
  rewrite elog_fin by lra. rewrite elt_fin. apply Rltb_true. rewrite <- ln_1. apply ln_increasing; lra.
Qed.
Lemma accept_r u a : unit_interval u -> accept u (Fin a) NInf = false.
Proof.
  intros [H0 H1]. unfold accept. rewrite logsumexp2_NInf_r. cbn [esub eadd eopp].
  destruct (Req_dec u 0) as [->|Hu]; [now rewrite elog_0|]. now rewrite elog_fin by lra.
Qed.
Lemma accept_both u : accept u NInf NInf = false.
Proof.
  unfold accept. assert (E : esub NInf (logsumexp2 NInf NInf) = NaN).
  { unfold logsumexp2, emax. cbn. unfold Rltb. 
    destruct (Rlt_dec 0 (0 + 0)) as [H|H]; [exfalso; lra|].
    unfold Reqb. destruct (Req_EM_T (0 + 0) 0) as [E|E]; [reflexivity|exfalso; lra]. }
  rewrite E. unfold elt. destruct (elog (Fin u)); reflexivity.
Qed.

(** The rule with prior probability p in [0,1] and finite log likelihoods. *)
Lemma accept_edge u p l0 l1 : unit_interval u -> 0 <= p <= 1 ->
  accept u (eadd (Fin l0) (elog (Fin (1 - p)))) (eadd (Fin l1) (elog (Fin p)))
  = Rltb u (edge_posterior p l0 l1).
Proof.
  intros Hu [H0 H1]. unfold edge_posterior. pose proof (exp_pos l0). pose proof (exp_pos l1).
  destruct (Req_dec p 0) as [->|Hp0].
  - rewrite Rminus_0_r, elog_0, elog_fin by lra. rewrite ln_1, eadd_fin. cbn [eadd].
    rewrite accept_r by auto. symmetry. apply Rltb_false. destruct Hu.
    replace (0 * exp l1 / (0 * exp l1 + 1 * exp l0)) with 0; [lra|field; lra].
  - destruct (Req_dec p 1) as [->|Hp1].
    + replace (1 - 1) with 0 by lra. rewrite elog_0, elog_fin by lra. rewrite ln_1, eadd_fin. cbn [eadd].
      rewrite accept_l by auto. symmetry. apply Rltb_true. destruct Hu.
      replace (1 * exp l1 / (1 * exp l1 + 0 * exp l0)) with 1; [lra|field; lra].
    + rewrite !elog_fin by lra. rewrite !eadd_fin, accept_fin by auto. f_equal.
      rewrite !exp_plus, !exp_ln by lra. field. apply Rgt_not_eq. nra.
Qed.

Lemma edge_posterior_shift p l0 l1 c : edge_posterior p (l0 + c) (l1 + c) = edge_posterior p l0 l1.
Proof.
  unfold edge_posterior. rewrite !exp_plus. pose proof (exp_pos c).
  assert (E : p * (exp l1 * exp c) + (1 - p) * (exp l0 * exp c) = (p * exp l1 + (1 - p) * exp l0) * exp c) by ring.
  rewrite E. unfold Rdiv. destruct (Req_dec (p * exp l1 + (1 - p) * exp l0) 0) as [Hz|Hz].
  - rewrite Hz, Rmult_0_l. rewrite !Rinv_0. ring.
  - field. split; [exact Hz|lra].
Qed.

(* ---------------- sweeps ---------------- *)

(** A single-process likelihood reads only its own column. *)
Definition col_local (K : nat) (ll : bmat -> nat -> er) : Prop :=
  forall A A' k2, (k2 < K)%nat -> (forall k1, (k1 < K)%nat -> A k1 k2 = A' k1 k2) -> ll A k2 = ll A' k2.

(** One row of a column, without the shortcuts for probabilities 0 and 1. *)
Definition plain_step (ll : (nat -> bool) -> er) (p u : vec) (a : nat -> bool) (k1 : nat) : nat -> bool :=
  upd a k1 (accept (u k1) (eadd (ll (upd a k1 false)) (elog (Fin (1 - p k1))))
                          (eadd (ll (upd a k1 true)) (elog (Fin (p k1))))).
Definition plain_column (ll : (nat -> bool) -> er) (p u : vec) (K : nat) (a : nat -> bool) :=
  fold_left (plain_step ll p u) (seq 0 K) a.

Lemma fold_left_seq_app {A} (f : A -> nat -> A) n a :
  fold_left f (seq 0 (S n)) a = f (fold_left f (seq 0 n) a) n.
Proof. apply fold_left_seq_S. Qed.

Lemma upd2_col (A : bmat) k1 k2 x i : upd2 A k1 k2 x i k2 = upd (fun j => A j k2) k1 x i.
Proof. unfold upd2, upd. rewrite Nat.eqb_refl, andb_true_r. reflexivity. Qed.

(** The likelihood as a function of a column only. *)
Definition col_ll (ll : bmat -> nat -> er) (k2 : nat) (a : nat -> bool) : er := ll (fun i _ => a i) k2.

Lemma edge_step_col K ll P u A k1 k2 : col_local K ll -> (k1 < K)%nat -> (k2 < K)%nat ->
  (forall i, edge_step ll P u A k1 k2 i k2
     = plain_step (col_ll ll k2) (fun i => P i k2) (fun i => u i k2) (fun i => A i k2) k1 i) /\
  (forall i j, j <> k2 -> edge_step ll P u A k1 k2 i j = A i j).
Proof.
  intros Hl H1 H2. split.
  - intros i. unfold edge_step, plain_step. rewrite upd2_col.
    assert (E : forall b, ll (upd2 A k1 k2 b) k2 = col_ll ll k2 (upd (fun j => A j k2) k1 b)).
    { intros b. unfold col_ll. apply Hl; [auto|]. intros i' _. apply upd2_col. }
    assert (E2 : ll (upd2 (upd2 A k1 k2 false) k1 k2 true) k2 = col_ll ll k2 (upd (fun j => A j k2) k1 true)).
    { unfold col_ll. apply Hl; [auto|]. intros i' _. rewrite upd2_col. unfold upd.
      destruct (Nat.eqb_spec i' k1); [reflexivity|]. unfold upd2.
      destruct (Nat.eqb_spec i' k1); [contradiction|reflexivity]. }
    rewrite E, E2. unfold upd at 1 4. destruct (Nat.eqb_spec i k1); [reflexivity|].
    unfold upd2. destruct (Nat.eqb_spec i k1); [contradiction|reflexivity].
  - intros i j Hj. unfold edge_step, upd2. destruct (Nat.eqb_spec j k2); [contradiction|].
    now rewrite !andb_false_r.
Qed.

Lemma inner_sweep K ll P u k1 : col_local K ll -> (k1 < K)%nat ->
  forall n, (n <= K)%nat -> forall A j, (j < K)%nat ->
  (forall i, fold_left (fun A'' k2 => edge_step ll P u A'' k1 k2) (seq 0 n) A i j
     = if Nat.ltb j n then plain_step (col_ll ll j) (fun i => P i j) (fun i => u i j) (fun i => A i j) k1 i
       else A i j).
Proof.
  intros Hl H1. induction n as [|n IH]; intros Hn A j Hj i; [reflexivity|].
  rewrite fold_left_seq_app. set (A' := fold_left _ (seq 0 n) A) in *.
  destruct (@edge_step_col K ll P u A' k1 n Hl H1 ltac:(lia)) as [Ec Eo].
  destruct (Nat.eq_dec j n) as [->|Hne].
  - rewrite Ec. destruct (Nat.ltb_spec n (S n)); [|lia].
    unfold plain_step. 
    assert (EA : forall i, A' i n = A i n).
    { intros i'. unfold A'. rewrite IH by lia. destruct (Nat.ltb_spec n n); [lia|reflexivity]. }
    assert (EL : forall b, col_ll ll n (upd (fun i0 => A' i0 n) k1 b) = col_ll ll n (upd (fun i0 => A i0 n) k1 b)).
    { intros b. unfold col_ll. apply Hl; [lia|]. intros i' _. unfold upd.
      destruct (Nat.eqb i' k1); auto. }
    rewrite !EL. unfold upd. destruct (Nat.eqb i k1); auto.
  - rewrite Eo by auto. unfold A'. rewrite IH by lia.
    destruct (Nat.ltb_spec j n), (Nat.ltb_spec j (S n)); auto; lia.
Qed.

Lemma plain_step_ext ll p u a a' k1 i : (forall i, a i = a' i) ->
  (forall b b' : nat -> bool, (forall i, b i = b' i) -> ll b = ll b') ->
  plain_step ll p u a k1 i = plain_step ll p u a' k1 i.
Proof.
  intros Ha Hl. unfold plain_step.
  assert (E : forall x i, upd a k1 x i = upd a' k1 x i) by (intros; unfold upd; now destruct (Nat.eqb i0 k1)).
  rewrite E. rewrite (Hl _ _ (E false)), (Hl _ _ (E true)). reflexivity.
Qed.

Lemma col_ll_ext K ll k2 : col_local K ll -> (k2 < K)%nat ->
  forall b b' : nat -> bool, (forall i, b i = b' i) -> col_ll ll k2 b = col_ll ll k2 b'.
Proof. intros Hl Hk b b' H. unfold col_ll. apply Hl; auto. Qed.

(** The serial sweep updates every column independently, rows in order. *)
Lemma serial_sweep_col K ll P u A : col_local K ll ->
  forall i j, (j < K)%nat ->
  serial_sweep ll P u K A i j
  = plain_column (col_ll ll j) (fun i => P i j) (fun i => u i j) K (fun i => A i j) i.
Proof.
  intros Hl i j Hj. unfold serial_sweep, plain_column.
  assert (G : forall n, (n <= K)%nat -> forall i,
    fold_left (fun A' k1 => fold_left (fun A'' k2 => edge_step ll P u A'' k1 k2) (seq 0 K) A') (seq 0 n) A i j
    = fold_left (plain_step (col_ll ll j) (fun i => P i j) (fun i => u i j)) (seq 0 n) (fun i => A i j) i).
  { induction n as [|n IH]; intros Hn i'; [reflexivity|].
    rewrite !fold_left_seq_app. rewrite (@inner_sweep K ll P u n Hl) by lia.
    destruct (Nat.ltb_spec j K); [|lia]. apply plain_step_ext.
    - intros i''. apply IH. lia.
    - now apply (@col_ll_ext K). }
  now apply G.
Qed.

(** A column update: every row is drawn given the rows above already updated and
    the rows below not yet. *)
Lemma plain_column_scan ll p u K a :
  (forall b b' : nat -> bool, (forall i, (i < K)%nat -> b i = b' i) -> ll b = ll b') ->
  let a' := plain_column ll p u K a in
  (forall i, (K <= i)%nat -> a' i = a i) /\
  (forall k c, (k < K)%nat ->
   (forall i, (i < K)%nat -> c i = if Nat.ltb i k then a' i else a i) ->
   a' k = accept (u k) (eadd (ll (upd c k false)) (elog (Fin (1 - p k))))
                       (eadd (ll (upd c k true)) (elog (Fin (p k))))).
Proof.
  intros Hl a'.
  assert (Hst : forall n i, (n <= i)%nat -> fold_left (plain_step ll p u) (seq 0 n) a i = a i).
  { induction n as [|n IH]; intros i Hi; [reflexivity|]. rewrite fold_left_seq_app.
    unfold plain_step at 1, upd at 1. destruct (Nat.eqb_spec i n); [lia|]. apply IH; lia. }
  assert (Hfin : forall n i, (i < n)%nat -> (n <= K)%nat -> fold_left (plain_step ll p u) (seq 0 n) a i = a' i).
  { intros n i Hi Hn. unfold a', plain_column.
    assert (G : forall d, fold_left (plain_step ll p u) (seq 0 (n + d)) a i = fold_left (plain_step ll p u) (seq 0 n) a i).
    { induction d as [|d IH]; [now rewrite Nat.add_0_r|]. rewrite Nat.add_succ_r, fold_left_seq_app.
      unfold plain_step at 1, upd at 1. destruct (Nat.eqb_spec i (n + d)); [lia|]. exact IH. }
    rewrite <- (G (K - n)%nat). do 3 f_equal. lia. }
  split; [intros i Hi; now apply Hst|].
  intros k c Hk Hc. rewrite <- (Hfin (S k) k) by lia. rewrite fold_left_seq_app.
  unfold plain_step at 1. rewrite upd_eq.
  assert (E : forall b, ll (upd (fold_left (plain_step ll p u) (seq 0 k) a) k b) = ll (upd c k b)).
  { intros b. apply Hl. intros i Hi. unfold upd. destruct (Nat.eqb_spec i k); [reflexivity|].
    rewrite Hc by auto. destruct (Nat.ltb_spec i k); [apply Hfin; lia|apply Hst; lia]. }
  now rewrite !E.
Qed.

(** With finite likelihoods the shortcuts for p = 0 and p = 1 change nothing. *)
Lemma col_step_plain ll p u a k1 :
  (forall b, exists x, ll b = Fin x) -> unit_interval (u k1) -> 0 <= p k1 <= 1 ->
  (forall b b' : nat -> bool, (forall i, b i = b' i) -> ll b = ll b') ->
  forall i, col_step ll p u a k1 i = plain_step ll p u a k1 i.
Proof.
  intros Hf Hu Hp He i. unfold col_step, plain_step.
  destruct (Hf (upd a k1 false)) as (l0 & E0). destruct (Hf (upd a k1 true)) as (l1 & E1).
  rewrite E0, E1. rewrite accept_edge by auto. unfold edge_posterior.
  pose proof (exp_pos l0). pose proof (exp_pos l1). destruct Hu as [Hu0 Hu1].
  destruct (Reqb (p k1) 0) eqn:E.
  - apply Reqb_true in E. rewrite E. replace (Rltb (u k1) _) with false; [reflexivity|].
    symmetry. apply Rltb_false. replace (0 * exp l1 / (0 * exp l1 + (1 - 0) * exp l0)) with 0; [lra|field; lra].
  - destruct (Reqb (p k1) 1) eqn:E'.
    + apply Reqb_true in E'. rewrite E'. replace (Rltb (u k1) _) with true; [reflexivity|].
      symmetry. apply Rltb_true. replace (1 * exp l1 / (1 * exp l1 + (1 - 1) * exp l0)) with 1; [lra|field; lra].
    + rewrite (He (upd (upd a k1 false) k1 true) (upd a k1 true)).
      2:{ intros i'. unfold upd. destruct (Nat.eqb i' k1); reflexivity. }
      rewrite E1, accept_edge by (auto; split; auto). unfold edge_posterior, upd.
      destruct (Nat.eqb i k1); reflexivity.
Qed.
Lemma column_plain ll p u K a :
  (forall b, exists x, ll b = Fin x) -> (forall k, (k < K)%nat -> unit_interval (u k)) ->
  (forall k, (k < K)%nat -> 0 <= p k <= 1) ->
  (forall b b' : nat -> bool, (forall i, b i = b' i) -> ll b = ll b') ->
  forall i, resample_column ll p u K a i = plain_column ll p u K a i.
Proof.
  intros Hf Hu Hp He. unfold resample_column, plain_column.
  assert (G : forall n, (n <= K)%nat -> forall i,
    fold_left (fun a' k1 => col_step ll p u a' k1) (seq 0 n) a i = fold_left (plain_step ll p u) (seq 0 n) a i).
  { induction n as [|n IH]; intros Hn i; [reflexivity|]. rewrite !fold_left_seq_app.
    rewrite col_step_plain; [|auto|apply Hu; lia|apply Hp; lia|auto].
    apply plain_step_ext; [|auto]. intros; apply IH; lia. }
  intros i. now apply G.
Qed.

Lemma run_tasks_spec {A} order (task : nat -> A) slots k :
  run_tasks order task slots k = if existsb (Nat.eqb k) order then task k else slots k.
Proof.
  revert slots. induction order as [|x l IH]; intros slots; [reflexivity|].
  cbn [run_tasks existsb]. rewrite IH. unfold upd. 
  destruct (Nat.eqb_spec k x) as [->|Hne]; cbn [orb]; [now destruct (existsb _ l)|].
  destruct (existsb (Nat.eqb k) l); reflexivity.
Qed.

(* ---------------- the likelihoods used in the sweeps ---------------- *)

(** Stored data of the right shape, with non-negative filtered data. *)
Definition good_data (m : dmodel) (data : list parents) : Prop :=
  forall d, In d data -> pa_K d = dm_K m /\ pa_B d = dm_B m /\ pa_dt d = dm_dt m /\ nonneg_F d.

Lemma ll_single_efinite d m k :
  nonneg_params m -> pa_K d = dm_K m -> pa_B d = dm_B m -> nonneg_F d -> (k < dm_K m)%nat ->
  efinite (ll_single d (params_of m) k) = true.
Proof.
  intros (Hl & HW & Hg & _) EK EB HF Hk. unfold ll_single.
  assert (E : efinite (esum (pa_Tk d k) (fun r => emul (Fin (IZR (pa_Ss d k r)))
      (elog (Fin (row_rate d (params_of m) k r))))) = true).
  { apply esum_efinite. intros r Hr. destruct (@pa_row_in d k r Hr) as [H1 _].
    rewrite elog_fin; [reflexivity|]. unfold row_rate. cbn [params_of q_lam q_W q_g].
    eapply Rlt_le_trans; [apply (Hl k); lia|].
    match goal with |- ?a <= ?a + ?x => assert (0 <= x); [|lra] end.
    apply Rsum_nonneg; intros k1 Hk1. apply Rsum_nonneg; intros b Hb.
    apply Rmult_le_pos; [apply Rmult_le_pos|].
    - rewrite W_effective_net. apply net_weight_nonneg; auto; lia.
    - apply Hg; lia.
    - apply HF; auto; lia. }
  destruct (esum _ _); try discriminate. reflexivity.
Qed.

Lemma nonneg_with_A m A : nonneg_params m -> nonneg_params (with_A m A).
Proof. exact (fun H => H). Qed.

Lemma data_ll_elsum m data A k :
  data_ll m data A k = elsum (map (fun d => ll_single d (params_of (with_A m A)) k) data).
Proof. unfold data_ll. rewrite fold_eadd. now rewrite eadd_0_l. Qed.

Lemma data_ll_fin m data A k : nonneg_params m -> good_data m data -> (k < dm_K m)%nat ->
  exists x, data_ll m data A k = Fin x.
Proof.
  intros Hn Hd Hk. rewrite data_ll_elsum.
  assert (E : efinite (elsum (map (fun d => ll_single d (params_of (with_A m A)) k) data)) = true).
  { apply elsum_efinite. intros x Hx. apply in_map_iff in Hx as (d & <- & Hin).
    destruct (Hd d Hin) as (H1 & H2 & _ & H4).
    apply (@ll_single_efinite d (with_A m A)); auto using nonneg_with_A. }
  destruct (elsum _) as [x| | |]; try discriminate. eauto.
Qed.

Lemma ll_single_local d m A A' k : (forall k1, (k1 < pa_K d)%nat -> A k1 k = A' k1 k) ->
  ll_single d (params_of (with_A m A)) k = ll_single d (params_of (with_A m A')) k.
Proof.
  intros H.
  assert (E : forall k1, (k1 < pa_K d)%nat -> W_effective (with_A m A) k1 k = W_effective (with_A m A') k1 k).
  { intros k1 Hk1. unfold W_effective. cbn. destruct (dm_mix m); [reflexivity|]. now rewrite H. }
  unfold ll_single. cbn [params_of q_lam q_W q_g with_A dm_lam dm_g]. f_equal; [f_equal; f_equal; f_equal|].
  - apply Rsum_ext; intros k1 Hk1. now rewrite E.
  - apply esum_ext; intros r Hr. f_equal. f_equal. f_equal. unfold row_rate. cbn [params_of q_lam q_W q_g with_A dm_lam dm_g].
    f_equal. apply Rsum_ext; intros k1 Hk1. apply Rsum_ext; intros b Hb. now rewrite E.
Qed.

Lemma data_ll_local m data : good_data m data -> col_local (dm_K m) (data_ll m data).
Proof.
  intros Hd A A' k2 Hk H. rewrite !data_ll_elsum. apply elsum_map_ext. intros d Hin.
  destruct (Hd d Hin) as (HK & _). apply ll_single_local. rewrite HK. exact H.
Qed.

(** The parallel workers evaluate the same likelihood. *)
Lemma par_ll_eq m data k2 a : dm_mix m = false -> good_data m data ->
  par_ll m data k2 a = col_ll (data_ll m data) k2 a.
Proof.
  intros Hm Hd. unfold par_ll, col_ll, data_ll.
  assert (E : forall d, In d data ->
    par_ll_single d (dm_dt m) (dm_lam m) (fun k1 => b2R (a k1) * dm_W m k1 k2) (dm_g m) k2
    = ll_single d (params_of (with_A m (fun i _ => a i))) k2).
  { intros d Hin. destruct (Hd d Hin) as (_ & _ & Hdt & _). unfold par_ll_single, ll_single, row_rate.
    cbn [params_of q_lam q_W q_g with_A dm_lam dm_g]. unfold W_effective. cbn. rewrite Hm, Hdt.
    now rewrite Rplus_0_l. }
  clear Hd. generalize (Fin 0). induction data as [|d l IH]; intros s; cbn [fold_left]; [reflexivity|].
  rewrite E by now left. apply IH. intros; apply E; now right.
Qed.
