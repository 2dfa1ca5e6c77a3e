(** * Props_Parents: C14-C19, parent assignments of discrete-time data. *)
From Coq Require Import Permutation.
From Verif Require Import Prelude ExtReal Arrays Spec_Basis Spec_Discrete Spec_Parents M_Basis
  M_Parents M_Discrete L_Discrete L_Parents.
Set Implicit Arguments.
Open Scope R_scope.

(** Dense view of a parent assignment: the events of process k in bin t attributed
    to column c (0 is the background, 1 + k1*B + b is process k1, basis b); rows are
    stored only for bins with events. *)
Definition attributed (p : parents) (t k c : nat) : Z :=
  Zsum (pa_Tk p k) (fun r => if Nat.eqb (pa_row p k r) t then pa_Z p k r c else 0%Z).
Definition expected_attributed (p : parents) (t k c : nat) : R :=
  Rsum (pa_Tk p k) (fun r => if Nat.eqb (pa_row p k r) t then pa_EZ p k r c else 0).

(** Each stored row is the row of its bin. *)
Lemma rows_inj p k r1 r2 : (r1 < pa_Tk p k)%nat -> (r2 < pa_Tk p k)%nat ->
  pa_row p k r1 = pa_row p k r2 -> r1 = r2.
Proof.
  intros H1 H2 E. unfold pa_row, pa_Tk in *.
  assert (Hnd : NoDup (pa_ts p k)) by (apply NoDup_filter, seq_NoDup).
  rewrite NoDup_nth in Hnd. apply (Hnd r1 r2 H1 H2 E).
Qed.
Lemma attributed_row p k r c : (r < pa_Tk p k)%nat -> attributed p (pa_row p k r) k c = pa_Z p k r c.
Proof.
  intros Hr. unfold attributed.
  rewrite (@Zsum_ext _ _ (fun r' => if Nat.eqb r' r then pa_Z p k r' c else 0%Z)).
  - rewrite (Zsum_ind (pa_Tk p k) r (fun r' => pa_Z p k r' c)). destruct (Nat.ltb_spec r (pa_Tk p k)); [reflexivity|lia].
  - intros r' Hr'. destruct (Nat.eqb_spec r' r) as [->|Hne]; [now rewrite Nat.eqb_refl|].
    destruct (Nat.eqb_spec (pa_row p k r') (pa_row p k r)) as [E|_]; [|reflexivity].
    exfalso. apply Hne. now apply (@rows_inj p k).
Qed.
Lemma expected_row p k r c : (r < pa_Tk p k)%nat -> expected_attributed p (pa_row p k r) k c = pa_EZ p k r c.
Proof.
  intros Hr. unfold expected_attributed.
  rewrite (@Rsum_ext _ _ (fun r' => if Nat.eqb r' r then pa_EZ p k r' c else 0)).
  - rewrite (Rsum_ind (pa_Tk p k) r (fun r' => pa_EZ p k r' c)). destruct (Nat.ltb_spec r (pa_Tk p k)); [reflexivity|lia].
  - intros r' Hr'. destruct (Nat.eqb_spec r' r) as [->|Hne]; [now rewrite Nat.eqb_refl|].
    destruct (Nat.eqb_spec (pa_row p k r') (pa_row p k r)) as [E|_]; [|reflexivity].
    exfalso. apply Hne. now apply (@rows_inj p k).
Qed.
Lemma attributed_none p t k c : (t < pa_T p)%nat -> pa_S p t k = 0%Z -> attributed p t k c = 0%Z.
Proof.
  intros Ht HS. unfold attributed. apply Zsum_0. intros r Hr. destruct (@pa_row_in p k r Hr) as [_ H].
  destruct (Nat.eqb_spec (pa_row p k r) t) as [E|_]; [subst t; contradiction|reflexivity].
Qed.
Lemma expected_none p t k c : (t < pa_T p)%nat -> pa_S p t k = 0%Z -> expected_attributed p t k c = 0.
Proof.
  intros Ht HS. unfold expected_attributed. apply Rsum_0. intros r Hr. destruct (@pa_row_in p k r Hr) as [_ H].
  destruct (Nat.eqb_spec (pa_row p k r) t) as [E|_]; [subst t; contradiction|reflexivity].
Qed.

(* ------------------------------------------------------------------ *)
(** ** C14 *)

(** The Gibbs update of the parents (either sampler) succeeds and gives every
    event of every bin exactly one parent; the data are unchanged. *)
Theorem C14_one_parent_per_event :
  forall use_gsl mult p q,
  pa_nonneg p (q_lam q) (q_W q) (q_g q) -> fits p ->
  multinomial_contract (1 + pa_K p * pa_B p) mult ->
  exists p', pa_resample use_gsl mult p q = Ok p' /\
    pa_S p' = pa_S p /\ pa_F p' = pa_F p /\ pa_T p' = pa_T p /\ pa_K p' = pa_K p /\ pa_B p' = pa_B p /\
  forall t k, (t < pa_T p)%nat -> (k < pa_K p)%nat ->
    (forall c, (c < 1 + pa_K p * pa_B p)%nat -> (0 <= attributed p' t k c)%Z) /\
    Zsum (1 + pa_K p * pa_B p) (attributed p' t k) = pa_S p t k.
Proof.
  intros g mult p q Hn Hf Hm. destruct (@resample_ok g mult p q Hn Hf) as (p' & E).
  exists p'. split; [exact E|].
  destruct (@resample_row g mult p q p' Hn Hf Hm E) as (Ep & H).
  split; [rewrite Ep; reflexivity|]. split; [rewrite Ep; reflexivity|]. split; [rewrite Ep; reflexivity|].
  split; [rewrite Ep; reflexivity|]. split; [rewrite Ep; reflexivity|].
  intros t k Ht Hk. destruct (Z.eq_dec (pa_S p t k) 0) as [H0|H0].
  - assert (Hz : forall c, attributed p' t k c = 0%Z).
    { intros c. apply attributed_none; rewrite Ep; assumption. }
    split; [intros; rewrite Hz; lia|]. rewrite H0. apply Zsum_0; auto.
  - destruct (@pa_row_surj p k t Ht H0) as (r & Hr & <-).
    destruct (H k r Hk Hr) as (H1 & H2 & _).
    assert (Ha : forall c, attributed p' (pa_row p k r) k c = pa_Z p' k r c).
    { intros c. rewrite Ep. apply (@attributed_row (set_Z p (pa_Z p')) k r c Hr). }
    split; [intros; rewrite Ha; auto|]. rewrite <- H2. apply Zsum_ext; auto.
Qed.
Print Assumptions C14_one_parent_per_event.

(** A concrete data set and parameters: two events of process 0 in bin 0, then one
    event of process 1 in bin 1. *)
Definition ex_p : parents := mk_parents 2 1 1 2
  (fun t k => if (Nat.eqb t 0 && Nat.eqb k 0)%bool then 2%Z else if (Nat.eqb t 1 && Nat.eqb k 1)%bool then 1%Z else 0%Z)
  (fun t k _ => if (Nat.eqb t 1 && Nat.eqb k 0)%bool then 2 else 0).
Definition ex_q : params := {| q_lam := fun _ => 1; q_W := fun k1 k2 => if Nat.eqb k1 k2 then 0 else 1/2; q_g := fun _ _ _ => 1 |}.
(** A generator meeting the contract: everything in the first category of positive probability. *)
Fixpoint first_pos (M : nat) (v : vec) (c : nat) : nat :=
  match M with O => c | S M' => if Rltb 0 (v c) then c else first_pos M' v (S c) end.
Definition ex_mult (M : nat) : mult_oracle := fun _ _ n v c => if Nat.eqb c (first_pos M v 0) then n else 0%Z.
Lemma first_pos_spec M v c : (exists c', (c <= c' < c + M)%nat /\ 0 < v c') ->
  (c <= first_pos M v c < c + M)%nat /\ 0 < v (first_pos M v c).
Proof.
  revert c. induction M as [|M IH]; intros c (c' & Hc & Hv); [lia|]. cbn [first_pos].
  destruct (Rltb 0 (v c)) eqn:E; [apply Rltb_true in E; split; [lia|exact E]|].
  apply Rltb_false in E. destruct (IH (S c)) as [H1 H2].
  - exists c'. split; [|exact Hv]. assert (c <> c') by (intros ->; lra). lia.
  - split; [lia|exact H2].
Qed.
Lemma ex_mult_ok M : multinomial_contract M (ex_mult M).
Proof.
  intros k r n v Hn [Hv Hs]. unfold ex_mult.
  assert (Hex : exists c', (0 <= c' < 0 + M)%nat /\ 0 < v c').
  { destruct (forall_lt M (fun c => Rleb (v c) 0)) eqn:E.
    - exfalso. rewrite forall_lt_true in E. assert (Rsum M v = 0); [|lra].
      apply Rsum_0. intros i Hi. specialize (E i Hi). apply Rleb_true in E. specialize (Hv i Hi). lra.
    - apply forall_lt_false in E as (i & Hi & E). apply Rleb_false in E. exists i. split; [lia|exact E]. }
  destruct (first_pos_spec M v Hex) as [H1 H2]. set (c0 := first_pos M v 0) in *.
  split; [|split].
  - intros c _. destruct (Nat.eqb c c0); lia.
  - rewrite (Zsum_ind M c0 (fun _ => n)). destruct (Nat.ltb_spec c0 M); [reflexivity|lia].
  - intros c Hc Hc0. destruct (Nat.eqb_spec c c0) as [->|]; [lra|reflexivity].
Qed.
Lemma ex_p_nonneg : pa_nonneg ex_p (q_lam ex_q) (q_W ex_q) (q_g ex_q).
Proof.
  repeat split; cbn; intros; try lra.
  - destruct (Nat.eqb k1 k2); lra.
  - destruct (Nat.eqb t 1 && Nat.eqb k 0)%bool; lra.
Qed.
Lemma ex_p_fits : fits ex_p.
Proof.
  intros t k Ht Hk. cbn [ex_p mk_parents pa_S].
  destruct (Nat.eqb t 0 && Nat.eqb k 0)%bool; [lia|]. destruct (Nat.eqb t 1 && Nat.eqb k 1)%bool; lia.
Qed.
Example C14_nonvacuous :
  pa_nonneg ex_p (q_lam ex_q) (q_W ex_q) (q_g ex_q) /\ fits ex_p /\
  multinomial_contract (1 + pa_K ex_p * pa_B ex_p) (ex_mult 3%nat) /\ pa_Tk ex_p 0 = 1%nat.
Proof. split; [apply ex_p_nonneg|]. split; [apply ex_p_fits|]. split; [apply (@ex_mult_ok 3)|reflexivity]. Qed.

(** Counts of 2^32 or more are truncated to uint32: the row no longer adds up. *)
Theorem C14_counts_overflow_refuted :
  exists p q mult p', pa_nonneg p (q_lam q) (q_W q) (q_g q) /\
    counts (pa_T p) (pa_K p) (pa_S p) /\
    multinomial_contract (1 + pa_K p * pa_B p) mult /\ pa_resample true mult p q = Ok p' /\
    Zsum (1 + pa_K p * pa_B p) (attributed p' 0 0) <> pa_S p 0%nat 0%nat.
Proof.
  set (p := mk_parents 1 1 1 1 (fun _ _ => (2 ^ 32 + 1)%Z) (fun _ _ _ => 0)).
  set (q := {| q_lam := fun _ => 1; q_W := fun _ _ => 1; q_g := fun _ _ _ => 1 |}).
  exists p, q, (ex_mult 2%nat).
  assert (Hn : pa_nonneg p (q_lam q) (q_W q) (q_g q)) by (repeat split; cbn; intros; lra).
  assert (Hrate : forall k r, Rsum (1 + pa_K p * pa_B p) (pvec_gsl p q k r) = 1).
  { intros k r. cbn. lra. }
  unfold pa_resample, resample_Z_gsl.
  match goal with |- context [all_rows p ?f] => assert (E : all_rows p f = true) end.
  { apply all_rows_true. intros k r _ _. apply negb_true_iff, Reqb_false. rewrite Hrate. lra. }
  rewrite E. cbn [negb].
  eexists. split; [exact Hn|]. split; [intros t k _ _; cbn; lia|].
  split; [apply (@ex_mult_ok 2)|]. split; [reflexivity|].
  assert (Ha : forall c, attributed (set_Z p (fun k r c => let '(n, v) := request_gsl p q k r in u32 (ex_mult 2%nat k r n v c))) 0 0 c
     = u32 (ex_mult 2 0%nat 0%nat 1%Z (snd (request_gsl p q 0 0)) c)).
  { intros c. reflexivity. }
  rewrite (Zsum_ext _ (fun c => u32 (ex_mult 2 0%nat 0%nat 1%Z (snd (request_gsl p q 0 0)) c))) by (intros; apply Ha).
  destruct (@ex_mult_ok 2%nat 0%nat 0%nat 1%Z (snd (request_gsl p q 0 0))) as (H0 & H1 & _); [lia| |].
  { split; [|cbn; unfold normalise; rewrite !Hrate; cbn; lra].
    intros c Hc. cbn. unfold normalise. rewrite Hrate. destruct c; cbn; lra. }
  cbn [pa_K pa_B p mk_parents Nat.mul Nat.add]. cbn [Zsum] in *.
  assert (A0 := H0 0%nat ltac:(lia)). assert (A1 := H0 1%nat ltac:(lia)).
  rewrite !u32_small by lia. cbn [pa_S p mk_parents]. lia.
Qed.
Print Assumptions C14_counts_overflow_refuted.

(* ------------------------------------------------------------------ *)
(** ** C15 *)

(** For any assignment consistent with the data (each stored row adds up to the
    count of its bin), whatever produced it. *)
Definition consistent (p : parents) : Prop :=
  forall k r, (k < pa_K p)%nat -> (r < pa_Tk p k)%nat ->
    Zsum (1 + pa_K p * pa_B p) (pa_Z p k r) = pa_S p (pa_row p k r) k.

Theorem C15_sufficient_statistics :
  forall p, consistent p ->
  (forall k, (k < pa_K p)%nat ->
     (bkgd_ss0 p k + Zsum (pa_K p) (fun k1 => weight_ss0 p k1 k) = n_events (pa_T p) (pa_S p) k)%Z) /\
  (forall k1 k2, Zsum (pa_B p) (fun b => ir_ss p k1 k2 b) = weight_ss0 p k1 k2) /\
  (forall k, bkgd_ss1 p k = INR (pa_T p) * pa_dt p) /\
  (forall k1 k2, weight_ss1 p k1 k2 = n_events (pa_T p) (pa_S p) k1).
Proof.
  intros p Hc. split; [|split; [|split]].
  - intros k Hk. unfold bkgd_ss0, weight_ss0, n_events.
    transitivity (Zsum (pa_Tk p k) (fun r => Zsum (1 + pa_K p * pa_B p) (pa_Z p k r))).
    + symmetry. rewrite (@Zsum_ext (pa_Tk p k) _ (fun r => (pa_Z p k r 0%nat
          + Zsum (pa_K p) (fun k1 => Zsum (pa_B p) (fun b => pa_Z p k r (1 + (k1 * pa_B p + b))%nat)))%Z)).
      * rewrite Zsum_plus. f_equal. rewrite Zsum_swap.
        apply Zsum_ext; intros k1 _. rewrite Zsum_swap. reflexivity.
      * intros r Hr. rewrite Zsum_app. cbn [Zsum]. rewrite Z.add_0_l. f_equal. apply Zsum_mul.
    + rewrite (Zsum_ext _ (fun r => pa_S p (pa_row p k r) k)) by (intros; auto).
      rewrite (@sparse_Zsum p k (fun t => pa_S p t k)). apply Zsum_ext; intros t Ht.
      destruct (Z.eqb_spec (pa_S p t k) 0); auto.
  - reflexivity.
  - reflexivity.
  - intros k1 k2. unfold weight_ss1. apply pa_Ns_sum.
Qed.
Print Assumptions C15_sufficient_statistics.

(** What the statistics count, bin by bin: events attributed to the background, to
    a parent process, and to a parent process through one basis function. *)
Theorem C15_statistics_meaning :
  forall p k, 
  bkgd_ss0 p k = Zsum (pa_T p) (fun t => attributed p t k 0%nat) /\
  (forall k1 b, ir_ss p k1 k b = Zsum (pa_T p) (fun t => attributed p t k (1 + (k1 * pa_B p + b))%nat)) /\
  (forall k1, weight_ss0 p k1 k
     = Zsum (pa_T p) (fun t => Zsum (pa_B p) (fun b => attributed p t k (1 + (k1 * pa_B p + b))%nat))).
Proof.
  intros p k.
  assert (G : forall c, Zsum (pa_T p) (fun t => attributed p t k c) = Zsum (pa_Tk p k) (fun r => pa_Z p k r c)).
  { intros c. unfold attributed. rewrite Zsum_swap. apply Zsum_ext; intros r Hr.
    rewrite (Zsum_ext _ (fun t => if Nat.eqb t (pa_row p k r) then pa_Z p k r c else 0%Z)).
    - rewrite (Zsum_ind (pa_T p) (pa_row p k r) (fun _ => pa_Z p k r c)).
      destruct (@pa_row_in p k r Hr) as [H _]. destruct (Nat.ltb_spec (pa_row p k r) (pa_T p)); [reflexivity|lia].
    - intros t _. now rewrite Nat.eqb_sym. }
  split; [symmetry; apply G|]. split; [intros; symmetry; apply G|].
  intros k1. rewrite Zsum_swap. unfold weight_ss0. apply Zsum_ext; intros b _. symmetry. apply G.
Qed.
Print Assumptions C15_statistics_meaning.

(** Every Gibbs update produces a consistent assignment. *)
Theorem C15_resample_consistent :
  forall use_gsl mult p q p',
  pa_nonneg p (q_lam q) (q_W q) (q_g q) -> fits p ->
  multinomial_contract (1 + pa_K p * pa_B p) mult ->
  pa_resample use_gsl mult p q = Ok p' -> consistent p'.
Proof.
  intros g mult p q p' Hn Hf Hm E.
  destruct (@resample_row g mult p q p' Hn Hf Hm E) as (Ep & H).
  intros k r Hk Hr. rewrite Ep in Hk, Hr. destruct (H k r Hk Hr) as (_ & H2 & _).
  rewrite Ep at 1 2 4 5. exact H2.
Qed.
Print Assumptions C15_resample_consistent.
Example C15_nonvacuous : exists p, consistent p /\ n_events (pa_T p) (pa_S p) 0 = 2%Z.
Proof.
  destruct (@resample_ok false (ex_mult 3%nat) ex_p ex_q ex_p_nonneg ex_p_fits) as (p' & E).
  exists p'. split; [apply (@C15_resample_consistent false (ex_mult 3%nat) ex_p ex_q p' ex_p_nonneg ex_p_fits (@ex_mult_ok 3) E)|].
  destruct (@resample_row false (ex_mult 3%nat) ex_p ex_q p' ex_p_nonneg ex_p_fits (@ex_mult_ok 3) E) as (-> & _). reflexivity.
Qed.

(* ------------------------------------------------------------------ *)
(** ** C16 *)

Theorem C16_no_absent_parents :
  forall use_gsl mult m d d',
  dm_mix m = false -> In d (dm_data m) -> pa_K d = dm_K m ->
  pa_nonneg d (dm_lam m) (net_weight m) (dm_g m) -> fits d ->
  multinomial_contract (1 + pa_K d * pa_B d) mult ->
  pa_resample use_gsl mult d (params_of m) = Ok d' ->
  forall t k1 k2 b, (t < pa_T d)%nat -> (k1 < pa_K d)%nat -> (k2 < pa_K d)%nat -> (b < pa_B d)%nat ->
  dm_A m k1 k2 = false \/ pa_F d t k1 b = 0 ->
  attributed d' t k2 (1 + (k1 * pa_B d + b)) = 0%Z.
Proof.
  intros g mult m d d' Hmix _ EK Hn Hf Hm E t k1 k2 b Ht Hk1 Hk2 Hb Habs.
  assert (Hn' : pa_nonneg d (q_lam (params_of m)) (q_W (params_of m)) (q_g (params_of m))).
  { destruct Hn as (H1 & H2 & H3 & H4). split; [exact H1|]. split; [|split; [exact H3|exact H4]].
    intros a c Ha Hc. cbn [params_of q_W]. rewrite W_effective_net. auto. }
  destruct (@resample_row g mult d (params_of m) d' Hn' Hf Hm E) as (Ep & H).
  destruct (Z.eq_dec (pa_S d t k2) 0) as [H0|H0].
  { apply attributed_none; rewrite Ep; assumption. }
  destruct (@pa_row_surj d k2 t Ht H0) as (r & Hr & <-).
  rewrite Ep. change (pa_row d k2 r) with (pa_row (set_Z d (pa_Z d')) k2 r).
  rewrite (@attributed_row (set_Z d (pa_Z d')) k2 r) by exact Hr. cbn [set_Z pa_Z].
  destruct (H k2 r Hk2 Hr) as (_ & _ & H3). apply H3.
  - assert (k1 * pa_B d + b < pa_K d * pa_B d)%nat by nia. lia.
  - cbn [request_python snd]. unfold normalise. cbn [Nat.add pvec_python].
    rewrite div_idx, mod_idx by auto. cbn [params_of q_W]. rewrite W_effective_net.
    unfold net_weight. rewrite Hmix. unfold edge_weight, pa_Fs.
    destruct Habs as [-> | ->]; unfold Rdiv; ring.
Qed.
Print Assumptions C16_no_absent_parents.

(** Hence the weight and impulse statistics of an absent edge are zero. *)
Theorem C16_absent_edge_statistics :
  forall use_gsl mult m d d',
  dm_mix m = false -> In d (dm_data m) -> pa_K d = dm_K m ->
  pa_nonneg d (dm_lam m) (net_weight m) (dm_g m) -> fits d ->
  multinomial_contract (1 + pa_K d * pa_B d) mult ->
  pa_resample use_gsl mult d (params_of m) = Ok d' ->
  forall k1 k2, (k1 < pa_K d)%nat -> (k2 < pa_K d)%nat -> dm_A m k1 k2 = false ->
  weight_ss0 d' k1 k2 = 0%Z /\ forall b, (b < pa_B d)%nat -> ir_ss d' k1 k2 b = 0%Z.
Proof.
  intros g mult m d d' Hmix Hin EK Hn Hf Hm E k1 k2 Hk1 Hk2 HA.
  assert (Hz := @C16_no_absent_parents g mult m d d' Hmix Hin EK Hn Hf Hm E).
  assert (Ed : pa_T d' = pa_T d /\ pa_B d' = pa_B d).
  { unfold pa_resample, resample_Z_gsl, resample_Z_python in E. destruct g;
      repeat match type of E with (if ?c then _ else _) = _ => destruct c; [discriminate|] end;
      injection E as <-; auto. }
  destruct Ed as [ET EB]. destruct (C15_statistics_meaning d' k2) as (_ & H2 & H3). rewrite EB in *. split.
  - rewrite H3, ET. apply Zsum_0; intros t Ht. apply Zsum_0; intros b Hb. apply Hz; auto.
  - intros b Hb. rewrite H2, ET. apply Zsum_0; intros t Ht. apply Hz; auto.
Qed.
Print Assumptions C16_absent_edge_statistics.

Definition ex_m16 : dmodel :=
  {| dm_K := 2; dm_B := 1; dm_dt := 1; dm_L := 2; dm_L_int := true;
     dm_bas := fun l _ => if Nat.eqb l 1 then 1 else 0; dm_mix := false;
     dm_A := fun k1 k2 => (Nat.eqb k1 0 && Nat.eqb k2 1)%bool;
     dm_W := fun _ _ => 1/2; dm_g := fun _ _ _ => 1; dm_lam := fun _ => 1; dm_data := [ex_p] |}.
Example C16_nonvacuous :
  dm_mix ex_m16 = false /\ In ex_p (dm_data ex_m16) /\
  pa_nonneg ex_p (dm_lam ex_m16) (net_weight ex_m16) (dm_g ex_m16) /\
  dm_A ex_m16 1%nat 0%nat = false /\ exists d', pa_resample false (ex_mult 3%nat) ex_p (params_of ex_m16) = Ok d'.
Proof.
  assert (Hn : pa_nonneg ex_p (dm_lam ex_m16) (net_weight ex_m16) (dm_g ex_m16)).
  { repeat split; cbn; intros; try lra.
    - unfold net_weight, edge_weight. cbn. destruct (Nat.eqb k1 0 && Nat.eqb k2 1)%bool; lra.
    - destruct (Nat.eqb t 1 && Nat.eqb k 0)%bool; lra. }
  split; [reflexivity|]. split; [now left|]. split; [exact Hn|]. split; [reflexivity|].
  apply resample_ok; [|apply ex_p_fits].
  destruct Hn as (H1 & H2 & H3 & H4). split; [exact H1|]. split; [|split; [exact H3|exact H4]].
  intros a c Ha Hc. cbn [params_of q_W]. rewrite W_effective_net. auto.
Qed.

(* ------------------------------------------------------------------ *)
(** ** C17 *)

Theorem C17_expected_counts :
  forall p e,
  pa_nonneg p (e_lam e) (e_W e) (e_g e) -> fits p ->
  exists p', mf_update_python p e = Ok p' /\ p' = set_EZ p (pa_EZ p') /\
  forall t k, (t < pa_T p)%nat -> (k < pa_K p)%nat ->
    (forall c, (c < 1 + pa_K p * pa_B p)%nat -> 0 <= expected_attributed p' t k c) /\
    Rsum (1 + pa_K p * pa_B p) (expected_attributed p' t k) = IZR (pa_S p t k).
Proof.
  intros p e Hn Hf. unfold mf_update_python.
  assert (E : all_rows p (fun k r => negb (Reqb (mf_norm p e k r) 0)) = true).
  { apply all_rows_true. intros k r Hk Hr. apply negb_true_iff, Reqb_false.
    pose proof (@mf_norm_pos p e k r Hn Hk Hr). lra. }
  rewrite E. cbn [negb]. eexists. split; [reflexivity|]. split; [reflexivity|].
  intros t k Ht Hk.
  set (EZ' := fun k2 r c => match c with O => _ | S i => _ end).
  change (set_EZ p (pa_EZ (set_EZ p EZ'))) with (set_EZ p EZ').
  destruct (Z.eq_dec (pa_S p t k) 0) as [H0|H0].
  - assert (Hz : forall c, expected_attributed (set_EZ p EZ') t k c = 0) by (intros; now apply expected_none).
    split; [intros; rewrite Hz; lra|]. rewrite H0. apply Rsum_0; auto.
  - destruct (@pa_row_surj p k t Ht H0) as (r & Hr & <-).
    assert (Ha : forall c, expected_attributed (set_EZ p EZ') (pa_row p k r) k c = EZ' k r c).
    { intros c. apply (@expected_row (set_EZ p EZ') k r c Hr). }
    destruct (@fits_Ss p k r Hf Hk Hr) as [Es Hs]. pose proof (@mf_norm_pos p e k r Hn Hk Hr) as HN.
    assert (Hs' : 0 < IZR (pa_Ss p k r)) by now apply IZR_lt.
    split.
    + intros c Hc. rewrite Ha. unfold EZ'. destruct c as [|i].
      * destruct Hn as (Hl & _). specialize (Hl k Hk).
        apply Rmult_le_pos; [|lra]. left. now apply Rdiv_lt_0_compat.
      * apply Rmult_le_pos; [|lra]. apply Rmult_le_pos; [apply pkb_nonneg; auto; lia|].
        left. now apply Rinv_0_lt_compat.
    + rewrite (Rsum_ext _ (EZ' k r)) by (intros; apply Ha). rewrite Rsum_app. cbn [Rsum Nat.add].
      unfold EZ'. rewrite Rsum_scal_r, Rsum_div, <- Es. unfold mf_norm in *.
      change (fun i : nat => pkb p e k r i) with (pkb p e k r) in *. field. lra.
Qed.
Print Assumptions C17_expected_counts.

(** The Cython routine, whatever order its parallel loop runs the rows in, computes
    the same rows as the Python one. *)
Theorem C17_cython_same_array :
  forall p e order, fits p -> pa_nonneg p (e_lam e) (e_W e) (e_g e) ->
  (forall k, (k < pa_K p)%nat -> Permutation (order k) (seq 0 (pa_Tk p k))) ->
  exists p', mf_update_python p e = Ok p' /\
  forall k r c, (k < pa_K p)%nat -> (r < pa_Tk p k)%nat -> (c < 1 + pa_K p * pa_B p)%nat ->
    cy_mf_update (order k) p e k r c = pa_EZ p' k r c.
Proof.
  intros p e order Hf Hn Ho. destruct (@C17_expected_counts p e Hn Hf) as (p' & E & _).
  exists p'. split; [exact E|]. unfold mf_update_python in E.
  destruct (all_rows p _) in E; [|discriminate]. cbn [negb] in E. injection E as <-.
  intros k r c Hk Hr Hc. unfold cy_mf_update. specialize (Ho k Hk).
  rewrite prange_rows_spec by (eapply Permutation_NoDup; [symmetry; exact Ho|apply seq_NoDup]).
  destruct (in_dec Nat.eq_dec r (order k)) as [_|Hn'].
  2:{ exfalso. apply Hn'. eapply Permutation_in; [symmetry; exact Ho|]. apply in_seq. lia. }
  destruct (@fits_Ss p k r Hf Hk Hr) as [Es Hs]. unfold cy_mf_row.
  destruct (Z.eqb_spec (pa_Ss p k r) 0); [lia|]. rewrite mf_norm_cy. cbn [set_EZ pa_EZ].
  destruct c as [|i]; [reflexivity|]. unfold pkb. f_equal. f_equal. ring.
Qed.
Print Assumptions C17_cython_same_array.

(** But the compiled path as called raises: Ss is uint32 and the routine wants long. *)
Theorem C17_compiled_call_raises_refuted :
  forall order p e, (0 < pa_K p)%nat -> mf_update_compiled order p e = Raise ValueError.
Proof.
  intros order p e H. unfold mf_update_compiled. cbn.
  destruct (Nat.eqb_spec (pa_K p) 0); [lia|reflexivity].
Qed.
Print Assumptions C17_compiled_call_raises_refuted.

Definition ex_e : mf_in := {| e_lam := q_lam ex_q; e_W := q_W ex_q; e_g := q_g ex_q |}.
Example C17_nonvacuous :
  pa_nonneg ex_p (e_lam ex_e) (e_W ex_e) (e_g ex_e) /\ fits ex_p /\
  Permutation (seq 0 (pa_Tk ex_p 0)) (seq 0 (pa_Tk ex_p 0)).
Proof. split; [apply ex_p_nonneg|]. split; [apply ex_p_fits|apply Permutation_refl]. Qed.

(* ------------------------------------------------------------------ *)
(** ** C18 *)

(** [x] are the expectations the bound reads; the update uses their exponentials. *)
Definition exp_of (x : mf_exp) : mf_in :=
  {| e_lam := fun k => exp (x_ln_lam x k); e_W := fun k1 k2 => exp (x_ln_W x k1 k2);
     e_g := fun k1 k2 b => exp (x_ln_g x k1 k2 b) |}.

(** Among all non-negative expected counts that add up to the observed counts and
    put nothing where the filtered activity is zero (elsewhere the bound is minus
    infinity), the updated ones maximise the data set's variational bound. *)
Theorem C18_mean_field_optimal :
  forall p x EZ',
  fits p ->
  (forall t k b, (t < pa_T p)%nat -> (k < pa_K p)%nat -> (b < pa_B p)%nat -> 0 <= pa_F p t k b) ->
  (forall k r c, (k < pa_K p)%nat -> (r < pa_Tk p k)%nat -> (c < 1 + pa_K p * pa_B p)%nat -> 0 <= EZ' k r c) ->
  (forall k r, (k < pa_K p)%nat -> (r < pa_Tk p k)%nat ->
     Rsum (1 + pa_K p * pa_B p) (EZ' k r) = IZR (pa_S p (pa_row p k r) k)) ->
  (forall k r k1 b, (k < pa_K p)%nat -> (r < pa_Tk p k)%nat -> (k1 < pa_K p)%nat -> (b < pa_B p)%nat ->
     pa_F p (pa_row p k r) k1 b = 0 -> EZ' k r (1 + (k1 * pa_B p + b))%nat = 0) ->
  exists p', mf_update_python p (exp_of x) = Ok p' /\
    vlb_python (set_EZ p EZ') x <= vlb_python p' x.
Proof.
  intros p x EZ' Hf HF Hz Hsum H0.
  set (e := exp_of x).
  assert (Hn : pa_nonneg p (e_lam e) (e_W e) (e_g e)).
  { repeat split; cbn; intros; try (left; apply exp_pos); try apply exp_pos. auto. }
  destruct (@C17_expected_counts p e Hn Hf) as (p' & E & Ep & _).
  exists p'. split; [exact E|].
  set (M := (1 + pa_K p * pa_B p)%nat).
  set (la := fun k r c => match c with
     | O => x_ln_lam x k
     | S i => nan_to_num (eadd (eadd (elog (Fin (pa_Fs p k r (i / pa_B p)%nat (i mod pa_B p)%nat)))
                   (Fin (x_ln_W x (i / pa_B p)%nat k))) (Fin (x_ln_g x (i / pa_B p)%nat k (i mod pa_B p)%nat)))
     end).
  set (a := fun k r c => match c with O => e_lam e k | S i => pkb p e k r i end).
  assert (Ha : forall k r, Rsum M (a k r) = mf_norm p e k r).
  { intros k r. unfold M. rewrite Rsum_app. cbn [Rsum Nat.add]. unfold mf_norm, a. lra. }
  (* the bound as a constant plus a sum over rows *)
  assert (Hvlb : forall Q, vlb_python (set_EZ p Q) x
     = Rsum (pa_K p) (fun k => - INR (pa_T p) * x_lam x k - Rsum (pa_K p) (fun k1 => IZR (pa_Ns p k1) * x_W x k1 k)
         + Rsum (pa_Tk p k) (fun r => Rsum M (fun c => Q k r c * la k r c - Q k r c * ntn_log (Q k r c / IZR (pa_Ss p k r)))))).
  { intros Q. unfold vlb_python. apply Rsum_ext; intros k Hk. unfold vlb_python_k.
    cbn [set_EZ pa_K pa_B pa_T pa_EZ].
    change (pa_Tk (set_EZ p Q) k) with (pa_Tk p k).
    change (fun r : nat => Rsum (pa_K p * pa_B p) (fun i : nat =>
        Q k r (S i) * nan_to_num (eadd (eadd (elog (Fin (pa_Fs (set_EZ p Q) k r (i / pa_B p)%nat (i mod pa_B p)%nat)))
           (Fin (x_ln_W x (i / pa_B p)%nat k))) (Fin (x_ln_g x (i / pa_B p)%nat k (i mod pa_B p)%nat)))))
      with (fun r : nat => Rsum (pa_K p * pa_B p) (fun i : nat => Q k r (S i) * la k r (S i))).
    change (fun r : nat => - Q k r 0%nat * ntn_log (Q k r 0%nat / IZR (pa_Ss (set_EZ p Q) k r)))
      with (fun r : nat => - Q k r 0%nat * ntn_log (Q k r 0%nat / IZR (pa_Ss p k r))).
    change (fun k1 => IZR (pa_Ns (set_EZ p Q) k1) * x_W x k1 k) with (fun k1 => IZR (pa_Ns p k1) * x_W x k1 k).
    change (fun r : nat => Rsum (pa_K p * pa_B p) (fun i : nat => - Q k r (S i) * ntn_log (Q k r (S i) / IZR (pa_Ss (set_EZ p Q) k r))))
      with (fun r : nat => Rsum (pa_K p * pa_B p) (fun i : nat => - Q k r (S i) * ntn_log (Q k r (S i) / IZR (pa_Ss p k r)))).
    assert (Er : Rsum (pa_Tk p k) (fun r => Rsum M (fun c => Q k r c * la k r c - Q k r c * ntn_log (Q k r c / IZR (pa_Ss p k r))))
      = Rsum (pa_Tk p k) (fun r => Q k r 0%nat * x_ln_lam x k)
        + Rsum (pa_Tk p k) (fun r => - Q k r 0%nat * ntn_log (Q k r 0%nat / IZR (pa_Ss p k r)))
        + Rsum (pa_Tk p k) (fun r => Rsum (pa_K p * pa_B p) (fun i => Q k r (S i) * la k r (S i)))
        + Rsum (pa_Tk p k) (fun r => Rsum (pa_K p * pa_B p) (fun i => - Q k r (S i) * ntn_log (Q k r (S i) / IZR (pa_Ss p k r))))).
    { rewrite <- !Rsum_plus. apply Rsum_ext; intros r Hr. unfold M. rewrite Rsum_app. cbn [Rsum Nat.add].
      rewrite Rsum_minus. rewrite (@Rsum_ext (pa_K p * pa_B p) (fun i => - Q k r (S i) * ntn_log (Q k r (S i) / IZR (pa_Ss p k r)))
         (fun i => - (Q k r (S i) * ntn_log (Q k r (S i) / IZR (pa_Ss p k r))))) by (intros; ring).
      rewrite Rsum_opp. change (la k r 0%nat) with (x_ln_lam x k). ring. }
    rewrite Er. ring. }
  assert (Hrow : forall k r, (k < pa_K p)%nat -> (r < pa_Tk p k)%nat ->
     0 < IZR (pa_Ss p k r) /\ (forall c, (c < M)%nat -> 0 <= a k r c) /\ 0 < Rsum M (a k r) /\
     (forall c, (c < M)%nat -> 0 < a k r c -> la k r c = ln (a k r c))).
  { intros k r Hk Hr. destruct (@fits_Ss p k r Hf Hk Hr) as [Es Hs].
    split; [now apply IZR_lt|]. split; [|split].
    - intros c Hc. destruct c as [|i]; [left; apply exp_pos|]. apply pkb_nonneg; auto. unfold M in Hc. lia.
    - rewrite Ha. now apply mf_norm_pos.
    - intros c Hc Hp. destruct c as [|i]; cbn [la a] in *; [symmetry; apply ln_exp|].
      unfold pkb in *. cbn [e exp_of e_W e_g] in *.
      set (k1 := (i / pa_B p)%nat) in *. set (b := (i mod pa_B p)%nat) in *.
      assert (HFp : 0 < pa_Fs p k r k1 b).
      { pose proof (exp_pos (x_ln_W x k1 k)). pose proof (exp_pos (x_ln_g x k1 k b)).
        assert (Hi : (i < pa_K p * pa_B p)%nat) by (unfold M in Hc; lia).
        destruct (@idx_bound (pa_K p) (pa_B p) i Hi) as [B1 B2]. destruct (@pa_row_in p k r Hr) as [B3 _].
        destruct (HF (pa_row p k r) k1 b B3 B1 B2) as [HH|HH]; [exact HH|]. unfold pa_Fs in Hp. rewrite <- HH in Hp. lra. }
      rewrite elog_fin by exact HFp. cbn [eadd nan_to_num].
      rewrite !ln_mult, !ln_exp; auto using exp_pos.
      apply Rmult_lt_0_compat; auto using exp_pos. }
  rewrite Ep, !Hvlb. apply Rsum_le; intros k Hk. apply Rplus_le_compat_l. apply Rsum_le; intros r Hr.
  destruct (Hrow k r Hk Hr) as (R1 & R2 & R3 & R4). destruct (@fits_Ss p k r Hf Hk Hr) as [Es Hs].
  eapply Rle_trans.
  - apply (@gibbs_row M (a k r) (la k r) (EZ' k r) (IZR (pa_Ss p k r)) R1 R2 R3 R4).
    + intros c Hc. now apply Hz.
    + rewrite Es. now apply Hsum.
    + intros c Hc Hac. destruct c as [|i]; cbn [a] in Hac.
      * exfalso. cbn in Hac. pose proof (exp_pos (x_ln_lam x k)). lra.
      * unfold pkb in Hac. cbn [e exp_of e_W e_g] in Hac.
        assert (Hi : (i < pa_K p * pa_B p)%nat) by (unfold M in Hc; lia).
        destruct (@idx_bound (pa_K p) (pa_B p) i Hi) as [B1 B2].
        set (k1 := (i / pa_B p)%nat) in *. set (b := (i mod pa_B p)%nat) in *.
        assert (HF0 : pa_F p (pa_row p k r) k1 b = 0).
        { pose proof (exp_pos (x_ln_W x k1 k)). pose proof (exp_pos (x_ln_g x k1 k b)).
          apply Rmult_integral in Hac as [Hac|Hac]; [|lra]. apply Rmult_integral in Hac as [Hac|Hac]; [exact Hac|lra]. }
        rewrite <- (H0 k r k1 b Hk Hr B1 B2 HF0). f_equal. unfold k1, b.
        rewrite idx_eq by lia. lia.
  - right. rewrite <- (@gibbs_row_eq M (a k r) (la k r) (IZR (pa_Ss p k r)) R1 R2 R3 R4).
    assert (EE : forall c, (c < M)%nat -> a k r c / Rsum M (a k r) * IZR (pa_Ss p k r) = pa_EZ p' k r c).
    { intros c Hc. rewrite Ha. unfold mf_update_python in E. destruct (all_rows p _) in E; [|discriminate].
      cbn [negb] in E. injection E as <-. destruct c; reflexivity. }
    apply Rsum_ext; intros c Hc. now rewrite EE.
Qed.
Print Assumptions C18_mean_field_optimal.

Example C18_nonvacuous : exists EZ' : nat -> nat -> nat -> R,
  (forall k r, (k < pa_K ex_p)%nat -> (r < pa_Tk ex_p k)%nat ->
     Rsum (1 + pa_K ex_p * pa_B ex_p) (EZ' k r) = IZR (pa_S ex_p (pa_row ex_p k r) k)) /\
  (forall k r c, 0 <= EZ' k r c) /\
  (forall k r k1 b, EZ' k r (1 + (k1 * pa_B ex_p + b))%nat = 0).
Proof.
  exists (fun k r c => match c with O => IZR (pa_S ex_p (pa_row ex_p k r) k) | _ => 0 end).
  split; [|split].
  - intros k r _ _. cbn [pa_K pa_B ex_p mk_parents Nat.mul Nat.add Rsum]. lra.
  - intros k r c. destruct c; [|lra]. apply IZR_le. cbn [ex_p mk_parents pa_S].
    destruct (Nat.eqb _ 0 && Nat.eqb k 0)%bool; [lia|]. destruct (Nat.eqb _ 1 && Nat.eqb k 1)%bool; lia.
  - reflexivity.
Qed.

(* ------------------------------------------------------------------ *)
(** ** C19 *)

Theorem C19_samplers_agree :
  forall p q k r, pa_nonneg p (q_lam q) (q_W q) (q_g q) -> fits p ->
  (k < pa_K p)%nat -> (r < pa_Tk p k)%nat ->
  let t := pa_row p k r in
  let rate := hawkes_rate (pa_K p) (pa_B p) (q_lam q) (q_W q) (q_g q) (pa_F p) t k in
  forall req, req = request_python p q k r \/ req = request_gsl p q k r ->
  fst req = pa_S p t k /\
  prob_vec (1 + pa_K p * pa_B p) (snd req) /\
  snd req 0%nat = q_lam q k / rate /\
  forall k1 b, (k1 < pa_K p)%nat -> (b < pa_B p)%nat ->
    snd req (1 + (k1 * pa_B p + b))%nat = q_W q k1 k * q_g q k1 k b * pa_F p t k1 b / rate.
Proof.
  intros p q k r Hn Hf Hk Hr t rate req Hreq.
  destruct (@fits_Ss p k r Hf Hk Hr) as [Es _]. destruct (@request_prob p q k r Hn Hk Hr) as [P1 P2].
  assert (G : forall c, snd req c = pvec_python p q k r c / rate).
  { intros c. unfold rate, t. rewrite <- row_rate_spec, <- pvec_sum.
    destruct Hreq as [-> | ->]; [reflexivity|]. destruct (request_gsl_eq p q k r) as [_ ->]. reflexivity. }
  split; [destruct Hreq as [-> | ->]; exact Es|]. split; [destruct Hreq as [-> | ->]; assumption|].
  split; [apply G|]. intros k1 b Hk1 Hb. rewrite G. cbn [Nat.add pvec_python].
  rewrite div_idx, mod_idx by auto. unfold pa_Fs, t. f_equal. ring.
Qed.
Print Assumptions C19_samplers_agree.

(** Consequently, with the same generator outcomes the two samplers store the same array. *)
Theorem C19_same_result :
  forall mult p q, pa_nonneg p (q_lam q) (q_W q) (q_g q) -> fits p ->
  (forall k r n v1 v2 c, (forall c', v1 c' = v2 c') -> mult k r n v1 c = mult k r n v2 c) ->
  exists p1 p2, resample_Z_python mult p q = Ok p1 /\ resample_Z_gsl mult p q = Ok p2 /\
  forall k r c, pa_Z p1 k r c = pa_Z p2 k r c.
Proof.
  intros mult p q Hn Hf Hext. destruct (@resample_ok false mult p q Hn Hf) as (p1 & E1).
  destruct (@resample_ok true mult p q Hn Hf) as (p2 & E2). cbn [pa_resample] in *.
  exists p1, p2. split; [exact E1|]. split; [exact E2|].
  unfold resample_Z_python in E1. unfold resample_Z_gsl in E2.
  destruct (all_rows p _) in E1; [|discriminate]. cbn [negb] in E1.
  destruct (all_rows p _) in E1; [|discriminate]. destruct (all_rows p _) in E2; [|discriminate].
  cbn [negb] in *. injection E1 as <-. injection E2 as <-. intros k r c. cbn [set_Z pa_Z request_python request_gsl].
  f_equal. apply Hext. intros c'. symmetry. apply (proj2 (request_gsl_eq p q k r)).
Qed.
Print Assumptions C19_same_result.
Example C19_nonvacuous : pa_nonneg ex_p (q_lam ex_q) (q_W ex_q) (q_g ex_q) /\ fits ex_p /\
  (1 < pa_K ex_p)%nat /\ (0 < pa_Tk ex_p 1)%nat /\
  snd (request_python ex_p ex_q 1 0) 1%nat = 1/2.
Proof.
  split; [apply ex_p_nonneg|]. split; [apply ex_p_fits|]. split; [cbn; lia|]. split; [cbn; lia|].
  cbn. unfold normalise. cbn. unfold pa_Fs, pa_row. cbn. lra.
Qed.
