(** * Props_Refused5: refused calls (C106) and outcomes no earlier theorem fixed; added after the fifth automatic mutation
    campaign. *)
From Verif Require Import Prelude ExtReal Arrays M_Parents M_Discrete M_Network M_MeanField M_Dist M_Stability M_Continuous
  M_InterruptVb M_Sweep M_Utils M_Standard M_CtInit M_Rvs M_Plot.
From Verif Require Import M_Utils M_FloatConv Props_Utils.
Set Implicit Arguments.
Open Scope R_scope.

(** ** A Bernoulli distribution with a parameter outside [0,1] is refused with AssertionError. *)
Theorem C106_bernoulli : forall p, p < 0 \/ 1 < p -> bernoulli_init p = Raise AssertionError.
Proof.
  intros p H. unfold bernoulli_init. replace (Rleb 0 p && Rleb p 1)%bool with false; [reflexivity|]. symmetry. apply andb_false_iff.
  destruct H as [H|H]; [left|right]; now apply Rleb_false.
Qed.
Print Assumptions C106_bernoulli.

(** ** The stability of a model without processes: there is no largest eigenvalue, and the check raises ValueError. *)
Theorem C106_no_processes : forall eigvals eigs1, (forall W, eigvals 0%nat W = []) ->
  (forall m, dm_K m = 0%nat -> check_stability eigvals eigs1 m = Raise ValueError) /\
  (forall m, cm_K m = 0%nat -> ct_check_stability eigvals eigs1 m = Raise ValueError).
Proof.
  intros eigvals eigs1 H. unfold check_stability, ct_check_stability, stability_test.
  split; intros m ->; rewrite H; reflexivity.
Qed.
Print Assumptions C106_no_processes.

(** ** One process under a block network of several blocks: initialising from a standard model leaves an array of edges of the
    shape of the blocks, entry (i,j) saying whether the only weight exceeds the percentile of the sparsity p[i, j]. *)
Theorem C109_single_process : forall W fp s r c A, sb_C s <> 1%nat -> ct_threshold 1 W (NetSbm fp s) = Ok (r, c, A) ->
  r = sb_C s /\ c = sb_C s /\ forall i j, (i < sb_C s)%nat -> (j < sb_C s)%nat ->
    exists thr, percentile [W 0%nat 0%nat] ((1 - sb_p s i j) * 100) = Ok thr /\ (A i j = true <-> thr < W 0%nat 0%nat).
Proof.
  intros W fp s r c A HC. cbn [ct_threshold]. unfold percentile_table. destruct (forall_lt _ _) eqn:F; cbn [bindr].
  - destruct (Nat.eqb (sb_C s) 1) eqn:E; [apply Nat.eqb_eq in E; contradiction|]. cbn [Nat.eqb]. intros [= <- <- <-].
    split; [reflexivity|]. split; [reflexivity|]. intros i j Hi Hj. rewrite forall_lt_true in F. specialize (F i Hi).
    rewrite forall_lt_true in F. specialize (F j Hj). change (flat_mat 1 W) with [W 0%nat 0%nat] in *.
    destruct (percentile _ _) as [thr|e]; [|discriminate]. exists thr. split; [reflexivity|apply Rltb_true].
  - destruct (flat_mat 1 W); discriminate.
Qed.
Print Assumptions C109_single_process.
Example C109_single_process_nonvacuous : forall fp s, sb_C s = 2%nat -> (forall i j, 0 <= sb_p s i j <= 1) ->
  exists A, ct_threshold 1 (fun _ _ => 1) (NetSbm fp s) = Ok (2%nat, 2%nat, A).
Proof.
  intros fp s HC Hp. cbn [ct_threshold]. unfold percentile_table. rewrite HC.
  assert (E : forall i j, exists x, percentile (flat_mat 1 (fun _ _ => 1)) ((1 - sb_p s i j) * 100) = Ok x).
  { intros i j. specialize (Hp i j). unfold percentile. replace (Rltb _ 0) with false by (symmetry; apply Rltb_false; lra).
    replace (Rltb 100 _) with false by (symmetry; apply Rltb_false; lra). cbn [orb flat_mat flat_map seq map app]. eexists. reflexivity. }
  replace (forall_lt 2 _) with true.
  - cbn [bindr Nat.eqb]. eexists. reflexivity.
  - symmetry. apply forall_lt_true. intros i _. apply forall_lt_true. intros j _. destruct (E i j) as (x & ->). reflexivity.
Qed.

(** ** A stochastic variational step needs exactly one data set; otherwise it is refused with AssertionError before anything is
    assigned. *)
Theorem C106_one_data_set : forall lgam psi mb step n m, length (mm_data m) <> 1%nat -> (0 < n)%nat ->
  vb_interrupted lgam psi (OpSgd mb step) n m = (Raise AssertionError, m).
Proof.
  intros lgam psi mb step n m H Hn. unfold vb_interrupted. cbn [op_vsteps]. unfold sgd_vsteps.
  destruct n as [|n]; [lia|]. destruct (mm_data m) as [|d [|d' l]]; [|cbn in H; lia|]; cbn [firstn]; destruct n; reflexivity.
Qed.
Print Assumptions C106_one_data_set.

(** ** Counts given to add_data: ValueError exactly for an array of the right number of columns with nothing in it (the minimum
    of no entries), AssertionError for everything else that is refused. *)
Theorem C106_counts_exact : forall K s,
  (check_S K s = Raise ValueError <-> sv_isarray s = true /\ exists T, sv_dims s = [T; K] /\ (T = 0%nat \/ K = 0%nat)) /\
  (forall e, check_S K s = Raise e -> e = ValueError \/ e = AssertionError) /\
  ((forall T, sv_dims s <> [T; K]) -> check_S K s = Raise AssertionError) /\
  (forall T, sv_isarray s = true -> sv_dims s = [T; K] -> (0 < T)%nat -> (0 < K)%nat ->
     sv_isint s = false \/ (exists t k, (t < T)%nat /\ (k < K)%nat /\ (sv_at s t k < 0)%Z) -> check_S K s = Raise AssertionError).
Proof.
  intros K s. unfold check_S. destruct (sv_isarray s); cbn [negb].
  2:{ split; [split; [discriminate|intros (H & _); discriminate]|]. split; [intros e [= <-]; now right|]. split; [reflexivity|]. intros T H. discriminate. }
  destruct (sv_dims s) as [|T [|K' [|x r]]];
    try (split; [split; [discriminate|intros (_ & T0 & H & _); discriminate]|]; split; [intros e [= <-]; now right|]; split; [reflexivity|]; intros T0 _ H; discriminate).
  destruct (Nat.eqb_spec K' K) as [->|HK]; cbn [negb].
  2:{ split; [split; [discriminate|intros (_ & T0 & [= _ H] & _); contradiction]|]. split; [intros e [= <-]; now right|]. split; [reflexivity|]. intros T0 _ [= _ H]; contradiction. }
  destruct (Nat.eqb T 0 || Nat.eqb K 0)%bool eqn:E.
  - split; [split; [intros _|reflexivity]|].
    { split; [reflexivity|]. exists T. split; [reflexivity|]. apply orb_true_iff in E as [E|E]; apply Nat.eqb_eq in E; auto. }
    split; [intros e [= <-]; now left|]. split; [intros H; exfalso; now apply (H T)|].
    intros T0 _ [= <-] HT HK. exfalso. apply orb_true_iff in E as [E|E]; apply Nat.eqb_eq in E; lia.
  - apply orb_false_iff in E as [ET EK]. apply Nat.eqb_neq in ET, EK.
    assert (NV : forall r, r = Ok T \/ r = Raise AssertionError ->
      (r = Raise ValueError <-> true = true /\ (exists T0, [T; K] = [T0; K] /\ (T0 = 0%nat \/ K = 0%nat))) /\
      (forall e, r = Raise e -> e = ValueError \/ e = AssertionError)).
    { intros r Hr. split.
      - split; [intros ->; destruct Hr; discriminate|]. intros (_ & T0 & [= <-] & [H|H]); contradiction.
      - intros e ->. destruct Hr as [|[= ->]]; [discriminate|now right]. }
    destruct (sv_isint s); cbn [negb].
    + destruct (forall_lt T _) eqn:F; (split; [|split]); try (apply NV; auto; fail);
        try (split; [intros H; exfalso; now apply (H T)|]); try reflexivity.
      intros T0 _ [= <-] _ _ [H|(t & k & Ht & Hk & Hn)]; [discriminate|exfalso]. rewrite forall_lt_true in F. specialize (F t Ht).
      rewrite forall_lt_true in F. specialize (F k Hk). apply Z.leb_le in F. lia.
    + split; [|split]; try (apply NV; auto; fail). split; [intros H; exfalso; now apply (H T)|]. reflexivity.
Qed.
Print Assumptions C106_counts_exact.

(** ** Conversions between binned counts and event times: a negative count is refused with ValueError, and event times and
    labels of different lengths with IndexError as soon as there is a time bin and some label is not negative; the same in
    double precision. *)
Theorem C106_conversions :
  (forall rand argsort T K S_ dt t k, (t < T)%nat -> (k < K)%nat -> (S_ t k < 0)%Z ->
     discrete_to_continuous rand argsort T K S_ dt = Raise ValueError /\ f_discrete_to_continuous rand argsort T K S_ dt = Raise ValueError) /\
  (forall S_ C_ dt Tmin Tmax c, 0 < dt -> Tmin < Tmax -> In c C_ -> (0 <= c)%Z -> length S_ <> length C_ ->
     continuous_to_discrete S_ C_ dt Tmin Tmax = Raise IndexError) /\
  (forall S_ C_ dt Tmin Tmax c, 0 < dt -> f_arange_len Tmin Tmax dt <> 0%nat -> In c C_ -> (0 <= c)%Z -> length S_ <> length C_ ->
     f_continuous_to_discrete S_ C_ dt Tmin Tmax = Raise IndexError).
Proof.
  assert (F : forall T K S_ t k, (t < T)%nat -> (k < K)%nat -> (S_ t k < 0)%Z ->
    forall_lt T (fun t => forall_lt K (fun k => (0 <=? S_ t k)%Z)) = false).
  { intros T K S_ t k Ht Hk Hn. destruct (forall_lt T _) eqn:E; [|reflexivity]. rewrite forall_lt_true in E. specialize (E t Ht).
    rewrite forall_lt_true in E. specialize (E k Hk). apply Z.leb_le in E. lia. }
  assert (G : forall (C_ : list Z) c, In c C_ -> (0 <= c)%Z -> Nat.eqb (length C_) 0 = false /\ (0 <=? zmax C_ + 1)%Z = true /\ Z.eqb (zmax C_ + 1) 0 = false).
  { intros C_ c Hin Hc. assert (HC : C_ <> []) by (intros ->; contradiction). destruct (zmax_spec HC) as [_ H]. specialize (H c Hin).
    split; [|split]; [destruct C_; [contradiction|reflexivity]|apply Z.leb_le; lia|apply Z.eqb_neq; lia]. }
  split; [|split].
  - intros rand argsort T K S_ dt t k Ht Hk Hn. unfold discrete_to_continuous, f_discrete_to_continuous.
    rewrite (F T K S_ t k Ht Hk Hn). destruct (Nat.eqb K 0); split; reflexivity.
  - intros S_ C_ dt Tmin Tmax c Hd HT Hin Hc Hl. destruct (G C_ c Hin Hc) as (G1 & G2 & G3). unfold continuous_to_discrete.
    rewrite (proj2 (Rltb_true _ _) Hd). cbn [guard bindr].
    assert (N : arange_len (Tmax - Tmin) dt <> 0%nat).
    { assert (P : (0 < arange_len (Tmax - Tmin) dt)%nat) by (apply arange_len_pos; lra). lia. }
    destruct (Nat.eqb_spec (arange_len (Tmax - Tmin) dt) 0); [contradiction|]. cbn [negb guard bindr].
    rewrite G1, G2, G3. cbn [negb guard bindr]. destruct (Nat.eqb_spec (length S_) (length C_)); [contradiction|]. reflexivity.
  - intros S_ C_ dt Tmin Tmax c Hd HT Hin Hc Hl. destruct (G C_ c Hin Hc) as (G1 & G2 & G3). unfold f_continuous_to_discrete.
    rewrite (proj2 (Rltb_true _ _) Hd). cbn [guard bindr].
    destruct (Nat.eqb_spec (f_arange_len Tmin Tmax dt) 0); [contradiction|]. cbn [negb guard bindr].
    rewrite G1, G2, G3. cbn [negb guard bindr]. destruct (Nat.eqb_spec (length S_) (length C_)); [contradiction|]. reflexivity.
Qed.
Print Assumptions C106_conversions.

(** ** The bias model's likelihood of a vector of the wrong length, or of no vector, is refused with AssertionError; the
    adjacency plot of a model without processes with ValueError unless its colour range is given. *)
Theorem C106_wrong_length_or_empty :
  (forall lgam K alpha beta n v, n <> K -> bias_log_likelihood lgam K alpha beta (HVec n v) = Raise AssertionError) /\
  (forall lgam K alpha beta, bias_log_likelihood lgam K alpha beta HNone = Raise AssertionError) /\
  (forall m im, dm_K m = 0%nat -> plot_adjacency m im None = Raise ValueError) /\
  (forall m vmax, exists im, plot_adjacency m None (Some vmax) = Ok im).
Proof.
  split; [|split; [|split]].
  - intros lgam K alpha beta n v H. cbn [bias_log_likelihood]. destruct (Nat.eqb_spec n K); [contradiction|reflexivity].
  - reflexivity.
  - intros m im H. unfold plot_adjacency. rewrite H. reflexivity.
  - intros m vmax. eexists. reflexivity.
Qed.
Print Assumptions C106_wrong_length_or_empty.
