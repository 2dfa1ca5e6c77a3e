(** * C96: fitting nonlinear processes (standard_models.py 101-126, 337-342). *)
From Verif Require Import Prelude ExtReal Arrays M_Basis M_Parents M_Discrete M_MeanField M_Standard M_Nonlinear.
From Verif Require Import Props_Standard Props_Nonlinear Props_Nonlinear2.
Set Implicit Arguments.
Open Scope R_scope.

(** The penalised log likelihood of a node at real weights w, as mathematics: [ll] is what log_likelihood() reports. *)
Definition penalty (n : nnode) (prec l : R) (w : vec) : R :=
  prec / 2 * Rsum (n_K n * n_B n) (fun j => w (1 + j)%nat ^ 2) + l * Rsum (n_K n * n_B n) (fun j => Rabs (w (1 + j)%nat)).
(** What is assumed of the optimiser: its answer has a finite objective, not above the one at the start. *)
Definition not_worse (n : nnode) (w0 x : vec) : Prop := exists v v', n_objective n w0 = Fin v /\ n_objective n x = Fin v' /\ v' <= v.

Lemma node_ll_total n w : node_rates_pos n w -> n_log_likelihood (n_with_w n (finw w)) None = Ok (Fin (lsum (map (node_ll n w) (n_data n)))).
Proof.
  intros Hr. unfold n_log_likelihood. cbn [n_data n_w n_with_w]. f_equal. apply elsum_map_fin. intros d Hd.
  change (n_ll_data (n_with_w n (finw w)) (finw w) d) with (n_ll_data n (finw w) d). apply n_ll_data_fin. intros t Ht. now apply Hr.
Qed.

Lemma div_le_inv N a b : 0 < N -> a / N <= b / N -> a <= b.
Proof. intros HN H. apply Rmult_le_compat_r with (r := N) in H; [|lra]. unfold Rdiv in H. rewrite !Rmult_assoc, !Rinv_l, !Rmult_1_r in H by lra. exact H. Qed.

(** One node (any link with positive rates at both points): fitting replaces the weights by the optimiser's answer, keeps
    everything else, and the penalised log likelihood does not go down. *)
Theorem C96_node_fit_never_worse :
  forall n w0 x prec l, n_kind n <> Homog -> n_w n = finw w0 -> 0 < n_total n -> node_rates_pos n w0 -> node_rates_pos n x ->
  sigma_prec (n_sigma n) prec -> n_lmbda n = Fin l -> not_worse n w0 x ->
  n_fit n x = n_with_w n (finw x) /\
  exists v v', n_log_likelihood n None = Ok (Fin v) /\ n_log_likelihood (n_fit n x) None = Ok (Fin v') /\
    v - penalty n prec l w0 <= v' - penalty n prec l x.
Proof.
  intros n w0 x prec l Hk Hw HN H0 Hx Hs Hl (v & v' & E & E' & Hle).
  assert (Ef : n_fit n x = n_with_w n (finw x)) by (unfold n_fit; destruct (n_kind n); [reflexivity|reflexivity|reflexivity|congruence]).
  split; [exact Ef|]. rewrite Ef.
  assert (En : n = n_with_w n (finw w0)) by (destruct n; cbn in *; subst; reflexivity).
  do 2 eexists. split; [rewrite En at 1; now apply node_ll_total|]. split; [now apply node_ll_total|].
  rewrite (@objective_fin n w0 prec l) in E by auto. rewrite (@objective_fin n x prec l) in E' by auto. injection E as <-. injection E' as <-.
  unfold penalty. cbn [n_data n_with_w]. apply (div_le_inv HN) in Hle. cbn [Nat.add pow]. lra.
Qed.
Print Assumptions C96_node_fit_never_worse.

Definition fitted (p : nproc) (x : nat -> vec) : nproc := n_op p (NFit x).
Lemma fit_nodes_ll (x : nat -> vec) ns : forall s,
  (forall i n, nth_error ns i = Some n -> exists w0, n_kind n <> Homog /\ n_w n = finw w0 /\ 0 < n_total n /\ node_rates_pos n w0 /\ node_rates_pos n (x (s + i)%nat) /\
     n_sigma n = PInf /\ n_lmbda n = Fin 0 /\ not_worse n w0 (x (s + i)%nat)) ->
  exists v v', p_ll_nodes ns None = Ok (Fin v) /\
    p_ll_nodes (map (fun kn => n_fit (snd kn) (x (fst kn))) (combine (seq s (length ns)) ns)) None = Ok (Fin v') /\ v <= v'.
Proof.
  induction ns as [|n ns IH]; intros s H.
  - exists 0, 0. split; [reflexivity|]. split; [reflexivity|lra].
  - cbn [length seq combine map p_ll_nodes fst snd].
    destruct (H 0%nat n eq_refl) as (w0 & Hk & Hw & HN & H0 & Hx & Hs & Hl & Hn). rewrite Nat.add_0_r in Hx, Hn.
    destruct (@C96_node_fit_never_worse n w0 (x s) 0 0) as (_ & a & a' & Ea & Ea' & Hle); auto. { left; auto. }
    destruct (IH (S s)) as (b & b' & Eb & Eb' & Hle').
    { intros i n' Hi. specialize (H (S i) n' Hi). replace (S s + i)%nat with (s + S i)%nat by lia. exact H. }
    rewrite Ea, Ea', Eb, Eb'. cbn [bindr]. exists (a + b), (a' + b'). rewrite !eadd_fin. split; [reflexivity|]. split; [reflexivity|].
    unfold penalty in Hle. lra.
Qed.
(** A process without penalties (the constructor's defaults), every node with at least one event: fit_with_bfgs() never
    lowers the process's log likelihood, whatever answers (no worse than their starts) the optimiser gives. *)
Theorem C96_process_fit_never_worse :
  forall p (x : nat -> vec),
  (forall k n, nth_error (p_nodes p) k = Some n -> n_kind n <> Homog /\ n_sigma n = PInf /\ n_lmbda n = Fin 0 /\ 0 < n_total n /\
     exists w0, n_w n = finw w0 /\ node_rates_pos n w0 /\ node_rates_pos n (x k) /\ not_worse n w0 (x k)) ->
  (forall k n, nth_error (p_nodes p) k = Some n -> nth_error (p_nodes (fitted p x)) k = Some (n_with_w n (finw (x k)))) /\
  exists v v', p_log_likelihood p None = Ok (Fin v) /\ p_log_likelihood (fitted p x) None = Ok (Fin v') /\ v <= v'.
Proof.
  intros p x H. split.
  - intros k n Hk. unfold fitted. cbn [n_op p_nodes p_with_nodes].
    destruct (H k n Hk) as (Hh & _).
    assert (Hc : nth_error (combine (seq 0 (length (p_nodes p))) (p_nodes p)) k = Some (k, n)).
    { assert (Hg : forall (l : list nnode) s i m, nth_error l i = Some m -> nth_error (combine (seq s (length l)) l) i = Some ((s + i)%nat, m)).
      { induction l as [|a l IH]; intros s [|i] m Hm; try discriminate; cbn in *.
        - injection Hm as ->. now rewrite Nat.add_0_r.
        - rewrite (IH (S s) i m Hm). do 2 f_equal. lia. }
      apply (Hg (p_nodes p) 0%nat). exact Hk. }
    erewrite map_nth_error by exact Hc. cbn [fst snd]. f_equal. unfold n_fit. destruct (n_kind n); congruence || reflexivity.
  - unfold p_log_likelihood, fitted. cbn [n_op p_nodes p_with_nodes]. apply fit_nodes_ll.
    intros i n Hi. destruct (H i n Hi) as (Hk & Hs & Hl & HN & w0 & Hw & H0 & Hx & Hn). exists w0. cbn [Nat.add]. repeat split; auto.
Qed.
Print Assumptions C96_process_fit_never_worse.

(** Where the optimiser stops.  For the linear, homogeneous and exponential links a feasible point that no feasible point
    within distance r beats is beaten by no feasible point at all. *)
Definition feasible (n : nnode) (w : vec) : Prop := node_rates_pos n w /\ n_in_bounds n w.
Definition near (P : nat) (r : R) (a b : vec) : Prop := forall j, (j < P)%nat -> Rabs (a j - b j) < r.
Theorem C96_local_optimum_is_global :
  forall n w r prec l, n_kind n <> Relu -> 0 < n_total n -> 0 <= n_dt n ->
  (forall d t, In d (n_data n) -> (t < nd_T d)%nat -> (0 <= nd_S d t)%Z) ->
  sigma_prec (n_sigma n) prec -> n_lmbda n = Fin l -> 0 <= l -> feasible n w -> 0 < r ->
  (forall w' v v', feasible n w' -> near (n_P n) r w' w -> n_objective n w = Fin v -> n_objective n w' = Fin v' -> v <= v') ->
  forall w', feasible n w' -> exists v v', n_objective n w = Fin v /\ n_objective n w' = Fin v' /\ v <= v'.
Proof.
  intros n w r prec l Hk HN Hdt Hc Hs Hl Hl0 (Hw & Hb) Hr Hloc w' (Hw' & Hb').
  (* a step so small that the mixture is near w *)
  set (M := 1 + Rsum (n_P n) (fun j => Rabs (w' j - w j))).
  assert (HM : 1 <= M). { unfold M. assert (0 <= Rsum (n_P n) (fun j => Rabs (w' j - w j))) by (apply Rsum_nonneg; intros; apply Rabs_pos). lra. }
  set (th := Rmin 1 (r / (2 * M))).
  assert (Hth : 0 < th <= 1).
  { split; [|apply Rmin_l]. unfold th. apply Rmin_glb_lt; [lra|]. apply Rdiv_lt_0_compat; lra. }
  assert (HthM : th * M <= r / 2).
  { apply Rle_trans with (r / (2 * M) * M); [apply Rmult_le_compat_r; [lra|apply Rmin_r]|]. right. field. lra. }
  destruct (@C75_objective_convex_partial n w' w th prec l) as (v' & v & vm & E' & E & Em & Hm); auto; try lra.
  exists v, v'. split; [exact E|]. split; [exact E'|].
  assert (Hfm : feasible n (mixv th w' w)).
  { split.
    - intros d t Hd Ht. specialize (Hw d t Hd Ht). specialize (Hw' d t Hd Ht). unfold node_rate in *. rewrite psi_mix.
      destruct (n_kind n); [|congruence|apply exp_pos|]; cbn [link_val] in *; apply mix_pos; auto; lra.
    - unfold n_in_bounds in *. destruct (n_kind n); auto. intros j Hj. unfold mixv. specialize (Hb j Hj). specialize (Hb' j Hj). nra. }
  assert (Hnear : near (n_P n) r (mixv th w' w) w).
  { intros j Hj. unfold mixv. replace (th * w' j + (1 - th) * w j - w j) with (th * (w' j - w j)) by ring.
    rewrite Rabs_mult, (Rabs_pos_eq th) by lra.
    assert (Rabs (w' j - w j) <= M).
    { unfold M. assert (Rabs (w' j - w j) <= Rsum (n_P n) (fun j => Rabs (w' j - w j))); [|lra].
      apply (@Rsum_term_le (n_P n) (fun j => Rabs (w' j - w j)) j); auto. intros; apply Rabs_pos. }
    apply Rle_lt_trans with (th * M); [apply Rmult_le_compat_l; lra|lra]. }
  pose proof (Hloc _ _ _ Hfm Hnear E Em) as Hvm.
  assert (th * v <= th * v') by lra. apply Rmult_le_reg_l with th; lra.
Qed.
Print Assumptions C96_local_optimum_is_global.

(** A node without a single event: with the constructor's default lmbda = 0 the objective is NaN at every point, so the
    optimiser has nothing to go by and "not worse than the start" is never met. *)
Theorem C96_silent_node_refuted :
  forall n w, n_total n = 0 -> n_lmbda n = Fin 0 -> n_objective n w = NaN /\ forall x, ~ not_worse n w x.
Proof.
  intros n w HN Hl.
  assert (E : n_objective n w = NaN).
  { unfold n_objective. cbv zeta. rewrite HN, Hl.
    rewrite (@esum_fin _ _ (fun j => Rabs (w (S j)) * 0)) by (intros; now rewrite emul_fin).
    assert (E0 : Rsum (n_P n - 1) (fun j => Rabs (w (S j)) * 0) = 0) by (apply Rsum_0; intros; ring).
    rewrite E0. replace (ediv (Fin 0) (Fin 0)) with NaN.
    - match goal with |- eadd ?a NaN = NaN => destruct a; reflexivity end.
    - unfold ediv, einf_sign. replace (Reqb 0 0) with true by (symmetry; now apply Reqb_true). destruct (Rltb 0 0) eqn:E; [apply Rltb_true in E; lra|]. reflexivity. }
  split; [exact E|]. intros x (v & v' & Ev & _). rewrite E in Ev. discriminate.
Qed.
Print Assumptions C96_silent_node_refuted.

(** The hypotheses are met: a process of one exponential node with one event in two bins; the answer halves the rate to
    the maximum-likelihood value.  At the optimum the local condition holds as well. *)
Definition nf_data : ndata := {| nd_T := 2; nd_F := fun _ j => match j with O => 1 | _ => 0 end; nd_S := fun t => match t with O => 1%Z | _ => 0%Z end |}.
Definition nf_node : nnode := n_with_data (n_init Expo 1 1 1 (Some PInf) (Some (Fin 0))) [nf_data].
Definition nf_proc : nproc := {| p_K := 1; p_B := 1; p_L := 1; p_bas := fun _ _ => 1; p_nodes := [nf_node] |}.
Definition nf_x : vec := fun j => match j with O => - ln 2 | _ => 0 end.
Lemma nf_obj w : n_objective nf_node w = Fin (2 * exp (w 0%nat) - w 0%nat).
Proof.
  rewrite (@objective_fin nf_node w 0 0).
  - f_equal. unfold n_total, nf_node, node_ll, node_rate, psi_fin, n_P. cbn. rewrite !ln_exp. cbn.
    replace (0 + 1 * w 0%nat + 0 * w 1%nat) with (w 0%nat) by ring. field.
  - unfold n_total. cbn. lra.
  - apply relu_expo_pos. now right.
  - left. split; reflexivity.
  - reflexivity.
Qed.
Example C96_nonvacuous :
  (forall k n, nth_error (p_nodes nf_proc) k = Some n -> n_kind n <> Homog /\ n_sigma n = PInf /\ n_lmbda n = Fin 0 /\ 0 < n_total n /\
     exists w0, n_w n = finw w0 /\ node_rates_pos n w0 /\ node_rates_pos n nf_x /\ not_worse n w0 nf_x) /\
  feasible nf_node nf_x /\
  (forall w' v v', feasible nf_node w' -> near (n_P nf_node) 1 w' nf_x -> n_objective nf_node nf_x = Fin v -> n_objective nf_node w' = Fin v' -> v <= v') /\
  n_total (n_with_data nf_node []) = 0.
Proof.
  assert (Hx : 2 * exp (nf_x 0%nat) = 1). { unfold nf_x. rewrite exp_Ropp, exp_ln by lra. field. }
  assert (Hpos : forall w, node_rates_pos nf_node w) by (intros w; apply relu_expo_pos; now right).
  split; [|split; [|split]].
  - intros [|[|k]] n Hn; try discriminate. injection Hn as <-. split; [discriminate|]. split; [reflexivity|]. split; [reflexivity|].
    split; [unfold n_total; cbn; lra|]. exists (fun _ => 0). split; [reflexivity|]. split; [apply Hpos|]. split; [apply Hpos|].
    exists (2 * exp 0 - 0), (1 - nf_x 0%nat). rewrite !nf_obj, Hx. split; [reflexivity|]. split; [reflexivity|]. rewrite exp_0.
    unfold nf_x. assert (ln 2 <= 1); [|lra]. rewrite <- (ln_exp 1). pose proof (exp_ineq1_le 1).
    destruct (Req_dec 2 (exp 1)) as [E|E]; [rewrite <- E; lra|left; apply ln_increasing; lra].
  - split; [apply Hpos|exact I].
  - intros w' v v' _ _ E E'. rewrite nf_obj in E, E'. assert (Ev : v = 2 * exp (nf_x 0%nat) - nf_x 0%nat) by congruence. assert (Ev' : v' = 2 * exp (w' 0%nat) - w' 0%nat) by congruence.
    clear E E'. subst v v'.
    pose proof (exp_tangent (nf_x 0%nat) (w' 0%nat)). assert (Hh : exp (nf_x 0%nat) = 1 / 2) by lra. rewrite Hh in *. lra.
  - reflexivity.
Qed.
