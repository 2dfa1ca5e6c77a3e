(** * Props_NetLl: network.log_likelihood(x) (C133). *)
From Coq Require Import Permutation.
From Verif Require Import Prelude ExtReal Arrays Spec_Discrete Spec_Gibbs Spec_Network Spec_Joint M_Basis M_Parents M_Discrete M_Gibbs M_Dist
  M_Network M_Sweep M_Prior M_NetLl L_Network L_Discrete Props_Dist Props_Network Props_Prior.
Set Implicit Arguments.
Open Scope R_scope.

(** Valid block parameters: positive block probabilities summing to one, connection probabilities strictly between 0 and 1, positive
    scales, labels naming blocks. *)
Definition valid_x (K C : nat) (m : vec) (p v : mat) (c : nat -> nat) : Prop :=
  (forall i, (i < C)%nat -> 0 < m i) /\ Rsum C m = 1 /\
  (forall i j, (i < C)%nat -> (j < C)%nat -> 0 < p i j < 1 /\ 0 < v i j) /\ (forall k, (k < K)%nat -> (c k < C)%nat).

(** A block model: the value at (m, p, v, c) is the log prior density of (m, p, v, c), up to a constant that depends only on the
    number of blocks and the Beta prior and vanishes for one block. *)
Theorem C133_block_model_partial : forall lgam s m p v c, 0 < sb_beta s -> valid_x (sb_K s) (sb_C s) m p v c ->
  net_log_likelihood lgam (NetSbm false s) (X4 m p v c) =
  Ok (Fin (sbm_lp lgam (sb_K s) (sb_C s) (sb_pi s) (sb_tau1 s) (sb_tau0 s) (sb_alpha s) (sb_beta s) m c p v
           + sbm_offset lgam (sb_C s) (sb_tau1 s) (sb_tau0 s))) /\
  (sb_C s = 1%nat -> sbm_offset lgam (sb_C s) (sb_tau1 s) (sb_tau0 s) = 0).
Proof.
  intros lgam s m p v c Hb (Hm & Hs & Hp & Hc).
  assert (H := @C89_block_model_partial lgam (sb_set s m c p v)). cbn in H. apply H; auto.
  split; auto.
Qed.
(** The values of two parameter settings differ by exactly their log prior ratio, for any number of blocks: the value can be used to
    compare settings. *)
Theorem C133_block_model_ratio : forall lgam s m p v c m' p' v' c', 0 < sb_beta s ->
  valid_x (sb_K s) (sb_C s) m p v c -> valid_x (sb_K s) (sb_C s) m' p' v' c' ->
  exists a b, net_log_likelihood lgam (NetSbm false s) (X4 m p v c) = Ok (Fin a) /\
    net_log_likelihood lgam (NetSbm false s) (X4 m' p' v' c') = Ok (Fin b) /\
    let lp := sbm_lp lgam (sb_K s) (sb_C s) (sb_pi s) (sb_tau1 s) (sb_tau0 s) (sb_alpha s) (sb_beta s) in
    a - b = lp m c p v - lp m' c' p' v'.
Proof.
  intros lgam s m p v c m' p' v' c' Hb H H'.
  destruct (@C133_block_model_partial lgam s m p v c Hb H) as [E _]. destruct (@C133_block_model_partial lgam s m' p' v' c' Hb H') as [E' _].
  rewrite E, E'. eexists _, _. split; [reflexivity|]. split; [reflexivity|]. cbv zeta. ring.
Qed.
(** It does not depend on the network's own current parameters. *)
Theorem C133_block_model_reads_its_argument : forall lgam s s' x, sb_K s = sb_K s' -> sb_C s = sb_C s' -> sb_pi s = sb_pi s' ->
  sb_tau1 s = sb_tau1 s' -> sb_tau0 s = sb_tau0 s' -> sb_alpha s = sb_alpha s' -> sb_beta s = sb_beta s' ->
  forall fp, net_log_likelihood lgam (NetSbm fp s) x = net_log_likelihood lgam (NetSbm fp s') x.
Proof.
  intros lgam s s' x E1 E2 E3 E4 E5 E6 E7 fp. destruct fp; cbn; unfold sbm_log_likelihood, fsbm_log_likelihood;
  destruct x; rewrite ?E1, ?E2, ?E3, ?E4, ?E5, ?E6, ?E7; reflexivity.
Qed.

(** Fixed connection probabilities: the value at (m, p, v) is the log prior density of the block probabilities and scales. *)
Theorem C133_fixed_sparsity : forall lgam s m p v c, 0 < sb_beta s -> valid_x (sb_K s) (sb_C s) m p v c ->
  net_log_likelihood lgam (NetSbm true s) (X3 m p v) =
  Ok (Fin (dirichlet_lpdf lgam (sb_C s) (sb_pi s) m
           + Rsum (sb_C s) (fun a => Rsum (sb_C s) (fun b => gamma_lpdf lgam (sb_alpha s) (sb_beta s) (v a b))))).
Proof.
  intros lgam s m p v c Hb (Hm & Hs & Hp & Hc). cbn. unfold fsbm_log_likelihood.
  destruct (@C71_dirichlet_single lgam (sb_C s) (fun _ => sb_pi s) (fun _ => m) Hm Hs) as (d & -> & Vd). cbn [bindr]. rewrite Vd. cbn [eadd].
  do 3 f_equal. apply Rsum_ext. intros i Hi. apply Rsum_ext. intros j Hj. apply C71_gamma_log_probability; auto. now apply Hp.
Qed.

(** Each class takes one form of argument only; the documented (m, p, v) is refused by the block model. *)
Theorem C133_argument_form_refuted : forall lgam s m p v c,
  net_log_likelihood lgam (NetSbm false s) (X3 m p v) = Raise ValueError /\
  net_log_likelihood lgam (NetSbm true s) (X4 m p v c) = Raise ValueError.
Proof. intros. split; reflexivity. Qed.

(** Erdos-Renyi: with a gamma prior on the scale the value is the log prior density of the network's own scale ... *)
Theorem C133_erdos_renyi_own_scale_partial : forall lgam n a b x, e_alpha n = Some a -> e_beta n = Some b -> 0 < b -> 0 < e_v n ->
  net_log_likelihood lgam (NetEr n) x = Ok (Fin (gamma_lpdf lgam a b (e_v n))).
Proof.
  intros lgam n a b x Ha Hb Hp Hv. cbn. unfold er_log_likelihood. rewrite Ha, Hb. do 2 f_equal. now apply C71_gamma_log_probability.
Qed.
(** ... whatever the argument: the scale passed in is ignored, and a network with a fixed scale raises TypeError. *)
Theorem C133_erdos_renyi_ignores_argument_refuted : forall lgam n x x',
  net_log_likelihood lgam (NetEr n) x = net_log_likelihood lgam (NetEr n) x' /\
  (e_alpha n = None -> net_log_likelihood lgam (NetEr n) x = Raise TypeError) /\
  (exists m0 m p v v', e_alpha m0 = Some 1 /\ e_beta m0 = Some 1 /\ e_v m0 = 1 /\
     net_log_likelihood lgam (NetEr m0) (X3 m p v) = net_log_likelihood lgam (NetEr m0) (X3 m p v') /\
     gamma_lpdf lgam 1 1 (v 0%nat 0%nat) <> gamma_lpdf lgam 1 1 (v' 0%nat 0%nat)).
Proof.
  intros lgam n x x'. split; [reflexivity|]. split.
  - intros E. cbn. unfold er_log_likelihood. now rewrite E.
  - exists {| e_K := 1; e_p := 1/2; e_kappa := 1; e_alpha := Some 1; e_beta := Some 1; e_v := 1; e_allow := true; e_mf := None |},
      (fun _ => 1), (fun _ _ => 1/2), (fun _ _ => 1), (fun _ _ => 2).
    repeat split. unfold gamma_lpdf. replace (1 - 1) with 0 by ring. lra.
Qed.

Example C133_nonvacuous : valid_x 3 2 (fun _ => 1/2) (fun _ _ => 1/3) (fun a b => INR (1 + a + b)) (fun k => k mod 2).
Proof.
  repeat split; intros; cbn [Rsum]; try lra.
  - apply lt_0_INR. lia.
  - apply Nat.mod_upper_bound. lia.
Qed.
Print Assumptions C133_block_model_partial.
Print Assumptions C133_block_model_ratio.
Print Assumptions C133_fixed_sparsity.
Print Assumptions C133_erdos_renyi_ignores_argument_refuted.
