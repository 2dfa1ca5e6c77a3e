(** * Props_Refused4: refused calls (C106) whose exception class or condition no earlier theorem fixed; added after the fourth
    automatic mutation campaign. *)
From Coq Require Import FunctionalExtensionality.
From Verif Require Import Prelude ExtReal Arrays M_Basis M_Parents M_Discrete M_Gibbs M_Network M_Sweep M_MeanField M_Standard M_Dist
  M_Nonlinear M_Utils M_Vlb Props_Network L_Parents L_Discrete.
Set Implicit Arguments.
Open Scope R_scope.

(** ** The variational bound of the weights is refused with AssertionError exactly when some connection probability is not a
    number between 0 and 1 (a NaN included). *)
Definition a_probability (x : er) : Prop := exists p, x = Fin p /\ 0 <= p <= 1.
Theorem C106_bound_refused : forall lgam psi K kappa0 nu0 n w,
  ((forall i j, (i < K)%nat -> (j < K)%nat -> a_probability (w_p w i j)) -> is_ok (weights_vlb lgam psi K kappa0 nu0 n w) = true) /\
  (forall i j, (i < K)%nat -> (j < K)%nat -> ~ a_probability (w_p w i j) -> weights_vlb lgam psi K kappa0 nu0 n w = Raise AssertionError).
Proof.
  intros lgam psi K kappa0 nu0 n w. split.
  - intros H. unfold weights_vlb. cbv zeta.
    assert (G : forall_lt K (fun i => forall_lt K (fun j => p_in_01 (w_p w i j))) = true).
    { apply forall_lt_true. intros i Hi. apply forall_lt_true. intros j Hj. destruct (H i j Hi Hj) as (p & -> & H0 & H1). cbn [p_in_01].
      apply andb_true_iff. split; now apply Rleb_true. }
    rewrite G. reflexivity.
  - intros i j Hi Hj H. unfold weights_vlb. cbv zeta.
    assert (G : forall_lt K (fun i => forall_lt K (fun j => p_in_01 (w_p w i j))) = false).
    { destruct (forall_lt K _) eqn:E; [|reflexivity]. exfalso. apply H. rewrite forall_lt_true in E. specialize (E i Hi).
      rewrite forall_lt_true in E. specialize (E j Hj). destruct (w_p w i j) as [p| | |]; try discriminate E.
      cbn [p_in_01] in E. apply andb_true_iff in E as (E1 & E2). apply Rleb_true in E1, E2. exists p. auto. }
    rewrite G. reflexivity.
Qed.
Print Assumptions C106_bound_refused.

(** ** Constructors refuse bad arguments with AssertionError. *)
Theorem C106_constructors :
  (** the standard model: instantaneous effects with self-connections, or a prior shape below one *)
  (forall K B dt alpha beta allow inst L bas, (inst = true /\ allow = true) \/ alpha < 1 ->
     sm_init K B dt alpha beta allow inst L bas = Raise AssertionError) /\
  (** a discrete distribution: a negative weight, or weights whose sum is far from one *)
  (forall D p, (exists i, (i < D)%nat /\ p i < 0) \/ 1 / 1000 < Rabs (Rsum D p - 1) -> discrete_init D p = Raise AssertionError).
Proof.
  split.
  - intros K B dt alpha beta allow inst L bas [[-> ->]|H]; [reflexivity|]. unfold sm_init. destruct (inst && allow)%bool; [reflexivity|].
    replace (Rltb alpha 1) with true by (symmetry; now apply Rltb_true). reflexivity.
  - intros D p H. unfold discrete_init. replace (_ && _)%bool with false; [reflexivity|]. symmetry. apply andb_false_iff.
    destruct H as [(i & Hi & H)|H].
    + left. destruct (forall_lt D _) eqn:E; [|reflexivity]. rewrite forall_lt_true in E. specialize (E i Hi). apply Rleb_true in E. lra.
    + right. unfold close1. apply Rleb_false. lra.
Qed.
Print Assumptions C106_constructors.

(** ** The variational update of an Erdos-Renyi network built without prior parameters fails with TypeError (None plus an
    array); one that has them but no variational state fails with AttributeError. *)
Theorem C106_erdos_renyi_update : forall n w step,
  (e_alpha n = None \/ e_beta n = None -> er_meanfieldupdate n w step = Raise TypeError) /\
  (forall a b, e_alpha n = Some a -> e_beta n = Some b -> e_mf n = None -> er_meanfieldupdate n w step = Raise AttributeError).
Proof.
  intros n w step. unfold er_meanfieldupdate. split.
  - intros [->| ->]; [reflexivity|]. now destruct (e_alpha n).
  - intros a b -> -> ->. reflexivity.
Qed.
Print Assumptions C106_erdos_renyi_update.

(** ** Inverting the cumulative rate: a draw beyond the total mass is refused with AssertionError. *)
Theorem C106_inversion_beyond_mass : forall cum Nt q fuel off, (forall i, (i < Nt)%nat -> cum i < q) -> (off < Nt)%nat -> (Nt - off <= fuel)%nat ->
  advance fuel cum Nt q off = Raise AssertionError.
Proof.
  intros cum Nt q fuel. induction fuel as [|f IH]; intros off Hc Ho Hf; [lia|]. cbn [advance].
  replace (Rltb (cum off) q) with true by (symmetry; apply Rltb_true; now apply Hc).
  destruct (Nat.ltb_spec (Datatypes.S off) Nt) as [H|H]; cbn [guard bindr]; [|reflexivity]. apply IH; auto; lia.
Qed.
Print Assumptions C106_inversion_beyond_mass.

Example C106_refused4_nonvacuous :
  ~ a_probability NaN /\ ~ a_probability (Fin 2) /\ (exists i, (i < 2)%nat /\ (fun i => if Nat.eqb i 1 then -1 else 2) i < 0).
Proof.
  split; [intros (p & E & _); discriminate|]. split; [intros (p & E & H); injection E as <-; lra|]. 
  exists 1%nat. split; [lia|]. cbn. lra.
Qed.
