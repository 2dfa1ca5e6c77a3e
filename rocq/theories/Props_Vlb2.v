(** * Props_Vlb2: the bound stays finite along histories of mean-field steps (C85). *)
From Verif Require Import Prelude ExtReal Arrays M_Basis M_Parents M_Discrete M_Gibbs M_Dist M_Network M_Sweep M_MeanField M_Vlb M_Mixed
  Props_Network Props_MeanField L_Vlb5 Props_Vlb Props_Mixed.
Set Implicit Arguments.
Open Scope R_scope.

Lemma same_net_good a b : same_net a b -> net_good a -> net_good b.
Proof.
  destruct a as [fp s f|n], b as [fp' s' f'|n']; cbn [same_net net_good]; try tauto.
  - intros (<- & <-). auto.
  - intros (z & ->) H. exact H.
Qed.
(** Which steps may be taken depends on the number of stored data sets only. *)
Definition steps_ok (m : mfmodel) (h : list mfop) : Prop := forall o, In o h -> mfop_ok m o.

(** On a network whose probabilities are neither frozen nor 0 or 1 (self-connections allowed), after any sequence of
    batch and stochastic steps, and for the value returned by a further coordinate-ascent step, the reported bound is a
    finite number. *)
Theorem C85_histories_finite_partial : forall lgam psi h m, mf_ok m -> net_good (mm_net m) -> mm_data m <> [] -> steps_ok m h ->
  exists m', mf_run lgam psi h m = Ok m' /\
  (exists v, mf_get_vlb lgam psi m' = Ok (Fin v)) /\ (exists m2 v, mf_cd_step lgam psi m' = Ok (m2, Fin v)).
Proof.
  intros lgam psi. induction h as [|o h IH]; intros m Hm Hg Hd Hs.
  - exists m. split; [reflexivity|]. split; [now apply C85_bound_finite_partial|].
    destruct (@mf_step_ok lgam psi OpBatch m Hm Hd) as (m' & E & Hm' & _ & _). pose proof E as E0.
    apply mf_op_inv in E0 as (Hn & _ & _). cbn [mf_op_step] in E.
    destruct (@C85_bound_finite_partial lgam psi m' Hm' (@same_net_good _ _ Hn Hg)) as (v & Ev).
    exists m', v. unfold mf_cd_step. rewrite E. cbn [bindr]. rewrite Ev. reflexivity.
  - destruct (@mf_step_ok lgam psi o m Hm (Hs o (or_introl eq_refl))) as (m' & E & Hm' & _ & El).
    pose proof E as E0. apply mf_op_inv in E0 as (Hn & _ & _).
    assert (Hd' : mm_data m' <> []) by (intros X; rewrite X in El; destruct (mm_data m); [congruence|discriminate]).
    destruct (IH m' Hm' (@same_net_good _ _ Hn Hg) Hd') as (m'' & E' & H1 & H2).
    { intros o' Ho'. specialize (Hs o' (or_intror Ho')). destruct o'; cbn [mfop_ok] in *; [exact Hd'|]. rewrite El. exact Hs. }
    exists m''. cbn [mf_run]. rewrite E. cbn [bindr]. auto.
Qed.
Print Assumptions C85_histories_finite_partial.

Example C85_histories_nonvacuous : mf_ok (ex_vlb (MfEr (ex_er true))) /\ net_good (mm_net (ex_vlb (MfEr (ex_er true)))) /\
  steps_ok (ex_vlb (MfEr (ex_er true))) [OpBatch; OpSgd 1 (1/2); OpBatch].
Proof.
  split; [apply ex_vlb_ok|]. split; [cbn; lra|].
  intros o [<-|[<-|[<-|[]]]]; cbn; try discriminate. repeat split; try lia; lra.
Qed.
