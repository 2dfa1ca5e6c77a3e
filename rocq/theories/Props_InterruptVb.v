(** * Props_InterruptVb: variational steps stopped by KeyboardInterrupt (C108). *)
From Coq Require Import FunctionalExtensionality.
From Verif Require Import Prelude ExtReal Arrays Spec_Basis Spec_Discrete Spec_Parents Spec_Gibbs Spec_Network
  M_Basis M_Parents M_Discrete M_Gibbs M_Dist M_Network M_Sweep M_Interrupt M_MeanField M_InterruptVb
  L_Basis L_Discrete L_Parents L_Gibbs L_Network
  Props_Discrete Props_Parents Props_Gibbs Props_Network L_Sweep Props_Sweep L_Interrupt Props_Interrupt Props_MeanField.
Set Implicit Arguments.
Open Scope R_scope.

(** Expected attributions are non-negative numbers. *)
Definition EZ_nonneg (d : parents) : Prop :=
  forall k r c, (k < pa_K d)%nat -> (r < pa_Tk d k)%nat -> (c < 1 + pa_K d * pa_B d)%nat -> 0 <= pa_EZ d k r c.
(** Variational parameters in their domains; nothing is said about the minibatch offset. *)
Record vb_ok (m : mfmodel) : Prop := {
  vb_bias : forall k, (k < mh_K (mm_h m))%nat -> 0 < mb_alpha (mm_bias m) k /\ 0 < mb_beta (mm_bias m) k;
  vb_gamma : forall k1 k2 b, (k1 < mh_K (mm_h m))%nat -> (k2 < mh_K (mm_h m))%nat -> (b < mh_B (mm_h m))%nat ->
      0 < mm_gamma m k1 k2 b;
  vb_w : w_ok (mh_K (mm_h m)) (mm_w m);
  vb_net : mfnet_ok (mh_K (mm_h m)) (mm_net m);
  vb_hyp : mfhyp_ok (mm_h m);
  vb_data : forall d, In d (mm_data m) -> mfdata_ok (mm_h m) d /\ EZ_nonneg d }.
(** The same recordings in the same order, expected attributions apart. *)
Definition same_rec (l l' : list parents) : Prop := Forall2 (fun p p' => exists E, p' = set_EZ p E) l l'.
(** A network without its variational parameters: priors and point values. *)
Definition mf0 : mfsbm := {| mf_pi := fun _ => 0; mf_m := fun _ _ => 0; mf_tau0 := fun _ _ => 0; mf_tau1 := fun _ _ => 0;
                             mf_alpha := fun _ _ => 0; mf_beta := fun _ _ => 0 |}.
Definition prior_part (no : mfnet) : mfnet :=
  match no with MfSbm fp s _ => MfSbm fp s mf0 | MfEr n => MfEr (er_with_mf n (0, 0)) end.
Definition untouched (m m' : mfmodel) : Prop :=
  mm_h m' = mm_h m /\ prior_part (mm_net m') = prior_part (mm_net m) /\ same_rec (mm_data m) (mm_data m').

Lemma same_rec_refl l : same_rec l l.
Proof. induction l as [|p l IH]; constructor; [|exact IH]. exists (pa_EZ p). now destruct p. Qed.
Lemma same_rec_trans l1 l2 l3 : same_rec l1 l2 -> same_rec l2 l3 -> same_rec l1 l3.
Proof.
  intros H. revert l3. induction H as [|x y l l' (Z1 & ->) H IH]; intros l3 H3; inversion H3 as [|? z ? l'' (Z2 & ->)]; subst; constructor.
  - exists Z2. reflexivity.
  - apply IH. assumption.
Qed.
Lemma same_rec_length l l' : same_rec l l' -> length l = length l'.
Proof. intros H. induction H; cbn; congruence. Qed.
Lemma untouched_refl m : untouched m m.
Proof. split; [reflexivity|]. split; [reflexivity|apply same_rec_refl]. Qed.
Lemma untouched_trans a b c : untouched a b -> untouched b c -> untouched a c.
Proof.
  intros (A1 & A2 & A3) (B1 & B2 & B3). split; [congruence|]. split; [congruence|]. eapply same_rec_trans; eauto.
Qed.
Lemma set_nth_same_rec i f l : (forall p, exists E, f p = set_EZ p E) -> same_rec l (set_nth i f l).
Proof.
  intros H. revert i. induction l as [|p l IH]; intros i; cbn; [destruct i; constructor|].
  destruct i; constructor; [apply H|apply same_rec_refl| |apply IH]. exists (pa_EZ p). now destruct p.
Qed.

(** Reading back mf_ok: the offset is irrelevant for validity. *)
Lemma vb_mf_ok m : vb_ok m -> mf_ok (set_off m None).
Proof.
  intros [H1 H2 H3 H4 H5 H6]. constructor; auto.
  - intros d Hd. now apply H6.
  - cbn. discriminate.
Qed.
Lemma mf_in_off psi m o : mf_in_of psi (set_off m o) = mf_in_of psi m.
Proof. reflexivity. Qed.

(* ---------------- every single assignment keeps the invariant ---------------- *)
Definition vkeeps (f : vstep) : Prop := forall m, vb_ok m -> exists m', f m = Ok m' /\ vb_ok m' /\ untouched m m'.

Lemma vexec_keeps l : (forall f, In f l -> vkeeps f) -> forall m, vb_ok m ->
  exists m', vexec l m = (Ok tt, m') /\ vb_ok m' /\ untouched m m'.
Proof.
  induction l as [|f l IH]; intros H m Hm; cbn [vexec]; [exists m; split; [reflexivity|split; [exact Hm|apply untouched_refl]]|].
  destruct (H f (or_introl eq_refl) m Hm) as (m1 & E & H1 & U1). rewrite E.
  destruct (IH (fun g Hg => H g (or_intror Hg)) m1 H1) as (m2 & E2 & H2 & U2). exists m2. split; [exact E2|]. split; [exact H2|].
  eapply untouched_trans; eauto.
Qed.

(* parents *)
Lemma new_EZ_nonneg psi m d : vb_ok m -> In d (mm_data m) -> forall k r c, (k < pa_K d)%nat -> (r < pa_Tk d k)%nat ->
  (c < 1 + pa_K d * pa_B d)%nat -> 0 <= new_EZ psi m d k r c.
Proof.
  intros Hm Hd k r c Hk Hr Hc. destruct (vb_data Hm d Hd) as [(EK & EB & HT & Hdt & HF & Hfit) _].
  assert (Hn := @mf_in_nonneg psi (set_off m None) d (vb_mf_ok Hm) EK EB HF). rewrite mf_in_off in Hn.
  destruct (@C17_expected_counts d (mf_in_of psi m) Hn Hfit) as (d' & E & _).
  destruct (@mf_updated_facts d _ d' Hn Hfit E) as [_ H]. specialize (H k r c Hk Hr Hc).
  unfold mf_update_python in E. destruct (negb _) eqn:Eg; [discriminate|]. injection E as <-. exact H.
Qed.
Lemma rows_finite_ok psi m d k : vb_ok m -> In d (mm_data m) -> (k < pa_K d)%nat -> rows_finite psi m d k = Ok tt.
Proof.
  intros Hm Hd Hk. destruct (vb_data Hm d Hd) as [(EK & EB & HT & Hdt & HF & Hfit) _].
  assert (Hn := @mf_in_nonneg psi (set_off m None) d (vb_mf_ok Hm) EK EB HF). rewrite mf_in_off in Hn.
  destruct (@C17_expected_counts d (mf_in_of psi m) Hn Hfit) as (d' & E & _).
  unfold mf_update_python in E. destruct (negb _) eqn:Eg in E; [discriminate|]. apply negb_false_iff in Eg.
  rewrite all_rows_true in Eg. unfold rows_finite. replace (forall_lt _ _) with true; [reflexivity|].
  symmetry. apply forall_lt_true. intros r Hr. now apply Eg.
Qed.
Lemma on_EZ_ok i f m : vb_ok m ->
  (forall p, In p (mm_data m) -> EZ_nonneg p -> EZ_nonneg (set_EZ p (f m p))) -> vb_ok (on_EZ i f m) /\ untouched m (on_EZ i f m).
Proof.
  intros [H1 H2 H3 H4 H5 H6] Hf. split.
  - constructor; auto. cbn [on_EZ set_vdata mm_data mm_h]. intros d Hd.
    destruct (set_nth_In _ _ _ _ Hd) as [Hin|(x & Hin & ->)]; [auto|]. destruct (H6 x Hin) as [A B]. split; [exact A|auto].
  - split; [reflexivity|]. split; [reflexivity|]. apply set_nth_same_rec. intros p. eexists. reflexivity.
Qed.
(** The i-th data set has (at least) K processes. *)
Definition has_data (i K : nat) (m : mfmodel) : Prop := (i < length (mm_data m))%nat /\ K = mh_K (mm_h m).
Definition hkeeps (i K : nat) (f : vstep) : Prop :=
  forall m, vb_ok m -> has_data i K m -> exists m', f m = Ok m' /\ vb_ok m' /\ untouched m m'.

Lemma nth_in i m : (i < length (mm_data m))%nat -> In (vdata_at m i) (mm_data m).
Proof. intros H. now apply nth_In. Qed.
Lemma parents_vsteps_keep psi i K f : In f (parents_vsteps psi i K) -> hkeeps i K f.
Proof.
  intros Hin m Hm [Hi HK]. destruct Hin as [<-|Hin].
  - eexists. split; [reflexivity|]. apply on_EZ_ok; [exact Hm|]. intros p Hp Hz k r c Hk Hr Hc.
    cbn [set_EZ pa_EZ pa_K] in *. destruct (vb_data Hm p Hp) as [(EK & _) _].
    destruct (Nat.ltb_spec k K); [now apply Hz|lia].
  - apply in_flat_map in Hin as (k & Hk & Hin). apply in_seq in Hk. destruct Hin as [<-|[<-|[]]].
    + destruct (vb_data Hm _ (nth_in m Hi)) as [(EK & _) _].
      rewrite rows_finite_ok; [|exact Hm|now apply nth_in|lia]. cbn [bindr].
      eexists. split; [reflexivity|]. apply on_EZ_ok; [exact Hm|]. intros p Hp Hz k' r c Hk' Hr Hc.
      cbn [set_EZ pa_EZ]. unfold put_col0. destruct (_ && _)%bool; [now apply new_EZ_nonneg|now apply Hz].
    + eexists. split; [reflexivity|]. apply on_EZ_ok; [exact Hm|]. intros p Hp Hz k' r c Hk' Hr Hc.
      cbn [set_EZ pa_EZ]. unfold put_cols. destruct (_ && _)%bool; [now apply new_EZ_nonneg|now apply Hz].
Qed.

(* parameters *)
Section Params.
Variables (lgam psi : R -> R) (h : mfhyp) (dat : mfmodel -> list parents) (frac step : R).
Hypothesis Hfrac : 0 < frac.
Hypothesis Hstep : 0 < step <= 1.
(** The data the parameter updates read: the stored data sets, or the minibatch. *)
Definition dat_ok (n : nat) : Prop := forall m, vb_ok m -> mm_h m = h -> length (mm_data m) = n ->
  dat m <> [] /\ forall d, In d (dat m) -> upd_ok h d.
Variable n : nat.
Hypothesis Hdat : dat_ok n.
Definition pkeeps (f : vstep) : Prop := forall m, vb_ok m -> mm_h m = h -> length (mm_data m) = n ->
  exists m', f m = Ok m' /\ vb_ok m' /\ untouched m m'.

Lemma all_update m : vb_ok m -> mm_h m = h -> length (mm_data m) = n ->
  (exists b', bias_sgd (mh_alpha h) (mh_beta h) (dat m) frac step (mm_bias m) = Ok b' /\
     forall k, (k < mh_K h)%nat -> 0 < mb_alpha b' k /\ 0 < mb_beta b' k) /\
  (forall k1 k2 b, (k1 < mh_K h)%nat -> (k2 < mh_K h)%nat -> (b < mh_B h)%nat -> 0 < ir_sgd (mh_gamma h) (dat m) frac step (mm_gamma m) k1 k2 b) /\
  exists ne, mfnet_view psi (mm_net m) = Ok ne /\ 0 < ne_kappa ne /\ ne_kappa ne = mfnet_kappa (mm_net m) /\
    (forall i j, (i < mh_K h)%nat -> (j < mh_K h)%nat -> esub (ne_lnp ne i j) (ne_lnnotp ne i j) <> NaN) /\
    exists w', weights_sgd lgam (mh_kappa0 h) (mh_nu0 h) ne (dat m) frac step (mm_w m) = Ok w' /\ w_ok (mh_K h) w'.
Proof.
  intros Hm Eh En. destruct (Hdat Hm Eh En) as [Hne Hu]. destruct Hm as [H1 H2 H3 H4 H5 H6]. rewrite Eh in *.
  destruct (@common_update lgam psi h (dat m) frac step (mm_bias m) (mm_gamma m) (mm_w m) (mm_net m) H5 Hne Hu Hfrac Hstep H1 H2 H3 H4)
    as (Hb & Hg & ne & Ev & w' & Ew & Hw & _).
  split; [exact Hb|]. split; [exact Hg|]. exists ne. split; [exact Ev|].
  destruct (@mfnet_view_ok psi _ _ H4) as (ne' & Ev' & Hk & _ & Hv). rewrite Ev in Ev'. injection Ev' as <-.
  split; [exact Hk|]. split.
  { destruct (mm_net m) as [fp s f|e]; cbn [mfnet_view] in Ev; [injection Ev as <-; reflexivity|].
    unfold er_expected_v, er_expected_log_v in Ev. destruct (e_mf e) as [[a b]|]; [|discriminate]. cbn [bindr] in Ev. injection Ev as <-. reflexivity. }
  split; [intros i j Hi Hj; now apply Hv|]. exists w'. auto.
Qed.

Lemma set_bias_ok m b : vb_ok m -> (forall k, (k < mh_K (mm_h m))%nat -> 0 < mb_alpha b k /\ 0 < mb_beta b k) ->
  vb_ok (set_bias m b) /\ untouched m (set_bias m b).
Proof. intros [H1 H2 H3 H4 H5 H6] H. split; [constructor; auto|]. split; [reflexivity|]. split; [reflexivity|apply same_rec_refl]. Qed.
Lemma set_w_ok m w : vb_ok m -> w_ok (mh_K (mm_h m)) w -> vb_ok (set_w m w) /\ untouched m (set_w m w).
Proof. intros [H1 H2 H3 H4 H5 H6] H. split; [constructor; auto|]. split; [reflexivity|]. split; [reflexivity|apply same_rec_refl]. Qed.
Lemma set_net_ok m no : vb_ok m -> mfnet_ok (mh_K (mm_h m)) no -> prior_part no = prior_part (mm_net m) ->
  vb_ok (set_net m no) /\ untouched m (set_net m no).
Proof. intros [H1 H2 H3 H4 H5 H6] H E. split; [constructor; auto|]. split; [reflexivity|]. split; [exact E|apply same_rec_refl]. Qed.

Lemma bias_vsteps_keep f : In f (bias_vsteps dat frac step) -> pkeeps f.
Proof.
  intros [<-|[<-|[]]] m Hm Eh En; destruct (all_update Hm Eh En) as ((b' & Eb & Hb) & _); rewrite Eh, Eb; cbn [bindr];
    (eexists; split; [reflexivity|]; apply set_bias_ok; [exact Hm|]); intros k Hk; cbn [mb_alpha mb_beta];
    pose proof (vb_bias Hm Hk) as [B1 B2]; rewrite Eh in Hk; destruct (Hb k Hk); auto.
Qed.
Lemma ir_vsteps_keep f : In f (ir_vsteps dat frac step) -> pkeeps f.
Proof.
  intros [<-|[]] m Hm Eh En. destruct (all_update Hm Eh En) as (_ & Hg & _). eexists. split; [reflexivity|]. rewrite Eh.
  destruct Hm as [H1 H2 H3 H4 H5 H6]. split; [constructor; auto|].
  - cbn [set_gamma mm_h mm_gamma]. rewrite Eh. exact Hg.
  - split; [reflexivity|]. split; [reflexivity|apply same_rec_refl].
Qed.
Lemma w_vsteps_keep f : In f (w_vsteps lgam psi dat frac step) -> pkeeps f.
Proof.
  intros Hin m Hm Eh En. destruct (all_update Hm Eh En) as (_ & _ & ne & Ev & Hk & Ekap & Hv & w' & Ew & Hw).
  pose proof (vb_w Hm) as Hw0. rewrite Eh in Hw0. destruct (Hdat Hm Eh En) as [Hne _].
  unfold weights_sgd, meanfieldupdate_kappa_v in Ew. destruct (dat m) as [|d0 l] eqn:Ed; [congruence|].
  cbn [bindr] in Ew. injection Ew as Ew.
  assert (Hw1 : forall i j, (i < mh_K h)%nat -> (j < mh_K h)%nat ->
     0 < w_kappa0 w' i j /\ 0 < w_v0 w' i j /\ 0 < w_kappa1 w' i j /\ 0 < w_v1 w' i j).
  { intros i j Hi Hj. destruct (Hw i j Hi Hj) as (? & ? & ? & ? & _). auto. }
  rewrite <- Ew in Hw1. cbn [meanfieldupdate_p w_kappa0 w_v0 w_kappa1 w_v1] in Hw1.
  assert (G : forall w2, (forall i j, (i < mh_K h)%nat -> (j < mh_K h)%nat ->
      0 < w_kappa0 w2 i j /\ 0 < w_v0 w2 i j /\ 0 < w_kappa1 w2 i j /\ 0 < w_v1 w2 i j /\ w_p w2 i j = w_p (mm_w m) i j) ->
      vb_ok (set_w m w2) /\ untouched m (set_w m w2)).
  { intros w2 H2. apply set_w_ok; [exact Hm|]. rewrite Eh. intros i j Hi Hj. destruct (H2 i j Hi Hj) as (? & ? & ? & ? & Ep).
    destruct (Hw0 i j Hi Hj) as (_ & _ & _ & _ & p & E & Hp). repeat (split; [assumption|]). exists p. split; [congruence|exact Hp]. }
  destruct Hin as [<-|[<-|[<-|[<-|[<-|[]]]]]]; cbv beta zeta.
  - rewrite Ed. eexists. split; [reflexivity|]. apply G. intros i j Hi Hj. cbn [w_kappa0 w_v0 w_kappa1 w_v1 w_p].
    destruct (Hw0 i j Hi Hj) as (? & ? & ? & ? & _), (Hw1 i j Hi Hj) as (? & ? & ? & ?). rewrite Eh. auto.
  - rewrite Ed. eexists. split; [reflexivity|]. apply G. intros i j Hi Hj. cbn [w_kappa0 w_v0 w_kappa1 w_v1 w_p].
    destruct (Hw0 i j Hi Hj) as (? & ? & ? & ? & _), (Hw1 i j Hi Hj) as (? & ? & ? & ?). rewrite <- Ekap. auto.
  - rewrite Ed. eexists. split; [reflexivity|]. apply G. intros i j Hi Hj. cbn [w_kappa0 w_v0 w_kappa1 w_v1 w_p].
    destruct (Hw0 i j Hi Hj) as (? & ? & ? & ? & _), (Hw1 i j Hi Hj) as (? & ? & ? & ?). rewrite Eh. auto.
  - rewrite Ev. cbn [bindr]. rewrite Ed. eexists. split; [reflexivity|]. apply G. intros i j Hi Hj. cbn [w_kappa0 w_v0 w_kappa1 w_v1 w_p].
    destruct (Hw0 i j Hi Hj) as (? & ? & ? & ? & _), (Hw1 i j Hi Hj) as (? & ? & ? & ?). auto.
  - rewrite Ev. cbn [bindr]. eexists. split; [reflexivity|]. apply set_w_ok; [exact Hm|]. rewrite Eh. intros i j Hi Hj.
    destruct (Hw0 i j Hi Hj) as (? & ? & ? & ? & p & E & Hp). cbn [meanfieldupdate_p w_kappa0 w_v0 w_kappa1 w_v1].
    repeat (split; [assumption|]). eapply update_p_ok; eauto.
Qed.
Lemma vstats_ok m : vb_ok m -> stats_ok (mh_K (mm_h m)) (vstats psi m).
Proof.
  intros Hm i j Hi Hj. destruct (vb_w Hm Hi Hj) as (W1 & W2 & W3 & W4 & p & Ep & Hp). destruct p_lo_bounds as (? & ? & ?).
  cbn [vstats wstats_of ws_A ws_W]. unfold w_A. rewrite Ep. cbn [fval]. split; [lra|]. unfold expected_W_given_A.
  assert (0 < w_kappa1 (mm_w m) i j / w_v1 (mm_w m) i j) by (apply Rdiv_lt_0_compat; auto). lra.
Qed.
Lemma on_mfsbm_keep g :
  (forall m s f, stats_ok (sb_K s) (vstats psi m) -> prior_pos s -> mf_valid s f -> mf_valid s (g m s f)) -> pkeeps (on_mfsbm g).
Proof.
  intros Hg m Hm Eh En. eexists. split; [reflexivity|]. pose proof (vstats_ok Hm) as Hst. pose proof (vb_net Hm) as Hn.
  destruct (mm_net m) as [fp s f|e] eqn:Enet; cbn [mfnet_ok] in Hn.
  - destruct Hn as (EK & HP & HV & HS). apply set_net_ok; [exact Hm| |now rewrite Enet]. cbn [mfnet_ok]. rewrite <- EK in Hst. auto.
  - apply set_net_ok; [exact Hm|exact Hn|now rewrite Enet].
Qed.
Lemma tau_valid s f t1 t0 : mf_valid s f ->
  (forall a b, (a < sb_C s)%nat -> (b < sb_C s)%nat -> 0 < t0 a b /\ 0 < t1 a b) -> mf_valid s (set_tau f t1 t0).
Proof. intros (A & B & C) H. split; [exact A|]. split; [exact B|]. intros a b Ha Hb. cbn. destruct (C a b Ha Hb) as (? & ? & ? & ?), (H a b Ha Hb). auto. Qed.
Lemma ab_valid s f x y : mf_valid s f ->
  (forall a b, (a < sb_C s)%nat -> (b < sb_C s)%nat -> 0 < x a b /\ 0 < y a b) -> mf_valid s (set_ab f x y).
Proof. intros (A & B & C) H. split; [exact A|]. split; [exact B|]. intros a b Ha Hb. cbn. destruct (C a b Ha Hb) as (? & ? & ? & ?), (H a b Ha Hb). auto. Qed.
Lemma enter_pos C m' (x y : mat) : 0 < x C m' -> 0 < y C m' -> forall n mm, 0 < enter n mm x y C m'.
Proof. intros Hx Hy k mm. unfold enter. destruct (_ && _)%bool; auto. Qed.
Lemma put_pos i j (x y : mat) : 0 < x i j -> 0 < y i j -> forall a b, 0 < put a b x y i j.
Proof. intros Hx Hy a b. unfold put. destruct (_ && _)%bool; auto. Qed.

Lemma tau_vsteps_keep C f : In f (tau_vsteps psi step C) -> pkeeps f.
Proof.
  assert (Hs : 0 <= step <= 1) by lra.
  assert (U : forall m s q, stats_ok (sb_K s) (vstats psi m) -> prior_pos s -> mf_valid s q ->
     forall a b, (a < sb_C s)%nat -> (b < sb_C s)%nat ->
     0 < mf_tau0 (mf_update_p s q (vstats psi m) step) a b /\ 0 < mf_tau1 (mf_update_p s q (vstats psi m) step) a b).
  { intros m s q H1 H2 H3 a b Ha Hb. destruct (@update_p_valid s q _ step H2 H1 Hs H3) as (_ & _ & U). destruct (U a b Ha Hb) as (? & ? & _). auto. }
  intros [<-|Hin]; [|apply in_flat_map in Hin as (c & _ & [<-|[<-|[]]])]; apply on_mfsbm_keep; intros m s q H1 H2 H3; apply tau_valid; auto;
    intros a b Ha Hb; destruct (U m s q H1 H2 H3 a b Ha Hb), H3 as (_ & _ & H3), (H3 a b Ha Hb) as (? & ? & _);
    split; try assumption; try (apply enter_pos; assumption); apply put_pos; assumption.
Qed.
Lemma ab_vsteps_keep C f : In f (ab_vsteps psi step C) -> pkeeps f.
Proof.
  assert (Hs : 0 <= step <= 1) by lra.
  assert (U : forall m s q, stats_ok (sb_K s) (vstats psi m) -> prior_pos s -> mf_valid s q ->
     forall a b, (a < sb_C s)%nat -> (b < sb_C s)%nat ->
     0 < mf_alpha (mf_update_v s q (vstats psi m) step) a b /\ 0 < mf_beta (mf_update_v s q (vstats psi m) step) a b).
  { intros m s q H1 H2 H3 a b Ha Hb. destruct (@update_v_valid s q _ step H2 H1 Hs H3) as (_ & _ & U). destruct (U a b Ha Hb) as (_ & _ & ? & ?). auto. }
  intros [<-|Hin]; [|apply in_flat_map in Hin as (c & _ & [<-|[<-|[]]])]; apply on_mfsbm_keep; intros m s q H1 H2 H3; apply ab_valid; auto;
    intros a b Ha Hb; destruct (U m s q H1 H2 H3 a b Ha Hb), H3 as (_ & _ & H3), (H3 a b Ha Hb) as (_ & _ & ? & ?);
    split; try assumption; try (apply enter_pos; assumption); apply put_pos; assumption.
Qed.
Lemma row_valid s f w k : prior_pos s -> mf_valid s f -> mf_valid s (mf_c_row lgam psi s w step f k).
Proof.
  intros (HC & _) (Hm & Hp & Ht). assert (Hs : 0 <= step <= 1) by lra.
  split; [|split; [exact Hp|exact Ht]]. intros i Hi. unfold mf_c_row, with_m, set_row. cbn [mf_m].
  set (lp := mf_c_lp lgam psi s f w k).
  destruct (Nat.eqb_spec i k) as [->|]; [|auto]. destruct (Hm k Hi) as [H1 H2]. split.
  - intros b Hb. apply mix_step_nonneg; auto. left. apply exp_pos.
  - unfold mix_step. rewrite Rsum_plus, !Rsum_scal, softmax_sum by lia.
    change (fun i => mf_m f k i) with (mf_m f k). rewrite H2. ring.
Qed.
Lemma er_vstep_keep first : pkeeps (er_vstep psi step first).
Proof.
  intros m Hm Eh En. unfold er_vstep. pose proof (vb_net Hm) as Hn. pose proof (vstats_ok Hm) as Hst.
  destruct (mm_net m) as [fp s f|e] eqn:Enet.
  - exists m. split; [reflexivity|]. split; [exact Hm|apply untouched_refl].
  - cbn [mfnet_ok] in Hn. destruct Hn as (EK & Hp & Hk & a & b & ma & mb & Ea & Eb & Em & Hpa & Hpb & Hma & Hmb).
    unfold er_meanfieldupdate. rewrite Ea, Eb, Em. cbn [bindr er_with_mf e_mf]. eexists. split; [reflexivity|].
    apply set_net_ok; [exact Hm| |now rewrite Enet].
    cbn [mfnet_ok er_with_mf e_K e_p e_kappa e_alpha e_beta e_mf]. split; [exact EK|]. split; [exact Hp|]. split; [exact Hk|].
    assert (Hs : 0 <= step <= 1) by lra.
    assert (P1 : 0 < mix_step step ma (a + Rsum (e_K e) (fun i => Rsum (e_K e) (fun j => ws_A (vstats psi m) i j * e_kappa e)))).
    { apply mix_step_pos; auto.
      assert (0 <= Rsum (e_K e) (fun i => Rsum (e_K e) (fun j => ws_A (vstats psi m) i j * e_kappa e))); [|lra].
      rewrite EK. apply Rsum2_nonneg. intros i j Hi Hj. destruct (Hst i j Hi Hj). apply Rmult_le_pos; lra. }
    assert (P2 : 0 < mix_step step mb (b + Rsum (e_K e) (fun i => Rsum (e_K e) (fun j => ws_A (vstats psi m) i j * ws_W (vstats psi m) i j)))).
    { apply mix_step_pos; auto.
      assert (0 <= Rsum (e_K e) (fun i => Rsum (e_K e) (fun j => ws_A (vstats psi m) i j * ws_W (vstats psi m) i j))); [|lra].
      rewrite EK. apply Rsum2_nonneg. intros i j Hi Hj. destruct (Hst i j Hi Hj). apply Rmult_le_pos; lra. }
    destruct first; do 4 eexists; repeat (split; [eassumption || reflexivity|]); auto.
Qed.
Lemma net_vsteps_keep do_p no f : In f (net_vsteps lgam psi step do_p no) -> pkeeps f.
Proof.
  assert (Hs : 0 <= step <= 1) by lra.
  destruct no as [fp s q|e]; cbn [net_vsteps].
  - intros Hin. apply in_app_or in Hin as [Hin|Hin]; [destruct do_p; [eapply tau_vsteps_keep; eauto|destruct Hin]|].
    apply in_app_or in Hin as [Hin|Hin]; [eapply ab_vsteps_keep; eauto|].
    apply in_app_or in Hin as [[<-|[]]|Hin].
    + apply on_mfsbm_keep. intros. now apply update_m_valid.
    + apply in_map_iff in Hin as (k & <- & _). apply on_mfsbm_keep. intros. now apply row_valid.
  - intros [<-|[<-|[]]]; apply er_vstep_keep.
Qed.
Lemma params_vsteps_keep do_p no f : In f (params_vsteps lgam psi dat frac step do_p no) -> pkeeps f.
Proof.
  intros Hin. unfold params_vsteps in Hin. apply in_app_or in Hin as [Hin|Hin]; [now apply bias_vsteps_keep|].
  apply in_app_or in Hin as [Hin|Hin]; [now apply ir_vsteps_keep|].
  apply in_app_or in Hin as [Hin|Hin]; [now apply w_vsteps_keep|now apply net_vsteps_keep with (do_p := do_p) (no := no)].
Qed.
End Params.

(* ---------------- whole steps ---------------- *)
Lemma vexec_pkeeps h n l : (forall f, In f l -> pkeeps h n f) -> forall m, vb_ok m -> mm_h m = h -> length (mm_data m) = n ->
  exists m', vexec l m = (Ok tt, m') /\ vb_ok m' /\ untouched m m'.
Proof.
  induction l as [|f l IH]; intros H m Hm Eh En; cbn [vexec]; [exists m; split; [reflexivity|split; [exact Hm|apply untouched_refl]]|].
  destruct (H f (or_introl eq_refl) m Hm Eh En) as (m1 & E & H1 & U1). rewrite E. pose proof U1 as (U2 & U3 & U4).
  destruct (IH (fun g Hg => H g (or_intror Hg)) m1 H1) as (m2 & E2 & H2 & V); [congruence|rewrite <- (same_rec_length U4); exact En|].
  exists m2. split; [exact E2|]. split; [exact H2|]. eapply untouched_trans; eauto.
Qed.
Lemma hkeeps_pkeeps h n i f : (i < n)%nat -> hkeeps i (mh_K h) f -> pkeeps h n f.
Proof. intros Hi H m Hm Eh En. apply H; [exact Hm|]. split; [lia|congruence]. Qed.
Lemma all_parents_vsteps_keep psi h n f : forall data i, (i + length data <= n)%nat -> (forall d, In d data -> pa_K d = mh_K h) ->
  In f (all_parents_vsteps psi i data) -> pkeeps h n f.
Proof.
  induction data as [|p data IH]; intros i Hi HK Hin; cbn [all_parents_vsteps] in Hin; [destruct Hin|]. cbn [length] in Hi.
  apply in_app_or in Hin as [Hin|Hin].
  - rewrite (HK p (or_introl eq_refl)) in Hin. apply (@hkeeps_pkeeps h n i); [lia|]. eapply parents_vsteps_keep. exact Hin.
  - apply (IH (S i)); [lia|intros; apply HK; now right|exact Hin].
Qed.
Lemma stored_dat_ok h n : (0 < n)%nat -> dat_ok h mm_data n.
Proof.
  intros Hn m Hm Eh En. split; [destruct (mm_data m); [cbn in En; lia|discriminate]|].
  intros d Hd. destruct (vb_data Hm d Hd) as [(EK & EB & HT & Hdt & HF & Hfit) Hz]. rewrite Eh in *.
  split; [exact EK|]. split; [exact EB|]. split; [exact Hdt|]. split; [exact Hfit|exact Hz].
Qed.
(** The minibatch a stochastic step works on. *)
Lemma minibatch_ok psi m d mb : vb_ok m -> mm_data m = [d] -> (0 < mb)%nat ->
  (0 < pa_T (minibatch m d mb))%nat /\ (0 < pa_T d)%nat /\
  exists p', mf_update_python (minibatch m d mb) (mf_in_of psi m) = Ok p' /\ upd_ok (mm_h m) p'.
Proof.
  intros Hm Ed Hmb. destruct (vb_data Hm d) as [(EK & EB & HT & Hdt & HF & Hfit) _]; [rewrite Ed; now left|].
  unfold minibatch. set (off := next_offset (pa_T d) mb (mm_off m)).
  assert (Ho : (off < pa_T d)%nat).
  { unfold off, next_offset. destruct (mm_off m) as [o|]; [|auto]. destruct (Nat.leb_spec (pa_T d) (o + mb)); auto. }
  set (len := (sgd_end (pa_T d) mb off - off)%nat). assert (Hlen : (0 < len /\ off + len <= pa_T d)%nat) by (unfold len, sgd_end; lia).
  set (p := mk_parents (mh_K (mm_h m)) (mh_B (mm_h m)) (pa_dt d) len (slice2 off (pa_S d)) (slice3 off (pa_F d))).
  assert (HFp : nonneg_F p). { intros t k b Ht Hk Hb'. cbn in *. unfold slice3. apply HF; lia. }
  assert (Hfp : fits p). { intros t k Ht Hk. cbn in Ht, Hk |- *. unfold slice2. apply Hfit; lia. }
  split; [cbn; lia|]. split; [exact HT|].
  pose proof (vb_mf_ok Hm) as Hm'.
  destruct (@C17_expected_counts p (mf_in_of psi m)) as (p' & Ep & _); [apply (@mf_in_nonneg psi (set_off m None)); auto|exact Hfp|].
  exists p'. split; [exact Ep|]. exact (proj1 (@updated_ok psi (set_off m None) p p' Hm' eq_refl eq_refl Hdt HFp Hfp Ep)).
Qed.
Lemma offset_vsteps_keep h n T mb off f : In f (offset_vsteps T mb off) -> pkeeps h n f.
Proof.
  assert (G : forall o, pkeeps h n (fun m => Ok (set_off m o))).
  { intros o m Hm Eh En. eexists. split; [reflexivity|]. destruct Hm as [H1 H2 H3 H4 H5 H6]. split; [constructor; auto|].
    split; [reflexivity|]. split; [reflexivity|apply same_rec_refl]. }
  destruct off as [o|]; cbn [offset_vsteps].
  - intros [<-|Hin]; [apply G|]. destruct (T <=? o + mb)%nat; [destruct Hin as [<-|[]]; apply G|destruct Hin].
  - intros [<-|[]]; apply G.
Qed.
Lemma op_vsteps_keep lgam psi o m f : vb_ok m -> mfop_ok m o -> In f (op_vsteps lgam psi o m) -> pkeeps (mm_h m) (length (mm_data m)) f.
Proof.
  intros Hm Ho Hin. destruct o as [|mb step]; cbn [mfop_ok op_vsteps] in *.
  - unfold batch_vsteps in Hin. apply in_app_or in Hin as [Hin|Hin].
    + eapply all_parents_vsteps_keep; [|intros d Hd; apply (vb_data Hm d Hd)|exact Hin]. lia.
    + eapply params_vsteps_keep; [| |apply stored_dat_ok|exact Hin]; [lra|lra|]. destruct (mm_data m); [congruence|cbn; lia].
  - destruct Ho as (El & Hmb & Hs). unfold sgd_vsteps in Hin. destruct (mm_data m) as [|d [|? ?]] eqn:Ed; try discriminate.
    cbv zeta in Hin. apply in_app_or in Hin as [Hin|Hin]; [eapply offset_vsteps_keep; eauto|].
    destruct (@minibatch_ok psi m d mb Hm Ed Hmb) as (HT & HTd & p' & E & Hu). rewrite E in Hin.
    eapply params_vsteps_keep; [| | |exact Hin]; [apply Rdiv_lt_0_compat; apply lt_0_INR; auto|lra|].
    intros m' _ _ _. split; [discriminate|]. intros x [<-|[]]. exact Hu.
Qed.
Lemma vb_interrupted_ok lgam psi o n m : vb_ok m -> mfop_ok m o ->
  exists m', vb_interrupted lgam psi o n m = (Ok tt, m') /\ vb_ok m' /\ untouched m m'.
Proof.
  intros Hm Ho. unfold vb_interrupted. apply vexec_pkeeps with (h := mm_h m) (n := length (mm_data m)); auto.
  intros f Hf. eapply op_vsteps_keep; [exact Hm|exact Ho|]. rewrite <- (firstn_skipn n). apply in_or_app. left. exact Hf.
Qed.

(* ---------------- the whole list is the step ---------------- *)
Lemma vexec_app l1 l2 m : vexec (l1 ++ l2) m = match vexec l1 m with (Ok _, m') => vexec l2 m' | r => r end.
Proof. revert m. induction l1 as [|f l1 IH]; intros m; cbn [app vexec]; [reflexivity|]. destruct (f m); [apply IH|reflexivity]. Qed.
Lemma vexec_ok_app l1 l2 m m1 r : vexec l1 m = (Ok tt, m1) -> vexec l2 m1 = r -> vexec (l1 ++ l2) m = r.
Proof. intros H1 H2. now rewrite vexec_app, H1. Qed.
Lemma vexec_flat {I V} (step : I -> list vstep) (mk : V -> mfmodel) (f : V -> I -> V) l : forall v,
  (forall i v, In i l -> vexec (step i) (mk v) = (Ok tt, mk (f v i))) -> vexec (flat_map step l) (mk v) = (Ok tt, mk (fold_left f l v)).
Proof.
  induction l as [|i l IH]; intros v H; cbn [flat_map fold_left]; [reflexivity|].
  rewrite vexec_app, (H i v (or_introl eq_refl)). apply IH. intros j w Hj. apply H. now right.
Qed.
Lemma vexec_loop {I V} (step : I -> vstep) (mk : V -> mfmodel) (f : V -> I -> V) l : forall v,
  (forall i v, In i l -> step i (mk v) = Ok (mk (f v i))) -> vexec (map step l) (mk v) = (Ok tt, mk (fold_left f l v)).
Proof.
  induction l as [|i l IH]; intros v H; cbn [map vexec fold_left]; [reflexivity|].
  rewrite (H i v (or_introl eq_refl)). apply IH. intros j w Hj. apply H. now right.
Qed.

Lemma cells_NoDup n m : NoDup (cells n m).
Proof.
  unfold cells. assert (G : forall l, NoDup l -> NoDup (flat_map (fun a => map (fun b : nat => (a, b)) (seq 0 (m a))) l)).
  { induction 1 as [|a l Ha Hl IH]; cbn [flat_map]; [constructor|]. 
    assert (D : forall l1, NoDup l1 -> NoDup (map (fun b : nat => (a, b)) l1 ++ flat_map (fun a => map (fun b : nat => (a, b)) (seq 0 (m a))) l)).
    { induction 1 as [|b l1 Hb Hl1 IH1]; cbn [map app]; [exact IH|]. constructor; [|exact IH1].
      intros Hin. apply in_app_or in Hin as [Hin|Hin].
      - apply in_map_iff in Hin as (b' & E & Hb'). injection E as ->. contradiction.
      - apply in_flat_map in Hin as (a' & Ha' & Hin). apply in_map_iff in Hin as (b' & E & _). injection E as -> ->. contradiction. }
    apply D, seq_NoDup. }
  apply G, seq_NoDup.
Qed.
(** A loop that replaces every cell by a function of its old content. *)
Lemma fold_put_self {V} (g : nat -> nat -> V -> V) l : NoDup l -> forall old i j,
  fold_left (fun f (c : nat * nat) => put (fst c) (snd c) (fun i j => g i j (f i j)) f) l old i j
  = if existsb (fun c => (Nat.eqb i (fst c) && Nat.eqb j (snd c))%bool) l then g i j (old i j) else old i j.
Proof.
  induction 1 as [|c l Hc Hl IH]; intros old i j; cbn [fold_left existsb]; [reflexivity|]. rewrite IH. unfold put.
  destruct (Nat.eqb i (fst c) && Nat.eqb j (snd c))%bool eqn:E; cbn [orb]; [|reflexivity].
  destruct (existsb _ l) eqn:E2; [|reflexivity]. exfalso. apply existsb_exists in E2 as (c' & Hin & E').
  apply andb_true_iff in E as [A1 A2], E' as [B1 B2]. apply Nat.eqb_eq in A1, A2, B1, B2. apply Hc.
  destruct c as [c1 c2], c' as [c1' c2']. cbn in *. subst. exact Hin.
Qed.
Lemma put_cells_self {V} (g : nat -> nat -> V -> V) n m (old : nat -> nat -> V) :
  fold_left (fun f (c : nat * nat) => put (fst c) (snd c) (fun i j => g i j (f i j)) f) (cells n m) (enter n m (fun i j => g i j (old i j)) old)
  = fun i j => g i j (old i j).
Proof.
  extensionality i. extensionality j. rewrite fold_put_self by apply cells_NoDup. unfold enter.
  destruct (existsb _ _) eqn:E.
  - apply existsb_exists in E as ([a b] & Hin & E). apply cells_In in Hin as [H1 H2]. cbn [fst snd] in E.
    apply andb_true_iff in E as [E1 E2]. apply Nat.eqb_eq in E1, E2. subst.
    apply Nat.ltb_lt in H1, H2. now rewrite H1, H2.
  - destruct (Nat.ltb_spec i n) as [H1|]; [|reflexivity]. destruct (Nat.ltb_spec j (m i)) as [H2|]; [|reflexivity].
    exfalso. cut (existsb (fun c : nat * nat => (Nat.eqb i (fst c) && Nat.eqb j (snd c))%bool) (cells n m) = true); [congruence|].
    apply existsb_exists. exists (i, j). split; [apply cells_In; auto|]. cbn [fst snd]. now rewrite !Nat.eqb_refl.
Qed.
Lemma fold_pair {V W I} (f : V -> I -> V) (g : W -> I -> W) l : forall v w,
  fold_left (fun x i => (f (fst x) i, g (snd x) i)) l (v, w) = (fold_left f l v, fold_left g l w).
Proof. induction l as [|i l IH]; intros v w; cbn [fold_left]; [reflexivity|]. apply IH. Qed.

Lemma tau_exec psi step m fp s f :
  vexec (tau_vsteps psi step (sb_C s)) (set_net m (MfSbm fp s f)) = (Ok tt, set_net m (MfSbm fp s (mf_update_p s f (vstats psi m) step))).
Proof.
  unfold tau_vsteps. cbn [vexec on_mfsbm set_net mm_net].
  set (g1 := fun i j x => mix_step step x (tau1_hat s f (vstats psi m) i j)).
  set (g0 := fun i j x => mix_step step x (tau0_hat s f (vstats psi m) i j)).
  set (mk := fun v : mat * mat => set_net m (MfSbm fp s (set_tau f (fst v) (snd v)))).
  match goal with |- vexec (flat_map ?st ?l) ?m0 = _ =>
    change m0 with (mk (enter (sb_C s) (fun _ => sb_C s) (fun i j => g1 i j (mf_tau1 f i j)) (mf_tau1 f),
                        enter (sb_C s) (fun _ => sb_C s) (fun i j => g0 i j (mf_tau0 f i j)) (mf_tau0 f)));
    rewrite (@vexec_flat _ _ st mk (fun x c => (put (fst c) (snd c) (fun i j => g1 i j (fst x i j)) (fst x), put (fst c) (snd c) (fun i j => g0 i j (snd x i j)) (snd x))) l) end.
  - rewrite (@fold_pair mat mat _ (fun x (c : nat * nat) => put (fst c) (snd c) (fun i j => g1 i j (x i j)) x) (fun x (c : nat * nat) => put (fst c) (snd c) (fun i j => g0 i j (x i j)) x)).
    unfold mat in *. rewrite !put_cells_self. reflexivity.
  - intros [a b] [t1 t0] _. reflexivity.
Qed.
Lemma ab_exec psi step m fp s f :
  vexec (ab_vsteps psi step (sb_C s)) (set_net m (MfSbm fp s f)) = (Ok tt, set_net m (MfSbm fp s (mf_update_v s f (vstats psi m) step))).
Proof.
  unfold ab_vsteps. cbn [vexec on_mfsbm set_net mm_net].
  set (g1 := fun i j x => mix_step step x (alpha_hat s f (vstats psi m) i j)).
  set (g0 := fun i j x => mix_step step x (beta_hat s f (vstats psi m) i j)).
  set (mk := fun v : mat * mat => set_net m (MfSbm fp s (set_ab f (fst v) (snd v)))).
  match goal with |- vexec (flat_map ?st ?l) ?m0 = _ =>
    change m0 with (mk (enter (sb_C s) (fun _ => sb_C s) (fun i j => g1 i j (mf_alpha f i j)) (mf_alpha f),
                        enter (sb_C s) (fun _ => sb_C s) (fun i j => g0 i j (mf_beta f i j)) (mf_beta f)));
    rewrite (@vexec_flat _ _ st mk (fun x c => (put (fst c) (snd c) (fun i j => g1 i j (fst x i j)) (fst x), put (fst c) (snd c) (fun i j => g0 i j (snd x i j)) (snd x))) l) end.
  - rewrite (@fold_pair mat mat _ (fun x (c : nat * nat) => put (fst c) (snd c) (fun i j => g1 i j (x i j)) x) (fun x (c : nat * nat) => put (fst c) (snd c) (fun i j => g0 i j (x i j)) x)).
    unfold mat in *. rewrite !put_cells_self. reflexivity.
  - intros [a b] [t1 t0] _. reflexivity.
Qed.
(** What the network ends up with. *)
Definition net_result (lgam psi : R -> R) (do_p : bool) (step : R) (w : wstats) (no : mfnet) : result mfnet :=
  match no with
  | MfSbm fp s f => Ok (MfSbm fp s (sbm_mf_sgd lgam psi s {| up_p := do_p; up_v := true; up_m := true; up_c := true |} step w f))
  | MfEr n => do n' <- er_meanfieldupdate n w step ;; Ok (MfEr n')
  end.
Lemma net_exec lgam psi step do_p m no' : net_result lgam psi do_p step (vstats psi m) (mm_net m) = Ok no' ->
  vexec (net_vsteps lgam psi step do_p (mm_net m)) m = (Ok tt, set_net m no').
Proof.
  intros H. destruct (mm_net m) as [fp s f|n] eqn:En; cbn [net_result net_vsteps] in *.
  - injection H as <-. replace m with (set_net m (MfSbm fp s f)) at 1 by (destruct m; cbn in En |- *; subst; reflexivity).
    assert (R : forall q, vexec (ab_vsteps psi step (sb_C s) ++ [pi_vstep step] ++ map (row_vstep lgam psi step) (seq 0 (sb_K s))) (set_net m (MfSbm fp s q))
      = (Ok tt, set_net m (MfSbm fp s (mf_update_c lgam psi s (mf_update_m s (mf_update_v s q (vstats psi m) step) step) (vstats psi m) step)))).
    { intros q. eapply vexec_ok_app; [apply ab_exec|]. eapply vexec_ok_app; [reflexivity|].
      set (mk := fun q => set_net m (MfSbm fp s q)).
      change (vexec (map (row_vstep lgam psi step) (seq 0 (sb_K s))) (mk (mf_update_m s (mf_update_v s q (vstats psi m) step) step)) = (Ok tt, mk (mf_update_c lgam psi s (mf_update_m s (mf_update_v s q (vstats psi m) step) step) (vstats psi m) step))).
      rewrite (@vexec_loop _ _ _ mk (fun q k => mf_c_row lgam psi s (vstats psi m) step q k)); [reflexivity|]. intros k q' _. reflexivity. }
    destruct do_p; cbn [app]; [|apply R]. eapply vexec_ok_app; [apply tau_exec|]. rewrite R. reflexivity.
  - apply bindr_ok in H as (n' & H & E). injection E as <-. cbn [vexec]. unfold er_vstep. rewrite En.
    unfold er_meanfieldupdate in *. destruct (e_alpha n) as [a|] eqn:Ea; [|discriminate]. destruct (e_beta n) as [b|] eqn:Eb; [|discriminate].
    destruct (e_mf n) as [[ma mb]|] eqn:Em; [|discriminate]. injection H as <-. cbn [bindr er_with_mf e_mf set_net mm_net e_alpha e_beta e_K e_kappa].
    rewrite Ea, Eb. cbn [bindr er_with_mf e_mf]. reflexivity.
Qed.
Section ParamsExec.
Variables (lgam psi : R -> R) (dat : mfmodel -> list parents) (frac step : R).
Hypothesis dat_data : forall m m', mm_data m' = mm_data m -> dat m' = dat m.
Ltac same_dat m := repeat match goal with |- context [dat ?x] =>
  lazymatch x with m => fail | _ => replace (dat x) with (dat m) by (symmetry; apply dat_data; reflexivity) end end.
Lemma vexec_cons (f : vstep) l m m1 r : f m = Ok m1 -> vexec l m1 = r -> vexec (f :: l) m = r.
Proof. intros H1 H2. cbn [vexec]. now rewrite H1. Qed.
Lemma w_exec m ne w : mfnet_view psi (mm_net m) = Ok ne -> ne_kappa ne = mfnet_kappa (mm_net m) ->
  weights_sgd lgam (mh_kappa0 (mm_h m)) (mh_nu0 (mm_h m)) ne (dat m) frac step (mm_w m) = Ok w ->
  vexec (w_vsteps lgam psi dat frac step) m = (Ok tt, set_w m w).
Proof.
  intros Ev Ek Ew. unfold weights_sgd, meanfieldupdate_kappa_v in Ew.
  destruct (dat m) as [|d0 l] eqn:Ed; [discriminate|]. rewrite <- Ed in Ew. cbn [bindr] in Ew. injection Ew as <-.
  assert (D : forall w, dat (set_w m w) = dat m) by (intros; apply dat_data; reflexivity).
  set (s0 := fun i j => pool (fun d => exp_weight_ss0 d i j) (dat m) / frac).
  set (s1 := fun i => pool (fun d => IZR (pa_Ns d i)) (dat m) / frac).
  set (k0 := fun i j => mix_step step (w_kappa0 (mm_w m) i j) (mh_kappa0 (mm_h m) + s0 i j)).
  set (k1 := fun i j => mix_step step (w_kappa1 (mm_w m) i j) (ne_kappa ne + s0 i j)).
  set (v0 := fun i j => mix_step step (w_v0 (mm_w m) i j) (mh_nu0 (mm_h m) * 1 + s1 i)).
  set (v1 := fun i j => mix_step step (w_v1 (mm_w m) i j) (ne_v ne i j + s1 i)).
  unfold w_vsteps.
  eapply vexec_cons with (m1 := set_w m {| w_p := w_p (mm_w m); w_kappa0 := k0; w_v0 := w_v0 (mm_w m); w_kappa1 := w_kappa1 (mm_w m); w_v1 := w_v1 (mm_w m) |}).
  { cbv beta. unfold k0, s0. rewrite Ed. reflexivity. }
  eapply vexec_cons with (m1 := set_w m {| w_p := w_p (mm_w m); w_kappa0 := k0; w_v0 := w_v0 (mm_w m); w_kappa1 := k1; w_v1 := w_v1 (mm_w m) |}).
  { cbv beta. rewrite D. unfold k1. rewrite Ek. reflexivity. }
  eapply vexec_cons with (m1 := set_w m {| w_p := w_p (mm_w m); w_kappa0 := k0; w_v0 := v0; w_kappa1 := k1; w_v1 := w_v1 (mm_w m) |}).
  { cbv beta. rewrite D. reflexivity. }
  eapply vexec_cons with (m1 := set_w m {| w_p := w_p (mm_w m); w_kappa0 := k0; w_v0 := v0; w_kappa1 := k1; w_v1 := v1 |}).
  { cbv beta. rewrite D. change (mm_net (set_w m ?x)) with (mm_net m). rewrite Ev. reflexivity. }
  eapply vexec_cons; [|reflexivity].
  cbv beta. change (mm_net (set_w m ?x)) with (mm_net m). rewrite Ev. reflexivity.
Qed.
Lemma params_exec do_p m b ne w no' :
  bias_sgd (mh_alpha (mm_h m)) (mh_beta (mm_h m)) (dat m) frac step (mm_bias m) = Ok b ->
  mfnet_view psi (mm_net m) = Ok ne -> ne_kappa ne = mfnet_kappa (mm_net m) ->
  weights_sgd lgam (mh_kappa0 (mm_h m)) (mh_nu0 (mm_h m)) ne (dat m) frac step (mm_w m) = Ok w ->
  net_result lgam psi do_p step (wstats_of psi w) (mm_net m) = Ok no' ->
  vexec (params_vsteps lgam psi dat frac step do_p (mm_net m)) m
  = (Ok tt, {| mm_h := mm_h m; mm_bias := b; mm_gamma := ir_sgd (mh_gamma (mm_h m)) (dat m) frac step (mm_gamma m); mm_w := w;
               mm_net := no'; mm_data := mm_data m; mm_off := mm_off m |}).
Proof.
  intros Eb Ev Ek Ew En. unfold params_vsteps.
  unfold bias_sgd, mf_update_lambda0 in Eb.
  destruct (dat m) as [|d0 l] eqn:Ed; [discriminate|]. rewrite <- Ed in *. injection Eb as <-.
  eapply vexec_ok_app with (m1 := set_bias m _).
  { cbn [vexec bias_vsteps]. unfold bias_sgd, mf_update_lambda0. rewrite Ed. cbn [bindr set_bias mm_h mm_bias mb_alpha mb_beta].
    same_dat m. rewrite Ed. cbn [bindr]. rewrite <- Ed. reflexivity. }
  eapply vexec_ok_app with (m1 := set_gamma (set_bias m _) _).
  { cbn [vexec ir_vsteps]. same_dat m. reflexivity. }
  match goal with |- vexec (_ ++ net_vsteps _ _ _ _ (mm_net m)) ?m1 = _ => set (m2 := m1) in |- * end.
  assert (D2 : dat m2 = dat m) by (apply dat_data; reflexivity).
  eapply vexec_ok_app with (m1 := set_w m2 w).
  { apply w_exec with (ne := ne); [exact Ev|exact Ek|]. rewrite D2. exact Ew. }
  change (mm_net m) with (mm_net (set_w m2 w)).
  rewrite (@net_exec lgam psi step do_p (set_w m2 w) no' En). reflexivity.
Qed.
End ParamsExec.

(* parents *)
Section ParentsExec.
Variables (psi : R -> R) (m : mfmodel) (pre post : list parents) (p : parents).
Let mk (E : nat -> nat -> nat -> R) : mfmodel := set_vdata m (pre ++ set_EZ p E :: post).
Let new := new_EZ psi m p.
Hypothesis Hrows : forall k, (k < pa_K p)%nat -> rows_finite psi m p k = Ok tt.
Lemma on_EZ_mk f E : on_EZ (length pre) f (mk E) = mk (f (mk E) (set_EZ p E)).
Proof. unfold on_EZ, mk. cbn [set_vdata mm_data]. now rewrite set_nth_app. Qed.
Lemma EZ_steps_exec E k : (k < pa_K p)%nat ->
  vexec (EZ_steps psi (length pre) k) (mk E) = (Ok tt, mk (put_process k new E)).
Proof.
  intros Hk. unfold EZ_steps. eapply vexec_cons with (m1 := mk (put_col0 k new E)).
  { cbv beta. unfold vdata_at. replace (nth (length pre) (mm_data (mk E)) p0) with (set_EZ p E) by (symmetry; apply nth_app_mid).
    change (rows_finite psi (mk E) (set_EZ p E) k) with (rows_finite psi m p k). rewrite Hrows by exact Hk. cbn [bindr]. now rewrite on_EZ_mk. }
  eapply vexec_cons; [|reflexivity]. cbv beta. rewrite on_EZ_mk. f_equal. f_equal.
  change (new_EZ psi (mk (put_col0 k new E)) (set_EZ p (put_col0 k new E))) with new. cbn [set_EZ pa_EZ].
  extensionality i. extensionality r. extensionality c. unfold put_cols, put_col0, put_process.
  destruct (Nat.eqb i k), (Nat.eqb c 0); reflexivity.
Qed.
Lemma parents_exec E : vexec (parents_vsteps psi (length pre) (pa_K p)) (mk E) = (Ok tt, mk new).
Proof.
  unfold parents_vsteps. eapply vexec_cons with (m1 := mk (fun k => if Nat.ltb k (pa_K p) then E k else new k)).
  { cbv beta. now rewrite on_EZ_mk. }
  rewrite (@vexec_flat _ _ _ mk (fun E k => put_process k new E)); [now rewrite put_processes|].
  intros k E' Hk. apply in_seq in Hk. apply EZ_steps_exec. lia.
Qed.
End ParentsExec.

Lemma all_parents_exec psi m data : forall pre data',
  (forall d k, In d data -> (k < pa_K d)%nat -> rows_finite psi m d k = Ok tt) ->
  mf_parents (mf_in_of psi m) data = Ok data' ->
  vexec (all_parents_vsteps psi (length pre) data) (set_vdata m (pre ++ data)) = (Ok tt, set_vdata m (pre ++ data')).
Proof.
  induction data as [|p data IH]; intros pre data' Hr H; cbn [mf_parents all_parents_vsteps] in *.
  - injection H as <-. reflexivity.
  - apply bindr_ok in H as (p' & Ep & H). apply bindr_ok in H as (rest & Er & H). injection H as <-.
    replace (p :: data) with (set_EZ p (pa_EZ p) :: data) by (f_equal; now destruct p).
    eapply vexec_ok_app.
    { apply (@parents_exec psi m pre data p). intros k Hk. apply Hr; [now left|exact Hk]. }
    assert (E : set_EZ p (new_EZ psi m p) = p').
    { unfold mf_update_python in Ep. destruct (negb _); [discriminate|]. injection Ep as <-. reflexivity. }
    rewrite E. specialize (IH (pre ++ [p']) rest (fun d k Hd => Hr d k (or_intror Hd)) Er).
    rewrite app_length, <- !app_assoc in IH. cbn [length app] in IH. rewrite Nat.add_1_r in IH. exact IH.
Qed.
Lemma view_kappa psi no ne : mfnet_view psi no = Ok ne -> ne_kappa ne = mfnet_kappa no.
Proof.
  destruct no as [fp s f|e]; cbn [mfnet_view]; [intros E; injection E as <-; reflexivity|].
  unfold er_expected_v, er_expected_log_v. destruct (e_mf e) as [[a b]|]; [|discriminate]. cbn [bindr]. intros E. injection E as <-. reflexivity.
Qed.

(** The list of assignments is the step: nothing is interposed, reordered or left out. *)
Theorem C108_assignments_are_the_step : forall lgam psi o m, vb_ok m -> mfop_ok m o ->
  exists m', mf_op_step lgam psi o m = Ok m' /\ vexec (op_vsteps lgam psi o m) m = (Ok tt, m').
Proof.
  intros lgam psi o m Hm Ho. pose proof (vb_mf_ok Hm) as Hm0. destruct o as [|mb step]; cbn [mf_op_step op_vsteps mfop_ok] in *.
  - destruct (@mf_step_ok lgam psi OpBatch (set_off m None) Hm0 Ho) as (m1 & E & _).
    cbn [mf_op_step] in E. unfold mf_batch_step in E |- *. cbv zeta in *.
    cbn [set_off mm_h mm_bias mm_gamma mm_w mm_net mm_data mm_off] in E. rewrite mf_in_off in E.
    apply bindr_ok in E as (data & Ed & E). rewrite Ed. cbn [bindr].
    apply bindr_ok in E as (b & Eb & E). rewrite Eb. cbn [bindr].
    apply bindr_ok in E as (ne & Ev & E). rewrite Ev. cbn [bindr].
    apply bindr_ok in E as (w & Ew & E). rewrite Ew. cbn [bindr].
    apply bindr_ok in E as (no & En & _). rewrite En. cbn [bindr]. eexists. split; [reflexivity|].
    unfold batch_vsteps. eapply vexec_ok_app.
    { replace m with (set_vdata m ([] ++ mm_data m)) at 2 by (now destruct m).
      apply (@all_parents_exec psi m (mm_data m) [] data); [|exact Ed]. intros d k Hd Hk. now apply rows_finite_ok. }
    cbn [app]. change (mm_net m) with (mm_net (set_vdata m data)) at 1.
    rewrite (@params_exec lgam psi mm_data 1 1 (fun a b E => E) true (set_vdata m data) b ne w no); [reflexivity|exact Eb|exact Ev|now apply (view_kappa _ _ Ev)|exact Ew|].
    cbn [set_vdata mm_net]. destruct (mm_net m) as [[|] s f|e] eqn:Enet; exact En.
  - destruct Ho as (El & Hmb & Hs). unfold mf_sgd_step, sgd_vsteps. destruct (mm_data m) as [|d [|? ?]] eqn:Ed; try discriminate. cbv zeta.
    destruct (@minibatch_ok psi m d mb Hm Ed Hmb) as (HT & HTd & p' & E & Hu). rewrite E.
    change (mk_parents (mh_K (mm_h m)) (mh_B (mm_h m)) (pa_dt d)
      (sgd_end (pa_T d) mb (next_offset (pa_T d) mb (mm_off m)) - next_offset (pa_T d) mb (mm_off m))
      (slice2 (next_offset (pa_T d) mb (mm_off m)) (pa_S d)) (slice3 (next_offset (pa_T d) mb (mm_off m)) (pa_F d)))
      with (minibatch m d mb). rewrite E. cbn [bindr].
    set (frac := INR (pa_T (minibatch m d mb)) / INR (pa_T d)).
    change (INR (sgd_end (pa_T d) mb (next_offset (pa_T d) mb (mm_off m)) - next_offset (pa_T d) mb (mm_off m)) / INR (pa_T d)) with frac.
    assert (Hf : 0 < frac) by (apply Rdiv_lt_0_compat; apply lt_0_INR; auto).
    destruct (@common_update lgam psi (mm_h m) [p'] frac step (mm_bias m) (mm_gamma m) (mm_w m) (mm_net m) (vb_hyp Hm)
       ltac:(congruence) ltac:(intros x [<-|[]]; exact Hu) Hf Hs (fun k Hk => vb_bias Hm Hk) (fun a b c Ha Hb Hc => vb_gamma Hm Ha Hb Hc) (vb_w Hm) (vb_net Hm))
       as ((b & Eb & _) & _ & ne & Ev & w & Ew & _ & Hnet).
    destruct (Hnet false ltac:(discriminate)) as (no & En & _). rewrite Eb. cbn [bindr]. rewrite Ev. cbn [bindr]. rewrite Ew. cbn [bindr].
    rewrite En. cbn [bindr]. eexists. split; [reflexivity|].
    eapply vexec_ok_app with (m1 := set_off m (Some (next_offset (pa_T d) mb (mm_off m)))).
    { unfold offset_vsteps, next_offset. destruct (mm_off m) as [o|]; [|reflexivity]. destruct (pa_T d <=? o + mb)%nat; reflexivity. }
    change (mm_net m) with (mm_net (set_off m (Some (next_offset (pa_T d) mb (mm_off m))))) at 2.
    rewrite (@params_exec lgam psi (fun _ => [p']) frac step (fun a b E => eq_refl) (sgd_p (mm_net m)) (set_off m (Some (next_offset (pa_T d) mb (mm_off m)))) b ne w no);
      [cbn [set_off mm_h mm_bias mm_gamma mm_w mm_net mm_data mm_off]; now rewrite Ed|exact Eb|exact Ev|now apply (view_kappa _ _ Ev)|exact Ew|].
    cbn [set_off mm_net]. destruct (mm_net m) as [[|] s f|e] eqn:Enet; exact En.
Qed.
Print Assumptions C108_assignments_are_the_step.

Lemma mfop_ok_untouched m m' o : untouched m m' -> mfop_ok m o -> mfop_ok m' o.
Proof.
  intros (_ & _ & Hl). apply same_rec_length in Hl. destruct o as [|mb step]; cbn [mfop_ok].
  - intros H E. rewrite E in Hl. destruct (mm_data m); [congruence|discriminate].
  - now rewrite Hl.
Qed.
Lemma vb_step_ok lgam psi o m : vb_ok m -> mfop_ok m (match o with VDo o | VStop o _ => o end) ->
  exists m', vb_step lgam psi o m = Ok m' /\ vb_ok m' /\ untouched m m'.
Proof.
  intros Hm Ho. destruct o as [o|o n]; cbn [vb_step].
  - destruct (@C108_assignments_are_the_step lgam psi o m Hm Ho) as (m' & E & Ex).
    destruct (@vb_interrupted_ok lgam psi o (length (op_vsteps lgam psi o m)) m Hm Ho) as (m2 & E2 & H2 & U).
    unfold vb_interrupted in E2. rewrite firstn_all, Ex in E2. injection E2 as <-. eauto.
  - destruct (@vb_interrupted_ok lgam psi o n m Hm Ho) as (m2 & E2 & H2 & U). rewrite E2. eauto.
Qed.
Lemma vb_run_ok lgam psi hist : forall m, vb_ok m -> (forall o, In o hist -> mfop_ok m (match o with VDo o | VStop o _ => o end)) ->
  exists m', vb_run lgam psi hist m = Ok m' /\ vb_ok m' /\ untouched m m'.
Proof.
  induction hist as [|o hist IH]; intros m Hm Ho; cbn [vb_run]; [exists m; split; [reflexivity|split; [exact Hm|apply untouched_refl]]|].
  destruct (@vb_step_ok lgam psi o m Hm (Ho o (or_introl eq_refl))) as (m1 & E & H1 & U1). rewrite E. cbn [bindr].
  destruct (IH m1 H1) as (m2 & E2 & H2 & U2).
  { intros o' Hin. eapply mfop_ok_untouched; [exact U1|]. apply Ho. now right. }
  exists m2. split; [exact E2|]. split; [exact H2|]. eapply untouched_trans; eauto.
Qed.

(** Any history of coordinate-descent and stochastic steps (step sizes in (0,1]), each run to its end or stopped after any
    number of its assignments: nothing raises, every variational parameter is in its domain, priors, hyperparameters and
    recordings are those the model started with, and a coordinate-descent step run to its end divides every count among
    its parents again. *)
Theorem C108_interrupted :
  forall lgam psi hist m, vb_ok m -> (forall o, In o hist -> mfop_ok m (match o with VDo o | VStop o _ => o end)) ->
  exists m', vb_run lgam psi hist m = Ok m' /\ vb_ok m' /\
    mm_h m' = mm_h m /\ prior_part (mm_net m') = prior_part (mm_net m) /\
    Forall2 (fun p p' => exists E, p' = set_EZ p E) (mm_data m) (mm_data m') /\
    (mm_data m <> [] -> exists m1, mf_batch_step lgam psi m' = Ok m1 /\ vb_ok m1 /\
       forall d t k, In d (mm_data m1) -> (t < pa_T d)%nat -> (k < pa_K d)%nat ->
         Rsum (1 + pa_K d * pa_B d) (expected_attributed d t k) = IZR (pa_S d t k)).
Proof.
  intros lgam psi hist m Hm Ho. destruct (@vb_run_ok lgam psi hist m Hm Ho) as (m' & E & H & U). pose proof U as (U1 & U2 & U3).
  exists m'. split; [exact E|]. split; [exact H|]. split; [exact U1|]. split; [exact U2|]. split; [exact U3|]. intros Hne.
  assert (Hob : mfop_ok m' OpBatch) by (eapply mfop_ok_untouched; [exact U|exact Hne]).
  destruct (@vb_step_ok lgam psi (VDo OpBatch) m' H Hob) as (m1 & E1 & H1 & _). cbn [vb_step mf_op_step] in E1.
  exists m1. split; [exact E1|]. split; [exact H1|]. intros d t k Hd Ht Hk.
  unfold mf_batch_step in E1. cbv zeta in E1. apply bindr_ok in E1 as (data & Ed & E1). apply bindr_ok in E1 as (b & _ & E1).
  apply bindr_ok in E1 as (ne & _ & E1). apply bindr_ok in E1 as (w & _ & E1). apply bindr_ok in E1 as (no & _ & E1). injection E1 as <-.
  cbn [mm_data] in Hd.
  destruct (@mf_parents_ok (mf_in_of psi m') (mm_data m')) as (data' & Ed' & _ & Hre).
  { intros x Hx. destruct (vb_data H x Hx) as [(EK & EB & HT & Hdt & HF & Hfit) _]. split; [|exact Hfit].
    apply (@mf_in_nonneg psi (set_off m' None)); auto. now apply vb_mf_ok. }
  rewrite Ed in Ed'. injection Ed' as <-. apply In_nth_error in Hd as (i & Hi). destruct (Hre i d Hi) as (x & Hx & Eu).
  apply nth_error_In in Hx. destruct (vb_data H x Hx) as [(EK & EB & HT & Hdt & HF & Hfit) _].
  destruct (@C17_expected_counts x (mf_in_of psi m')) as (x' & Ex & Es & Hs); [apply (@mf_in_nonneg psi (set_off m' None)); auto; now apply vb_mf_ok|exact Hfit|].
  rewrite Eu in Ex. injection Ex as <-. rewrite Es in Ht, Hk |- *. cbn [set_EZ pa_T pa_K pa_B pa_S] in *.
  destruct (Hs t k Ht Hk) as [_ Hsum]. rewrite <- Hsum. rewrite Es at 2. reflexivity.
Qed.
Print Assumptions C108_interrupted.

(** A coordinate-descent step does not read the expected attributions it finds, so those an interrupted step left
    half-written have no effect on it. *)
Theorem C108_resume : forall lgam psi m data, Forall2 (fun p p' => exists E, p' = set_EZ p E) (mm_data m) data ->
  mf_batch_step lgam psi (set_vdata m data) = mf_batch_step lgam psi m.
Proof.
  intros lgam psi m data H. unfold mf_batch_step. cbn [set_vdata mm_h mm_bias mm_gamma mm_w mm_net mm_data mm_off].
  change (mf_in_of psi (set_vdata m data)) with (mf_in_of psi m).
  change (mf_in_of psi _) with (mf_in_of psi m) at 1.
  replace (mf_parents (mf_in_of psi m) data) with (mf_parents (mf_in_of psi m) (mm_data m)); [reflexivity|].
  induction H as [|p p' l l' (E & ->) H IH]; cbn [mf_parents]; [reflexivity|].
  change (mf_update_python (set_EZ p E) (mf_in_of psi m)) with (mf_update_python p (mf_in_of psi m)). now rewrite IH.
Qed.
Print Assumptions C108_resume.

(** A stochastic step takes its window before it works on it: stopped before its first assignment, or between the two
    assignments of a wrap-around, the next step takes the same window; stopped anywhere later, the next step takes the
    following one and the interrupted window has to wait for the next pass. *)
Theorem C108_window : forall lgam psi mb step n m d, vb_ok m -> mm_data m = [d] -> (0 < mb)%nat -> 0 < step <= 1 ->
  let window := next_offset (pa_T d) mb (mm_off m) in
  let m' := snd (vb_interrupted lgam psi (OpSgd mb step) n m) in
  let unclaimed := (n = 0 \/ (n = 1 /\ exists o, mm_off m = Some o /\ pa_T d <= o + mb))%nat in
  (unclaimed -> next_offset (pa_T d) mb (mm_off m') = window) /\
  (~ unclaimed -> mm_off m' = Some window /\ next_offset (pa_T d) mb (mm_off m') = next_offset (pa_T d) mb (Some window)).
Proof.
  intros lgam psi mb step n m d Hm Ed Hmb Hs window m' unclaimed.
  assert (Ho : mfop_ok m (OpSgd mb step)) by (cbn; rewrite Ed; auto).
  (* parameter assignments leave the offset alone *)
  set (offkeep := fun f : vstep => forall a b, f a = Ok b -> mm_off b = mm_off a).
  assert (K : forall l a, (forall f, In f l -> offkeep f) -> mm_off (snd (vexec l a)) = mm_off a).
  { induction l as [|f l IH]; intros a Hl; cbn [vexec]; [reflexivity|]. destruct (f a) as [b|e] eqn:E; [|reflexivity].
    rewrite IH; [apply (Hl f (or_introl eq_refl)); exact E|intros; apply Hl; now right]. }
  assert (Pp : forall dat frac do_p no f, In f (params_vsteps lgam psi dat frac step do_p no) -> offkeep f).
  { assert (M : forall g, offkeep (on_mfsbm g)) by (intros g a b E; injection E as <-; reflexivity).
    intros dat frac do_p no f Hin. unfold params_vsteps in Hin.
    apply in_app_or in Hin as [[<-|[<-|[]]]|Hin];
      [intros a b E; apply bindr_ok in E as (? & _ & E); injection E as <-; reflexivity|intros a b E; apply bindr_ok in E as (? & _ & E); injection E as <-; reflexivity|].
    apply in_app_or in Hin as [[<-|[]]|Hin]; [intros a b E; injection E as <-; reflexivity|].
    apply in_app_or in Hin as [[<-|[<-|[<-|[<-|[<-|[]]]]]]|Hin].
    - intros a b E. destruct (dat a); [discriminate|]. injection E as <-. reflexivity.
    - intros a b E. injection E as <-. reflexivity.
    - intros a b E. injection E as <-. reflexivity.
    - intros a b E. apply bindr_ok in E as (? & _ & E). injection E as <-. reflexivity.
    - intros a b E. apply bindr_ok in E as (? & _ & E). injection E as <-. reflexivity.
    - destruct no as [fp s q|e]; cbn [net_vsteps] in Hin.
      + apply in_app_or in Hin as [Hin|Hin]; [destruct do_p; [destruct Hin as [<-|Hin]; [apply M|]; apply in_flat_map in Hin as (c & _ & [<-|[<-|[]]]); apply M|destruct Hin]|].
        apply in_app_or in Hin as [Hin|Hin]; [destruct Hin as [<-|Hin]; [apply M|]; apply in_flat_map in Hin as (c & _ & [<-|[<-|[]]]); apply M|].
        apply in_app_or in Hin as [[<-|[]]|Hin]; [apply M|]. apply in_map_iff in Hin as (k & <- & _). apply M.
      + assert (Q : forall fst, offkeep (er_vstep psi step fst)).
        { intros fst a b E. unfold er_vstep in E. destruct (mm_net a); [injection E as <-; reflexivity|].
          apply bindr_ok in E as (n' & _ & E). destruct (e_mf _) as [[x y]|]; [|discriminate]. destruct (e_mf n') as [[x' y']|]; [|discriminate].
          injection E as <-. reflexivity. }
        destruct Hin as [<-|[<-|[]]]; apply Q. }
  unfold m', vb_interrupted. cbn [op_vsteps]. unfold sgd_vsteps. rewrite Ed. cbv zeta.
  destruct (@minibatch_ok psi m d mb Hm Ed Hmb) as (HT & HTd & p' & E & Hu). rewrite E.
  set (P := params_vsteps _ _ _ _ _ _ _). assert (KP : forall k a, mm_off (snd (vexec (firstn k P) a)) = mm_off a).
  { intros k a. apply K. intros f Hf. eapply Pp. unfold P in Hf. rewrite <- (firstn_skipn k). apply in_or_app. left. exact Hf. }
  assert (Hw : forall o, mm_off m = Some o -> window = if (pa_T d <=? o + mb)%nat then 0%nat else (o + mb)%nat) by (intros o Eo; unfold window; now rewrite Eo).
  assert (Hw0 : mm_off m = None -> window = 0%nat) by (intros Eo; unfold window; now rewrite Eo).
  destruct n as [|n]; [split; [reflexivity|intros Hn; exfalso; apply Hn; now left]|].
  destruct (mm_off m) as [o|] eqn:Eo; cbn [offset_vsteps].
  - specialize (Hw o eq_refl). destruct (Nat.leb_spec (pa_T d) (o + mb)) as [Hle|Hlt].
    + cbn [app firstn vexec]. destruct n as [|n].
      * split; [|intros Hn; exfalso; apply Hn; right; split; [reflexivity|]; exists o; auto].
        intros _. cbn [firstn vexec snd set_off mm_off next_offset]. destruct (Nat.leb_spec (pa_T d) (o + mb + mb)); [congruence|lia].
      * cbn [firstn vexec]. rewrite KP. cbn [set_off mm_off]. split; [|intros _; rewrite Hw; auto].
        intros [Hn|(Hn & _)]; discriminate.
    + cbn [app firstn vexec]. rewrite KP. cbn [set_off mm_off]. split; [|intros _; rewrite Hw; auto].
      intros [Hn|(_ & o' & Eo' & Hle)]; [discriminate|]. injection Eo' as <-. lia.
  - cbn [app firstn vexec]. rewrite KP. cbn [set_off mm_off]. rewrite (Hw0 eq_refl). split; [|intros _; auto].
    intros [Hn|(_ & o' & Eo' & _)]; discriminate.
Qed.
Print Assumptions C108_window.

(** A freshly built model with data is such a model (C38_initial gives mf_ok; add_data starts from no attributions). *)
Theorem C108_initial : forall m, mf_ok m -> (forall d, In d (mm_data m) -> forall k r c, pa_EZ d k r c = 0) -> vb_ok m.
Proof.
  intros m [H1 H2 H3 H4 H5 H6 H7] Hz. constructor; auto. intros d Hd. split; [auto|]. intros k r c _ _ _. rewrite (Hz d Hd). lra.
Qed.
Example C108_nonvacuous : vb_ok ex_mfm /\
  (forall o, In o [VStop OpBatch 2; VStop (OpSgd 1 (1/2)) 4; VDo (OpSgd 1 (1/2)); VStop OpBatch 9; VDo OpBatch] ->
     mfop_ok ex_mfm (match o with VDo o | VStop o _ => o end)) /\
  (9 < length (op_vsteps ln ln OpBatch ex_mfm))%nat.
Proof.
  split; [apply C108_initial; [exact ex_mfm_ok|]; intros d [<-|[]]; reflexivity|]. split.
  - intros o [<-|[<-|[<-|[<-|[<-|[]]]]]]; cbn; try discriminate; (split; [reflexivity|split; [lia|lra]]).
  - cbn. lia.
Qed.
