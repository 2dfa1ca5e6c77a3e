(** * Props_CtRelabel: C125, the names of the processes do not matter in continuous time.

    Rename the processes of a continuous-time network model and of its recordings; every quantity the model reports is the
    same quantity under the new names, and every draw a sampler requests is the same request under the new names. *)
From Coq Require Import Permutation.
From Verif Require Import Prelude ExtReal Arrays Spec_Relabel L_Relabel Spec_Continuous M_Basis M_Parents M_Discrete M_Gibbs M_Dist M_Network
  M_Sweep M_Continuous M_Prior L_Continuous L_Gibbs Props_Relabel Props_Continuous3.
Set Implicit Arguments.
Open Scope R_scope.

(** The same recording under new labels: the n-th event happens at the same time, in the same process, with the same
    parent event; the statistics gathered so far are those of the same processes. *)
Record same_rec (K : nat) (s : nat -> nat) (d d' : ctdata) : Prop := {
  sr_N : cd_N d' = cd_N d; sr_T : cd_T d' = cd_T d;
  sr_S : forall n, (n < cd_N d)%nat -> cd_S d' n = cd_S d n;
  sr_lt : forall n, (n < cd_N d)%nat -> (cd_C d' n < K)%nat;
  sr_C : forall n, (n < cd_N d)%nat -> s (cd_C d' n) = cd_C d n;
  sr_Z : forall n, (n < cd_N d)%nat -> cd_Z d' n = cd_Z d n;
  sr_bkgd : vec_as K s (cd_bkgd d) (cd_bkgd d');
  sr_weight : mat_as K s (cd_weight d) (cd_weight d');
  sr_imp : forall j, mat_as K s (cd_imp d j) (cd_imp d' j) }.
(** The same model under new labels (the network is related where it is used). *)
Record same_ct (s : nat -> nat) (m m' : ctmodel) : Prop := {
  sc_K : cm_K m' = cm_K m; sc_D : cm_dtmax m' = cm_dtmax m; sc_par : cm_par m' = cm_par m;
  sc_lam : vec_as (cm_K m) s (cm_lam m) (cm_lam m');
  sc_A : mat_as (cm_K m) s (cm_A m) (cm_A m');
  sc_W : mat_as (cm_K m) s (cm_W m) (cm_W m');
  sc_mu : mat_as (cm_K m) s (cm_mu m) (cm_mu m');
  sc_tau : mat_as (cm_K m) s (cm_tau m) (cm_tau m');
  sc_alpha : cm_alpha m' = cm_alpha m; sc_beta : cm_beta m' = cm_beta m; sc_mu0 : cm_mu0 m' = cm_mu0 m;
  sc_lmbda0 : cm_lmbda0 m' = cm_lmbda0 m; sc_alpha0 : cm_alpha0 m' = cm_alpha0 m; sc_beta0 : cm_beta0 m' = cm_beta0 m;
  sc_net : same_netobj s (cm_net m) (cm_net m');
  sc_data : Forall2 (same_rec (cm_K m) s) (cm_data m) (cm_data m') }.
(** Same outcome: the same exception, or related values. *)
Definition same_outcome {A} (Rel : A -> A -> Prop) (r r' : result A) : Prop :=
  match r, r' with Ok a, Ok a' => Rel a a' | Raise e, Raise e' => e' = e | _, _ => False end.

Lemma back_scan_ext skip skip' stop stop' w w' : forall n acc,
  (forall p, (p < n)%nat -> skip' p = skip p /\ stop' p = stop p /\ w' p = w p) -> back_scan skip' stop' w' n acc = back_scan skip stop w n acc.
Proof.
  induction n as [|n IH]; intros acc H; [reflexivity|]. cbn [back_scan]. destruct (H n ltac:(lia)) as (-> & -> & ->).
  rewrite !IH by (intros; apply H; lia). reflexivity.
Qed.
Lemma back_scan_snd_le skip stop w : forall n acc, (snd (back_scan skip stop w n acc) <= n)%nat.
Proof.
  induction n as [|n IH]; intros acc; [cbn; lia|]. cbn [back_scan]. destruct (skip n); [pose proof (IH acc); lia|].
  destruct (stop n); [cbn; lia|pose proof (IH (acc + w n)); lia].
Qed.
Lemma fwd_scan_ext us us' p p' denom u : forall k par acc,
  (forall i, (par <= i < par + k)%nat -> us' i = us i /\ p' i = p i) -> fwd_scan us' p' denom u par k acc = fwd_scan us p denom u par k acc.
Proof.
  induction k as [|k IH]; intros par acc H; [reflexivity|]. cbn [fwd_scan]. destruct (H par ltac:(lia)) as [-> ->].
  rewrite !IH by (intros; apply H; lia). reflexivity.
Qed.
Lemma back_scan_vec_as K s skip skip' stop stop' w w' C C' : relabelling K s -> forall n acc acc',
  (forall p, (p < n)%nat -> skip' p = skip p /\ stop' p = stop p /\ w' p = w p /\ (C' p < K)%nat /\ s (C' p) = C p) ->
  vec_as K s acc acc' -> vec_as K s (back_scan_vec skip stop w C n acc) (back_scan_vec skip' stop' w' C' n acc').
Proof.
  intros Hs. induction n as [|n IH]; intros acc acc' H Ha; [exact Ha|]. cbn [back_scan_vec]. destruct (H n ltac:(lia)) as (-> & -> & -> & H1 & H2).
  destruct (skip n); [apply IH; auto; intros; apply H; lia|]. destruct (stop n); [exact Ha|].
  apply IH; [intros; apply H; lia|]. intros k Hk. unfold upd. rewrite <- H2, !(@relabelling_eqb K s) by auto.
  rewrite Ha by exact H1. destruct (Nat.eqb _ _); [reflexivity|now apply Ha].
Qed.

Section REC.
Variables (s : nat -> nat) (m m' : ctmodel) (d d' : ctdata).
Hypotheses (Hs : relabelling (cm_K m) s) (Hm : same_ct s m m') (Hd : same_rec (cm_K m) s d d').

Lemma rc_Weff : mat_as (cm_K m) s (ct_W_effective m) (ct_W_effective m').
Proof. intros i j Hi Hj. unfold ct_W_effective. now rewrite (sc_A Hm), (sc_W Hm) by auto. Qed.
Lemma rc_Ns k : (k < cm_K m)%nat -> cd_Ns d' k = cd_Ns d (s k).
Proof.
  intros Hk. unfold cd_Ns, ct_Ns. rewrite (sr_N Hd). apply Zsum_ext. intros n Hn. rewrite <- (sr_C Hd Hn).
  now rewrite (@relabelling_eqb (cm_K m) s) by (auto; now apply (sr_lt Hd)).
Qed.
Lemma rc_w W W' n p : mat_as (cm_K m) s W W' -> (n < cd_N d)%nat -> (p < cd_N d)%nat ->
  ct_w (cd_S d') (cd_C d') (cm_dtmax m') W' (cm_mu m') (cm_tau m') n p = ct_w (cd_S d) (cd_C d) (cm_dtmax m) W (cm_mu m) (cm_tau m) n p.
Proof.
  intros HW Hn Hp. unfold ct_w. pose proof (sr_lt Hd Hn). pose proof (sr_lt Hd Hp).
  rewrite HW, (sc_mu Hm), (sc_tau Hm), (sc_D Hm), !(sr_S Hd), !(sr_C Hd) by auto. reflexivity.
Qed.
Lemma rc_rate_one n : (n < cd_N d)%nat ->
  ct_rate_one (cd_S d') (cd_C d') (cm_dtmax m') (cm_lam m') (ct_W_effective m') (cm_mu m') (cm_tau m') n
  = ct_rate_one (cd_S d) (cd_C d) (cm_dtmax m) (cm_lam m) (ct_W_effective m) (cm_mu m) (cm_tau m) n.
Proof.
  intros Hn. unfold ct_rate_one. pose proof (sr_lt Hd Hn) as Hl. rewrite (sc_lam Hm), (sr_C Hd) by auto. f_equal. apply back_scan_ext. intros p Hp.
  assert (Hp' : (p < cd_N d)%nat) by lia. pose proof (sr_lt Hd Hp'). rewrite !(sr_S Hd), (sc_D Hm) by auto.
  rewrite <- (sc_D Hm), (rc_w rc_Weff Hn Hp'), rc_Weff, !(sr_C Hd) by auto. now rewrite (sc_D Hm).
Qed.
Lemma rc_rate order order' n : Permutation order (seq 0 (cd_N d)) -> Permutation order' (seq 0 (cd_N d)) -> (n < cd_N d)%nat ->
  ct_model_rate order' m' d' n = ct_model_rate order m d n.
Proof.
  intros H H' Hn. unfold ct_model_rate, ct_rate_at_events. rewrite !(@run_tasks_all _ _ (cd_N d)) by auto. now apply rc_rate_one.
Qed.
Lemma rc_integrated : vec_as (cm_K m) s (ct_integrated m d) (ct_integrated m' d').
Proof.
  intros k Hk. unfold ct_integrated. rewrite (sc_lam Hm), (sr_T Hd), (sc_K Hm) by auto. f_equal.
  apply (@Rsum_as (cm_K m) s (fun k1 => ct_W_effective m k1 (s k) * IZR (cd_Ns d k1))); auto. intros i Hi. now rewrite rc_Weff, rc_Ns by auto.
Qed.
Lemma rc_ll_data order order' : Permutation (order d) (seq 0 (cd_N d)) -> Permutation (order' d') (seq 0 (cd_N d)) ->
  ct_ll_data order' m' d' = ct_ll_data order m d.
Proof.
  intros H H'. unfold ct_ll_data. rewrite (sc_K Hm), (sr_N Hd). f_equal.
  - f_equal. f_equal. apply (Rsum_as Hs rc_integrated).
  - apply esum_ext. intros n Hn. now rewrite (@rc_rate (order d) (order' d')) by auto.
Qed.
Lemma rc_irs order order' n : Permutation order (seq 0 (cd_N d)) -> Permutation order' (seq 0 (cd_N d)) -> (n < cd_N d)%nat ->
  vec_as (cm_K m) s (ct_irs order m d n) (ct_irs order' m' d' n).
Proof.
  intros H H' Hn. unfold ct_irs. rewrite !(@run_tasks_all _ _ (cd_N d)) by auto. unfold ct_irs_one. apply back_scan_vec_as; auto; [|intros k Hk; reflexivity].
  intros p Hp. assert (Hp' : (p < cd_N d)%nat) by lia. rewrite (rc_w (sc_W Hm) Hn Hp'), !(sr_S Hd), (sc_D Hm) by auto.
  repeat split; [now apply (sr_lt Hd)|now apply (sr_C Hd)].
Qed.
Lemma rc_parent u n : (n < cd_N d)%nat ->
  ct_parent (cd_S d') (cd_C d') (cm_dtmax m') (cm_lam m') (ct_W_effective m') (cm_mu m') (cm_tau m') u n
  = ct_parent (cd_S d) (cd_C d) (cm_dtmax m) (cm_lam m) (ct_W_effective m) (cm_mu m) (cm_tau m) u n.
Proof.
  intros Hn. unfold ct_parent. destruct n as [|n0]; [reflexivity|]. set (n := S n0) in *. cbv zeta.
  pose proof (sr_lt Hd Hn) as Hl. rewrite (sc_lam Hm), (sr_C Hd) by auto.
  set (sk := fun par => Rltb (cd_S d n - cd_S d par) eps). set (w := ct_w (cd_S d) (cd_C d) (cm_dtmax m) (ct_W_effective m) (cm_mu m) (cm_tau m) n).
  rewrite (@back_scan_ext sk _ (fun par => Rltb (cm_dtmax m - eps) (cd_S d n - cd_S d par)) _ w).
  2:{ intros p Hp. assert (Hp' : (p < cd_N d)%nat) by lia. rewrite !(sr_S Hd), (sc_D Hm) by auto. unfold w. rewrite <- (sc_D Hm).
      rewrite (rc_w rc_Weff Hn Hp'). unfold sk. now rewrite (sc_D Hm). }
  pose proof (back_scan_snd_le sk (fun par => Rltb (cm_dtmax m - eps) (cd_S d n - cd_S d par)) w n (cm_lam m (cd_C d n))) as Hle.
  destruct (back_scan _ _ _ n _) as [denom mp]. cbn [snd] in Hle. destruct (Reqb denom 0); [reflexivity|]. destruct (Rltb _ _); [reflexivity|]. f_equal.
  apply fwd_scan_ext. intros i Hi. assert (Hp' : (i < cd_N d)%nat) by lia. rewrite !(sr_S Hd), (sc_D Hm) by auto. split; [reflexivity|].
  rewrite <- (sc_D Hm). now rewrite (rc_w rc_Weff Hn Hp').
Qed.
End REC.

(** C125 (rates): the rate at every event, on any two complete schedules of the parallel loop; the rate on a grid and the impulse
    responses. *)
Theorem C125_rates s m m' d d' :
  relabelling (cm_K m) s -> same_ct s m m' -> same_rec (cm_K m) s d d' ->
  (forall order order' n, Permutation order (seq 0 (cd_N d)) -> Permutation order' (seq 0 (cd_N d)) -> (n < cd_N d)%nat ->
     ct_model_rate order' m' d' n = ct_model_rate order m d n) /\
  (forall k, (k < cm_K m)%nat -> ct_integrated m' d' k = ct_integrated m d (s k)) /\
  (forall t k, (k < cm_K m)%nat ->
     ct_compute_rate m' (cd_N d') (cd_S d') (cd_C d') t k = ct_compute_rate m (cd_N d) (cd_S d) (cd_C d) t (s k)) /\
  (forall dt j k1 k2, (k1 < cm_K m)%nat -> (k2 < cm_K m)%nat ->
     ct_compute_impulses m' dt j k1 k2 = ct_compute_impulses m dt j (s k1) (s k2) /\
     ct_impulses m' j k1 k2 = ct_impulses m j (s k1) (s k2)).
Proof.
  intros Hs Hm Hd. repeat apply conj.
  - intros order order' n H H' Hn. now apply (rc_rate Hm Hd).
  - exact (rc_integrated Hs Hm Hd).
  - intros t k Hk. unfold ct_compute_rate. cbv zeta. rewrite (sc_lam Hm), (sr_N Hd), (sc_D Hm) by auto.
    assert (G : forall l cur, (forall n, In n l -> (n < cd_N d)%nat) ->
      fold_left (fun cur n => if (Rltb 0 (t - cd_S d' n) && Rltb (t - cd_S d' n) (cm_dtmax m))%bool then eadd (Fin (0 + cm_lam m (s k))) (py_impulse (cm_dtmax m) (t - cd_S d' n) (cm_mu m' (cd_C d' n) k) (cm_tau m' (cd_C d' n) k)) else cur) l cur
      = fold_left (fun cur n => if (Rltb 0 (t - cd_S d n) && Rltb (t - cd_S d n) (cm_dtmax m))%bool then eadd (Fin (0 + cm_lam m (s k))) (py_impulse (cm_dtmax m) (t - cd_S d n) (cm_mu m (cd_C d n) (s k)) (cm_tau m (cd_C d n) (s k))) else cur) l cur).
    { induction l as [|n l IH]; intros cur H; cbn [fold_left]; [reflexivity|]. assert (Hn : (n < cd_N d)%nat) by (apply H; now left).
      rewrite (sr_S Hd), (sc_mu Hm), (sc_tau Hm), (sr_C Hd) by (auto; now apply (sr_lt Hd)). apply IH. intros; apply H; now right. }
    apply G. intros n Hn. apply in_seq in Hn. lia.
  - intros dt j k1 k2 H1 H2. unfold ct_compute_impulses, ct_impulses, ct_impulse_grid. now rewrite (sc_D Hm), (sc_mu Hm), (sc_tau Hm) by auto.
Qed.

(** Complete schedules of the loops over events. *)
Definition complete_schedules (order : ctdata -> list nat) (data : list ctdata) : Prop :=
  forall d, In d data -> Permutation (order d) (seq 0 (cd_N d)).

(** C125 (likelihood): of the stored and of any other recordings; likewise the log probability. *)
Theorem C125_likelihood s m m' data data' order order' :
  relabelling (cm_K m) s -> same_ct s m m' -> Forall2 (same_rec (cm_K m) s) data data' ->
  complete_schedules order data -> complete_schedules order' data' ->
  complete_schedules order (cm_data m) -> complete_schedules order' (cm_data m') ->
  ct_log_likelihood order' m' (Some data') = ct_log_likelihood order m (Some data) /\
  ct_log_likelihood order' m' None = ct_log_likelihood order m None /\
  forall lgam alpha beta, ct_log_probability lgam alpha beta order' m' = ct_log_probability lgam alpha beta order m.
Proof.
  intros Hs Hm HD Ho Ho' Hc Hc'.
  assert (G : forall l l', Forall2 (same_rec (cm_K m) s) l l' -> complete_schedules order l -> complete_schedules order' l' -> forall acc,
    fold_left (fun ll d => eadd ll (ct_ll_data order' m' d)) l' acc = fold_left (fun ll d => eadd ll (ct_ll_data order m d)) l acc).
  { clear HD Ho Ho' Hc Hc'. intros l l' H. induction H as [|d d' l l' H1 H2 IH]; intros Ho Ho' acc; cbn [fold_left]; [reflexivity|].
    rewrite (rc_ll_data Hs Hm H1 order order').
    - apply IH; intros x Hx; [apply Ho|apply Ho']; now right.
    - apply Ho. now left.
    - rewrite <- (sr_N H1). apply Ho'. now left. }
  assert (L : ct_log_likelihood order' m' None = ct_log_likelihood order m None) by (apply G; auto; apply (sc_data Hm)).
  split; [now apply G|]. split; [exact L|]. intros lgam alpha beta. unfold ct_log_probability. rewrite L. f_equal. unfold ct_log_prior. f_equal. f_equal. f_equal.
  rewrite (sc_K Hm). unfold bias_ll. f_equal.
  apply (@esum_as (cm_K m) s (fun k => esub (emul (Fin (alpha - 1)) (elog (Fin (cm_lam m k)))) (Fin (beta * cm_lam m k)))); auto.
  intros k Hk. now rewrite (sc_lam Hm) by auto.
Qed.
Print Assumptions C125_rates.
Print Assumptions C125_likelihood.

(* ---------------- parents ---------------- *)
Lemma run_tasks_r_as {A} N (task task' : nat -> result A) : forall order slots slots',
  (forall n, In n order -> task' n = task n) -> (forall n, (n < N)%nat -> slots' n = slots n) ->
  same_outcome (fun z z' : nat -> A => forall n, (n < N)%nat -> z' n = z n) (run_tasks_r order task slots) (run_tasks_r order task' slots').
Proof.
  induction order as [|n order IH]; intros slots slots' H Hz; cbn [run_tasks_r]; [exact Hz|]. rewrite H by now left.
  destruct (task n); cbn [bindr]; [|reflexivity]. apply IH; [intros; apply H; now right|]. intros i Hi. unfold upd. destruct (Nat.eqb i n); auto.
Qed.

Section STATS.
Variables (K N : nat) (s : nat -> nat) (S_ S' : vec) (C C' : nat -> nat) (Z_ Z' : nat -> Z) (D : R).
Hypotheses (Hs : relabelling K s) (HS : forall n, (n < N)%nat -> S' n = S_ n) (HC : forall n, (n < N)%nat -> (C' n < K)%nat /\ s (C' n) = C n)
  (HZ : forall n, (n < N)%nat -> Z' n = Z_ n) (HV : forall n, (n < N)%nat -> (-2 < Z_ n < Z.of_nat n)%Z).
Lemma par_lt n : (n < N)%nat -> Z_ n <> (-1)%Z -> (Z.to_nat (Z_ n) < N)%nat.
Proof. intros Hn H. pose proof (HV Hn). lia. Qed.
Lemma upd_as (f f' : vec) n g g' : (n < N)%nat -> vec_as K s f f' -> (f' (C' n) = f (C n) -> g' = g) -> vec_as K s (upd f (C n) g) (upd f' (C' n) g').
Proof.
  intros Hn H Hg k Hk. destruct (HC Hn) as [H1 H2]. unfold upd. rewrite <- H2, (@relabelling_eqb K s) by auto. destruct (Nat.eqb k (C' n)); [|now apply H].
  apply Hg. rewrite <- H2. now apply H.
Qed.
Lemma upd_add2_as (f f' : mat) a b x x' : (a < K)%nat -> (b < K)%nat -> x' = x -> mat_as K s f f' -> mat_as K s (upd_add2 f (s a) (s b) x) (upd_add2 f' a b x').
Proof. intros Ha Hb -> H. unfold upd_add2. rewrite <- H by auto. now apply upd2_as. Qed.
Lemma pass1_as : forall l bk bk' ws ws' i0 i0' i1 i1', (forall n, In n l -> (n < N)%nat) ->
  vec_as K s bk bk' -> mat_as K s ws ws' -> mat_as K s i0 i0' -> mat_as K s i1 i1' ->
  let '(b, w, x, y) := fold_left (ss_pass1 S_ C Z_ D) l (bk, ws, i0, i1) in
  let '(b', w', x', y') := fold_left (ss_pass1 S' C' Z' D) l (bk', ws', i0', i1') in
  vec_as K s b b' /\ mat_as K s w w' /\ mat_as K s x x' /\ mat_as K s y y'.
Proof.
  induction l as [|n l IH]; intros bk bk' ws ws' i0 i0' i1 i1' H Hb Hw H0 H1; cbn [fold_left]; [auto|].
  assert (Hn : (n < N)%nat) by (apply H; now left). assert (H' : forall n, In n l -> (n < N)%nat) by (intros; apply H; now right).
  unfold ss_pass1 at 2 4. rewrite HZ by exact Hn. destruct (Z.eqb_spec (Z_ n) (-1)) as [E|E].
  - apply IH; auto. apply upd_as; auto. intros ->. reflexivity.
  - pose proof (par_lt Hn E) as Hp. destruct (HC Hn) as [A1 <-]. destruct (HC Hp) as [A2 <-]. rewrite !HS by auto.
    apply IH; auto; now apply upd_add2_as.
Qed.
Lemma pass2_as mu mu' : mat_as K s mu mu' -> forall l f f', (forall n, In n l -> (n < N)%nat) -> mat_as K s f f' ->
  mat_as K s (fold_left (ss_pass2 S_ C Z_ D mu) l f) (fold_left (ss_pass2 S' C' Z' D mu') l f').
Proof.
  intros Hmu. induction l as [|n l IH]; intros f f' H Hf; cbn [fold_left]; [exact Hf|].
  assert (Hn : (n < N)%nat) by (apply H; now left). apply IH; [intros; apply H; now right|]. unfold ss_pass2. rewrite HZ by exact Hn.
  destruct (Z.ltb_spec (-1) (Z_ n)) as [E|E]; [|exact Hf]. cbv zeta.
  assert (E' : Z_ n <> (-1)%Z) by lia. pose proof (par_lt Hn E') as Hp. destruct (HC Hn) as [A1 <-]. destruct (HC Hp) as [A2 <-]. rewrite !HS, Hmu by auto.
  now apply upd_add2_as.
Qed.
Lemma suff_stats_as :
  same_outcome (fun x x' => let '(b, w, i) := x in let '(b', w', i') := x' in vec_as K s b b' /\ mat_as K s w w' /\ forall j, mat_as K s (i j) (i' j))
    (ct_suff_stats N S_ C Z_ D) (ct_suff_stats N S' C' Z' D).
Proof.
  unfold ct_suff_stats.
  assert (Hin : forall n, In n (seq 0 N) -> (n < N)%nat) by (intros n Hn; apply in_seq in Hn; lia).
  pose proof (@pass1_as (seq 0 N) (fun _ => 0) (fun _ => 0) (fun _ _ => 0) (fun _ _ => 0) (fun _ _ => 0) (fun _ _ => 0) (fun _ _ => 0) (fun _ _ => 0) Hin
    ltac:(intros ? ?; reflexivity) ltac:(intros ? ? ? ?; reflexivity) ltac:(intros ? ? ? ?; reflexivity) ltac:(intros ? ? ? ?; reflexivity)) as G.
  destruct (fold_left (ss_pass1 S_ C Z_ D) _ _) as [[[bk ws] i0] i1]. destruct (fold_left (ss_pass1 S' C' Z' D) _ _) as [[[bk' ws'] i0'] i1']. destruct G as (Hb & Hw & H0 & H1). cbv zeta.
  assert (Hmu : mat_as K s (fun a b => i1 a b / i0 a b) (fun a b => i1' a b / i0' a b)) by (intros a b Ha Hb'; cbv beta; now rewrite H1, H0 by auto).
  pose proof (@pass2_as _ _ Hmu (seq 0 N) (fun _ _ => 0) (fun _ _ => 0) Hin ltac:(intros ? ? ? ?; reflexivity)) as H2.
  match goal with |- same_outcome _ (do _ <- guard ?g ?e ;; _) (do _ <- guard ?g' ?e ;; _) => replace g' with g end.
  - destruct (guard _ _); cbn [bindr same_outcome]; [|reflexivity]. split; [exact Hb|]. split; [exact Hw|]. intros [|[|j]]; assumption.
  - apply forall_lt_ext. intros n Hn. rewrite HZ by exact Hn. destruct (Z.eqb_spec (Z_ n) (-1)) as [E|E]; [reflexivity|]. pose proof (par_lt Hn E). now rewrite !HS by auto.
Qed.
End STATS.

(** C125 (parents): the same random numbers give every event the same parent event, or the same exception, and the statistics
    gathered are those of the same processes. *)
Theorem C125_parents s m m' d d' order u :
  relabelling (cm_K m) s -> same_ct s m m' -> same_rec (cm_K m) s d d' -> (forall n, In n order -> (n < cd_N d)%nat) ->
  same_outcome (same_rec (cm_K m) s) (ct_parents_resample m order u d) (ct_parents_resample m' order u d').
Proof.
  intros Hs Hm Hd Ho. unfold ct_parents_resample.
  pose proof (@run_tasks_r_as Z (cd_N d) (ct_parent (cd_S d) (cd_C d) (cm_dtmax m) (cm_lam m) (ct_W_effective m) (cm_mu m) (cm_tau m) u)
    (ct_parent (cd_S d') (cd_C d') (cm_dtmax m') (cm_lam m') (ct_W_effective m') (cm_mu m') (cm_tau m') u) order (cd_Z d) (cd_Z d')
    (fun n Hn => rc_parent Hm Hd u (Ho n Hn)) (fun n Hn => sr_Z Hd Hn)) as G. unfold ct_resample_Z.
  destruct (run_tasks_r order (ct_parent (cd_S d) _ _ _ _ _ _ _) _) as [Z_|e]; destruct (run_tasks_r order (ct_parent (cd_S d') _ _ _ _ _ _ _) _) as [Z'|e']; cbn [same_outcome] in G; try contradiction;
    cbn [bindr]; [|exact G].
  rewrite (sr_N Hd). rewrite (@forall_lt_ext (cd_N d) (fun n => Z.ltb (-2) (Z' n)) (fun n => Z.ltb (-2) (Z_ n))) by (intros n Hn; now rewrite G).
  rewrite (@forall_lt_ext (cd_N d) (fun n => Z.ltb (Z' n) (Z.of_nat n)) (fun n => Z.ltb (Z_ n) (Z.of_nat n))) by (intros n Hn; now rewrite G).
  destruct (forall_lt (cd_N d) (fun n => Z.ltb (-2) (Z_ n))) eqn:E1; cbn [guard bindr]; [|reflexivity].
  destruct (forall_lt (cd_N d) (fun n => Z.ltb (Z_ n) (Z.of_nat n))) eqn:E2; cbn [guard bindr]; [|reflexivity].
  rewrite forall_lt_true in E1, E2. rewrite (sc_D Hm).
  pose proof (@suff_stats_as (cm_K m) (cd_N d) s (cd_S d) (cd_S d') (cd_C d) (cd_C d') Z_ Z' (cm_dtmax m) Hs (fun n Hn => sr_S Hd Hn)
    (fun n Hn => conj (sr_lt Hd Hn) (sr_C Hd Hn)) G) as H.
  assert (HV : forall n, (n < cd_N d)%nat -> (-2 < Z_ n < Z.of_nat n)%Z) by (intros n Hn; pose proof (E1 n Hn); pose proof (E2 n Hn); lia).
  specialize (H HV). destruct (ct_suff_stats _ (cd_S d) _ _ _) as [[[bk ws] im]|e]; destruct (ct_suff_stats _ (cd_S d') _ _ _) as [[[bk' ws'] im']|e']; cbn [same_outcome] in H; try contradiction;
    cbn [bindr]; [|exact H]. destruct H as (Hb & Hw & Hi). rewrite (sc_K Hm).
  rewrite (@forall_as (cm_K m) s (fun k => Reqb (bk k + Rsum (cm_K m) (fun k1 => ws k1 k)) (IZR (cd_Ns d k)))
    (fun k => Reqb (bk' k + Rsum (cm_K m) (fun k1 => ws' k1 k)) (IZR (cd_Ns d' k)))); auto.
  2:{ intros k Hk. cbv beta. rewrite Hb, (rc_Ns m Hs Hd) by auto. f_equal. f_equal. apply (@Rsum_as (cm_K m) s (fun k1 => ws k1 (s k))); auto. intros i Hi'. now apply Hw. }
  destruct (guard _ _); cbn [bindr same_outcome]; [|reflexivity].
  constructor; cbn [cd_with cd_N cd_S cd_C cd_T cd_Z cd_bkgd cd_weight cd_imp]; auto; try apply Hd.
Qed.
Print Assumptions C125_parents.

(* ---------------- parameters ---------------- *)
Lemma pool_rec K s (f f' : ctdata -> R) data data' : (forall d d', same_rec K s d d' -> f' d' = f d) -> Forall2 (same_rec K s) data data' -> pool f' data' = pool f data.
Proof.
  intros H HD. unfold pool. generalize 0. induction HD as [|d d' l l' H1 H2 IH]; intros a; cbn [fold_left]; [reflexivity|]. rewrite (H _ _ H1). apply IH.
Qed.
(** C125 (background rates, response parameters, weights): the parameters requested are those of the original process or pair. *)
Theorem C125_requests s m m' n n' A A' data data' :
  relabelling (cm_K m) s -> same_ct s m m' -> same_net (cm_K m) s n n' -> mat_as (cm_K m) s A A' -> Forall2 (same_rec (cm_K m) s) data data' ->
  (forall alpha beta k, (k < cm_K m)%nat -> ct_bias_request alpha beta (map cd_stat data') k = ct_bias_request alpha beta (map cd_stat data) (s k)) /\
  (forall i j, (i < cm_K m)%nat -> (j < cm_K m)%nat -> ct_imp_request m' data' i j = ct_imp_request m data (s i) (s j)) /\
  (forall i j, (i < cm_K m)%nat -> (j < cm_K m)%nat -> ct_W_request n' A' data' i j = ct_W_request n A data (s i) (s j)).
Proof.
  intros Hs Hm (HP & HV & Hk) HA HD. repeat apply conj.
  - intros alpha beta k Hk1. unfold ct_bias_request, ct_bias_ss.
    assert (G : forall a, fold_left (fun _ d => (cs_bkgd d k, cs_T d)) (map cd_stat data') a = fold_left (fun _ d => (cs_bkgd d (s k), cs_T d)) (map cd_stat data) a).
    { induction HD as [|d d' l l' H1 H2 IH]; intros a; cbn [fold_left map]; [reflexivity|]. cbn [cd_stat cs_bkgd cs_T]. rewrite (sr_bkgd H1), (sr_T H1) by auto. apply IH. }
    now rewrite G.
  - intros i j Hi Hj. unfold ct_imp_request. rewrite (sc_mu0 Hm), (sc_lmbda0 Hm), (sc_alpha0 Hm), (sc_beta0 Hm). unfold nig_stats.
    f_equal; f_equal; eapply pool_rec; try exact HD; intros d d' Hd; now rewrite (sr_imp Hd) by auto.
  - intros i j Hi Hj. unfold ct_W_request. rewrite Hk, HV, HA by auto. f_equal.
    + f_equal. f_equal. eapply pool_rec; [|exact HD]. intros d d' Hd. now rewrite (sr_weight Hd) by auto.
    + f_equal. f_equal. f_equal. f_equal. eapply pool_rec; [|exact HD]. intros d d' Hd. now rewrite (rc_Ns m Hs Hd) by auto.
Qed.
Print Assumptions C125_requests.

(** C125 (adjacency): the log likelihood of one process's events given the edges into it, and reconsidering the edge (i, j) of the
    relabelled model with the uniform the original used for (s i, s j). *)
Lemma ll_single_as s m m' data data' norder norder' k a a' :
  relabelling (cm_K m) s -> same_ct s m m' -> Forall2 (same_rec (cm_K m) s) data data' ->
  complete_schedules norder data -> complete_schedules norder' data' -> (k < cm_K m)%nat -> vec_as (cm_K m) s a a' ->
  ct_ll_single m' (fun d => ct_irs (norder' d) m' d) data' k a' = ct_ll_single m (fun d => ct_irs (norder d) m d) data (s k) a.
Proof.
  intros Hs Hm HD Ho Ho' Hk Ha. unfold ct_ll_single. generalize (Fin 0). induction HD as [|d d' l l' H1 H2 IH]; intros acc; cbn [fold_left]; [reflexivity|].
  replace (ct_ll_single_data m' (fun d => ct_irs (norder' d) m' d) k a' d') with (ct_ll_single_data m (fun d => ct_irs (norder d) m d) (s k) a d).
  { apply IH; intros x Hx; [apply Ho|apply Ho']; now right. }
  unfold ct_ll_single_data. cbv zeta. rewrite (sc_lam Hm), (sr_T H1), (sc_K Hm), (sr_N H1) by auto. f_equal; [f_equal; f_equal|].
  - symmetry. apply (@Rsum_as (cm_K m) s (fun k1 => b2R (a k1) * cm_W m k1 (s k) * IZR (cd_Ns d k1))); auto. intros i Hi. now rewrite Ha, (sc_W Hm), (rc_Ns m Hs H1) by auto.
  - apply esum_ext. intros n Hn. rewrite <- (sr_C H1 Hn), (@relabelling_eqb (cm_K m) s) by (auto; now apply (sr_lt H1)).
    destruct (Nat.eqb _ _); [|reflexivity]. f_equal. f_equal. f_equal. symmetry.
    apply (@Rsum_as (cm_K m) s (fun k1 => b2R (a k1) * ct_irs (norder d) m d n k1)); auto. intros i Hi. rewrite Ha by auto. f_equal.
    apply (rc_irs Hs Hm H1); auto; [apply Ho; now left|]. rewrite <- (sr_N H1). apply Ho'. now left.
Qed.
Theorem C125_edge_update s m m' n n' data data' norder norder' u u' A A' i j :
  relabelling (cm_K m) s -> same_ct s m m' -> same_net (cm_K m) s n n' -> Forall2 (same_rec (cm_K m) s) data data' ->
  complete_schedules norder data -> complete_schedules norder' data' -> mat_as (cm_K m) s A A' ->
  (i < cm_K m)%nat -> (j < cm_K m)%nat -> u' i j = u (s i) (s j) ->
  mat_as (cm_K m) s (ct_edge_step (ct_ll_single m (fun d => ct_irs (norder d) m d) data) (n_P n) u A (s i) (s j))
                    (ct_edge_step (ct_ll_single m' (fun d => ct_irs (norder' d) m' d) data') (n_P n') u' A' i j).
Proof.
  intros Hs Hm (HP & _) HD Ho Ho' HA Hi Hj Hu. unfold ct_edge_step. cbv zeta. rewrite HP, Hu by auto.
  destruct (Reqb _ 0); [now apply upd2_as|]. destruct (Reqb _ 1); [now apply upd2_as|].
  pose proof (@upd2_as bool _ s A A' i j false Hs Hi Hj HA) as H0. pose proof (@upd2_as bool _ s _ _ i j true Hs Hi Hj H0) as H1.
  assert (V : forall M M' : bmat, mat_as (cm_K m) s M M' -> vec_as (cm_K m) s (fun i => M i (s j)) (fun i => M' i j)) by (intros M M' H a Ha; now apply H).
  rewrite (@ll_single_as s m m' data data' norder norder' j _ _ Hs Hm HD Ho Ho' Hj (V _ _ H0)).
  rewrite (@ll_single_as s m m' data data' norder norder' j _ _ Hs Hm HD Ho Ho' Hj (V _ _ H1)). now apply upd2_as.
Qed.
Print Assumptions C125_edge_update.

(* ---------------- data ---------------- *)
(** The same labels under new names; labels that are not process numbers stay such. *)
Definition labels_as (K : nat) (s : nat -> nat) (C_ C' : ival) : Prop :=
  iv_isarray C' = iv_isarray C_ /\ iv_dims C' = iv_dims C_ /\ iv_isint C' = iv_isint C_ /\
  forall i, let ok z := (0 <= z < Z.of_nat K)%Z in
    (ok (iv_at C' i) <-> ok (iv_at C_ i)) /\ (ok (iv_at C_ i) -> s (Z.to_nat (iv_at C' i)) = Z.to_nat (iv_at C_ i)).
(** C125 (add_data): the same recordings are accepted, with the same exception otherwise; the data stored are the same. *)
Theorem C125_add_data s m m' S_ C_ C' T f :
  relabelling (cm_K m) s -> same_ct s m m' -> labels_as (cm_K m) s C_ C' ->
  same_outcome (same_ct s) (ct_add_data m S_ C_ T f) (ct_add_data m' S_ C' T f).
Proof.
  intros Hs Hm (E1 & E2 & E3 & E4). unfold ct_add_data. rewrite E1, E2, E3, (sc_K Hm).
  destruct (guard f _); cbn [bindr]; [|reflexivity]. destruct (py_len (tv_dims S_)) as [n|] eqn:EN; cbn [bindr]; [|reflexivity].
  destruct (if Nat.ltb 0 n then _ else Ok tt) as [?|]; cbn [bindr]; [|reflexivity].
  destruct (py_len (iv_dims C_)) as [c|] eqn:EC; cbn [bindr]; [|reflexivity].
  assert (EF : forall_lt c (fun i => (Z.leb 0 (iv_at C' i) && Z.ltb (iv_at C' i) (Z.of_nat (cm_K m)))%bool)
             = forall_lt c (fun i => (Z.leb 0 (iv_at C_ i) && Z.ltb (iv_at C_ i) (Z.of_nat (cm_K m)))%bool)).
  { apply forall_lt_ext. intros i _. destruct (E4 i) as [I _]. apply Bool.eq_true_iff_eq. rewrite !Bool.andb_true_iff, !Z.leb_le, !Z.ltb_lt. exact I. }
  rewrite EF. set (ok := forall_lt c _) in *.
  destruct (if Nat.ltb 0 c then _ else Ok tt) as [?|] eqn:EG; cbn [bindr]; [|reflexivity].
  destruct (guard (tv_isarray S_) _); cbn [bindr]; [|reflexivity].
  destruct (if Nat.eqb _ 1 then _ else _) as [?|]; cbn [bindr]; [|reflexivity].
  destruct (dims_eqb (tv_dims S_) (iv_dims C_)) eqn:ED; cbn [guard bindr]; [|reflexivity].
  destruct (guard (iv_isint C_) _); cbn [bindr same_outcome]; [|reflexivity].
  assert (nc : n = c).
  { clear - EN EC ED. destruct (tv_dims S_) as [|a l]; [discriminate|]. destruct (iv_dims C_) as [|b l']; [discriminate|].
    injection EN as <-. injection EC as <-. cbn in ED. apply andb_prop in ED. now apply Nat.eqb_eq. }
  subst c. assert (OK : forall i, (i < n)%nat -> (0 <= iv_at C_ i < Z.of_nat (cm_K m))%Z).
  { intros i Hi. destruct (Nat.ltb_spec 0 n); [|lia]. clear EF. destruct (guard (iv_isarray C_) _); [|discriminate].
    cbn [bindr] in EG. subst ok. destruct (forall_lt n _) eqn:Eok; [|cbn [bindr] in EG; rewrite Bool.andb_false_r in EG; discriminate]. rewrite forall_lt_true in Eok. specialize (Eok i Hi).
    apply andb_prop in Eok. destruct Eok as [A B]. apply Z.leb_le in A. apply Z.ltb_lt in B. lia. }
  assert (NC : forall i, (i < n)%nat -> (Z.to_nat (iv_at C' i) < cm_K m)%nat /\ s (Z.to_nat (iv_at C' i)) = Z.to_nat (iv_at C_ i)).
  { intros i Hi. destruct (E4 i) as [I J]. pose proof (proj2 I (OK i Hi)). split; [lia|]. apply J, OK, Hi. }
  unfold cm_with_data, cm_set. constructor; cbn; try apply Hm. apply Forall2_app; [apply Hm|]. constructor; [|constructor].
  constructor; cbn; try reflexivity; try (intros i Hi; apply NC, Hi); try (intros; intros ? ? ? ?; reflexivity); try (intros ? ? ? ?; reflexivity).
  intros k Hk. f_equal. unfold ct_Ns. apply Zsum_ext. intros i Hi. destruct (NC i Hi) as [N1 <-]. now rewrite (@relabelling_eqb (cm_K m) s) by auto.
Qed.
Print Assumptions C125_add_data.

(* ---------------- every model has a relabelled counterpart ---------------- *)
(** The new name of old process j. *)
Definition new_name (K : nat) (s : nat -> nat) (j : nat) : nat := hd 0%nat (filter (fun i => Nat.eqb (s i) j) (seq 0 K)).
Lemma new_name_ok K s j : relabelling K s -> (j < K)%nat -> (new_name K s j < K)%nat /\ s (new_name K s j) = j.
Proof.
  intros Hs Hj. destruct (relabelling_onto Hs Hj) as (i & Hi & E). unfold new_name.
  assert (In i (filter (fun i => Nat.eqb (s i) j) (seq 0 K))) as Hin by (apply filter_In; split; [apply in_seq; lia|now apply Nat.eqb_eq]).
  destruct (filter _ _) as [|a l] eqn:EF; [destruct Hin|]. cbn. assert (Ha : In a (filter (fun i => Nat.eqb (s i) j) (seq 0 K))) by (rewrite EF; now left).
  apply filter_In in Ha. destruct Ha as [Ha Hb]. apply in_seq in Ha. apply Nat.eqb_eq in Hb. split; [lia|exact Hb].
Qed.
Definition rename_rec (K : nat) (s : nat -> nat) (d : ctdata) : ctdata :=
  {| cd_N := cd_N d; cd_S := cd_S d; cd_C := fun n => new_name K s (cd_C d n); cd_T := cd_T d; cd_Z := cd_Z d;
     cd_bkgd := fun k => cd_bkgd d (s k); cd_weight := fun i j => cd_weight d (s i) (s j); cd_imp := fun a i j => cd_imp d a (s i) (s j) |}.
Definition rename_netobj (s : nat -> nat) (o : netobj) : netobj :=
  match o with
  | NetSbm f b => NetSbm f {| sb_K := sb_K b; sb_C := sb_C b; sb_pi := sb_pi b; sb_tau0 := sb_tau0 b; sb_tau1 := sb_tau1 b; sb_kappa := sb_kappa b;
      sb_alpha := sb_alpha b; sb_beta := sb_beta b; sb_allow := sb_allow b; sb_m := sb_m b; sb_c := fun k => sb_c b (s k); sb_p := sb_p b; sb_v := sb_v b; sb_fixed := sb_fixed b |}
  | NetEr e => NetEr e
  end.
Definition rename_ct (s : nat -> nat) (m : ctmodel) : ctmodel :=
  {| cm_K := cm_K m; cm_dtmax := cm_dtmax m; cm_lam := fun k => cm_lam m (s k); cm_A := fun i j => cm_A m (s i) (s j); cm_W := fun i j => cm_W m (s i) (s j);
     cm_mu := fun i j => cm_mu m (s i) (s j); cm_tau := fun i j => cm_tau m (s i) (s j); cm_net := rename_netobj s (cm_net m);
     cm_data := map (rename_rec (cm_K m) s) (cm_data m); cm_alpha := cm_alpha m; cm_beta := cm_beta m; cm_mu0 := cm_mu0 m; cm_lmbda0 := cm_lmbda0 m;
     cm_alpha0 := cm_alpha0 m; cm_beta0 := cm_beta0 m; cm_par := cm_par m |}.
Lemma rename_rec_same K s d : relabelling K s -> (forall n, (n < cd_N d)%nat -> (cd_C d n < K)%nat) -> same_rec K s d (rename_rec K s d).
Proof.
  intros Hs H. constructor; cbn; auto; try (intros n Hn; apply new_name_ok; auto). all: intros; intros ? ?; try intros ? ?; reflexivity.
Qed.
Theorem C125_relabelled_exists s m : relabelling (cm_K m) s ->
  (forall d n, In d (cm_data m) -> (n < cd_N d)%nat -> (cd_C d n < cm_K m)%nat) -> exists m', same_ct s m m'.
Proof.
  intros Hs H. exists (rename_ct s m). constructor; cbn; auto; try (intros i j Hi Hj; reflexivity); try (intros k Hk; reflexivity).
  - destruct (cm_net m) as [f b|e]; cbn; [|reflexivity]. split; [reflexivity|]. constructor; cbn; auto. intros k Hk; reflexivity.
  - induction (cm_data m) as [|d l IH]; cbn; constructor; [apply rename_rec_same; auto; intros; apply (H d); auto; now left|apply IH; intros; apply (H d0); auto; now right].
Qed.

(** Two processes swapped: event 1 of process 1 caused by event 0 of process 0 becomes an event of process 0 caused by process 1. *)
Definition ct2 : ctmodel :=
  {| cm_K := 2; cm_dtmax := 2; cm_lam := fun k => INR k + 1; cm_A := fun i j => Nat.ltb i j; cm_W := fun _ _ => 1; cm_mu := fun _ _ => 0; cm_tau := fun _ _ => 1;
     cm_net := NetEr {| e_K := 2; e_p := 1 / 2; e_kappa := 1; e_alpha := None; e_beta := None; e_v := 1; e_allow := false; e_mf := None |};
     cm_data := []; cm_alpha := 1; cm_beta := 1; cm_mu0 := 0; cm_lmbda0 := 1; cm_alpha0 := 1; cm_beta0 := 1; cm_par := false |}.
Definition rec2 : ctdata :=
  {| cd_N := 2; cd_S := fun n => INR n; cd_C := fun n => n; cd_T := 3; cd_Z := fun _ => (-1)%Z; cd_bkgd := fun _ => 1; cd_weight := fun _ _ => 0; cd_imp := fun _ _ _ => 0 |}.
Example C125_nonvacuous : exists m' d',
  relabelling (cm_K ct2) swap01 /\ same_ct swap01 ct2 m' /\ same_rec (cm_K ct2) swap01 rec2 d' /\
  cm_A ct2 0%nat 1%nat = true /\ cm_A m' 0%nat 1%nat = false /\ cm_A m' 1%nat 0%nat = true /\ cd_C rec2 1%nat = 1%nat /\ cd_C d' 1%nat = 0%nat /\
  ct_model_rate [1%nat; 0%nat] m' d' 1%nat = 2 + ln_impulse 1 0 1 2 /\ ct_model_rate [0%nat; 1%nat] ct2 rec2 1%nat = 2 + ln_impulse 1 0 1 2 /\ 0 < ln_impulse 1 0 1 2.
Proof.
  assert (Hm : same_ct swap01 ct2 (rename_ct swap01 ct2)).
  { constructor; cbn; auto; try (intros i j Hi Hj; reflexivity); try (intros k Hk; reflexivity). }
  assert (Hd : same_rec 2 swap01 rec2 (rename_rec 2 swap01 rec2)) by (apply rename_rec_same; [apply swap01_ok|intros n Hn; exact Hn]).
  assert (R2 : ct_model_rate [0%nat; 1%nat] ct2 rec2 1%nat = 2 + ln_impulse 1 0 1 2).
  { unfold ct_model_rate, ct_rate_at_events. cbn [run_tasks]. unfold upd. cbn [Nat.eqb]. unfold ct_rate_one, ct_w, ct_W_effective. cbn.
    destruct (Rltb (1 - 0) eps) eqn:E1; [apply Rltb_true in E1; unfold eps in E1; lra|]. destruct (Rleb (2 - eps) (1 - 0)) eqn:E2; [apply Rleb_true in E2; unfold eps in E2; lra|].
    destruct (Rltb 0 (1 * 1)) eqn:E3; [|apply Rltb_false in E3; lra]. cbn. replace (1 - 0) with 1 by ring. ring. }
  exists (rename_ct swap01 ct2), (rename_rec 2 swap01 rec2). split; [exact swap01_ok|]. split; [exact Hm|]. split; [exact Hd|].
  repeat (split; [reflexivity|]). split; [|split; [exact R2|]].
  - rewrite <- R2. apply (@rc_rate swap01 ct2 _ rec2); auto. apply perm_swap.
  - unfold ln_impulse. destruct (Rltb 1 eps) eqn:E1; [apply Rltb_true in E1; unfold eps in E1; lra|]. destruct (Rltb (2 - 1) eps) eqn:E2; [apply Rltb_true in E2; unfold eps in E2; lra|].
    rewrite sqrt_1. apply Rdiv_lt_0_compat; [apply exp_pos|]. unfold SQRT_2PI. lra.
Qed.
