(** * Props_Continuous3: C63 (compute_rate) and C65 (impulse-parameter update). *)
From Coq Require Import Permutation FunctionalExtensionality.
From Verif Require Import Prelude ExtReal Arrays Spec_Gibbs Spec_Continuous M_Basis M_Parents M_Discrete M_Gibbs M_Dist M_Network M_Sweep
  L_Gibbs Props_Network M_Continuous L_Continuous Props_Continuous Props_Continuous2.
Set Implicit Arguments.
Open Scope R_scope.

(* ================= C63 ================= *)
(** The intensity of process k at time t: background plus weighted responses to all events less than dt_max earlier. *)
Definition active (D t : R) (s : vec) (n : nat) : bool := (Rltb 0 (t - s n) && Rltb (t - s n) D)%bool.
Definition rate_at (m : ctmodel) (N : nat) (s : vec) (c : nat -> nat) (t : R) (k : nat) : R :=
  cm_lam m k + Rsum N (fun n => if active (cm_dtmax m) t s n
     then conn m (c n) k * delay_pdf (cm_dtmax m) (cm_mu m (c n) k) (cm_tau m (c n) k) (t - s n) else 0).

(** What the code returns: the background rate plus the UNWEIGHTED response to the LAST event in the window only. *)
Theorem C63_actual_value :
  forall m N s c t k, (forall a, 0 < cm_tau m a k) ->
    ((forall n, (n < N)%nat -> active (cm_dtmax m) t s n = false) -> ct_compute_rate m N s c t k = Fin (cm_lam m k)) /\
    (forall n, (n < N)%nat -> active (cm_dtmax m) t s n = true ->
       (forall n', (n < n')%nat -> (n' < N)%nat -> active (cm_dtmax m) t s n' = false) ->
       ct_compute_rate m N s c t k = Fin (cm_lam m k + delay_pdf (cm_dtmax m) (cm_mu m (c n) k) (cm_tau m (c n) k) (t - s n))).
Proof.
  intros m N s c t k Ht. unfold ct_compute_rate. cbv zeta. rewrite Rplus_0_l.
  set (step := fun cur n => if (Rltb 0 (t - s n) && Rltb (t - s n) (cm_dtmax m))%bool then
     eadd (Fin (cm_lam m k)) (py_impulse (cm_dtmax m) (t - s n) (cm_mu m (c n) k) (cm_tau m (c n) k)) else cur).
  assert (Hskip : forall l cur, (forall n, In n l -> active (cm_dtmax m) t s n = false) -> fold_left step l cur = cur).
  { induction l as [|a l IH]; intros cur H; [reflexivity|]. cbn [fold_left]. unfold step at 2.
    assert (Ha : active (cm_dtmax m) t s a = false) by (apply H; now left). unfold active in Ha. rewrite Ha.
    apply IH. intros; apply H; now right. }
  split.
  - intros H. apply Hskip. intros n Hn. apply in_seq in Hn. apply H. lia.
  - intros n Hn Ha Hl. replace N with (S n + (N - S n))%nat by lia. rewrite seq_app, fold_left_app, seq_S, fold_left_app.
    cbn [fold_left Nat.add]. rewrite Hskip.
    2:{ intros n' Hin. apply in_seq in Hin. apply Hl; lia. }
    unfold step at 1. unfold active in Ha. rewrite Ha. apply andb_prop in Ha as [A1 A2]. apply Rltb_true in A1. apply Rltb_true in A2.
    rewrite C61_impulse_is_density by (try lra; apply Ht). apply eadd_fin.
Qed.

(** It is the intensity where at most one event is in the window and that connection has weight 1. *)
Theorem C63_compute_rate_partial :
  forall m N s c t k, (forall a, 0 < cm_tau m a k) ->
    (forall n n', (n < N)%nat -> (n' < N)%nat -> active (cm_dtmax m) t s n = true -> active (cm_dtmax m) t s n' = true -> n = n') ->
    (forall n, (n < N)%nat -> active (cm_dtmax m) t s n = true -> conn m (c n) k = 1) ->
    ct_compute_rate m N s c t k = Fin (rate_at m N s c t k).
Proof.
  intros m N s c t k Ht Hu H1. destruct (C63_actual_value m N s c t k Ht) as [A B].
  destruct (forallb (fun n => negb (active (cm_dtmax m) t s n)) (seq 0 N)) eqn:E.
  - assert (HN : forall n, (n < N)%nat -> active (cm_dtmax m) t s n = false).
    { intros n Hn. rewrite forallb_forall in E. apply negb_true_iff. apply E, in_seq. lia. }
    rewrite A by exact HN. unfold rate_at. rewrite Rsum_0; [f_equal; lra|]. intros n Hn. now rewrite HN.
  - apply not_true_iff_false in E. 
    assert (HE : exists n, (n < N)%nat /\ active (cm_dtmax m) t s n = true).
    { destruct (existsb (fun n => active (cm_dtmax m) t s n) (seq 0 N)) eqn:X.
      - apply existsb_exists in X as (n & Hin & Hn). apply in_seq in Hin. exists n. split; [lia|exact Hn].
      - exfalso. apply E. apply forallb_forall. intros n Hin. apply negb_true_iff. destruct (active _ t s n) eqn:Y; [|reflexivity].
        rewrite <- X. symmetry. apply existsb_exists. exists n. auto. }
    destruct HE as (n & Hn & Hact). rewrite (B n Hn Hact).
    2:{ intros n' L L2. destruct (active _ t s n') eqn:Y; [|reflexivity]. specialize (Hu n n' Hn L2 Hact Y). lia. }
    f_equal. unfold rate_at. f_equal.
    rewrite (@Rsum_ext N _ (fun i => delay_pdf (cm_dtmax m) (cm_mu m (c n) k) (cm_tau m (c n) k) (t - s n) * (if Nat.eqb n i then 1 else 0))).
    + rewrite Rsum_scal, Rsum_indicator by exact Hn. lra.
    + intros i Hi. destruct (Nat.eqb_spec n i) as [<-|Hne].
      * rewrite Hact, H1 by auto. ring.
      * destruct (active _ t s i) eqn:Y; [exfalso; apply Hne; exact (Hu n i Hn Hi Hact Y)|ring].
Qed.

Definition ex_net_ct : netobj := NetEr {| e_K := 1; e_p := 1 / 2; e_v := 1; e_kappa := 1; e_alpha := None; e_beta := None; e_allow := true; e_mf := None |}.
Definition ex_ct (w : R) : ctmodel :=
  {| cm_K := 1; cm_dtmax := 2; cm_lam := fun _ => 1; cm_A := fun _ _ => true; cm_W := fun _ _ => w; cm_mu := fun _ _ => 0;
     cm_tau := fun _ _ => 1; cm_net := ex_net_ct; cm_data := []; cm_alpha := 1; cm_beta := 1; cm_mu0 := 0; cm_lmbda0 := 1;
     cm_alpha0 := 1; cm_beta0 := 1; cm_par := true |}.

Lemma act_ex t s n D : s n < t -> t - s n < D -> active D t s n = true.
Proof. intros. unfold active. apply andb_true_intro. split; apply Rltb_true; lra. Qed.

(** Two defects: weights are ignored (one event, weight 1/2), and of two events in the window only one counts (weight 1). *)
Theorem C63_compute_rate_refuted :
  (exists N s c t, valid_events 1 N s c 3 /\ params_ok (ex_ct (1 / 2)) /\ ct_compute_rate (ex_ct (1 / 2)) N s c t 0 <> Fin (rate_at (ex_ct (1 / 2)) N s c t 0)) /\
  (exists N s c t, valid_events 1 N s c 3 /\ params_ok (ex_ct 1) /\ ct_compute_rate (ex_ct 1) N s c t 0 <> Fin (rate_at (ex_ct 1) N s c t 0)).
Proof.
  assert (P : forall w, 0 <= w -> params_ok (ex_ct w)).
  { intros w Hw. repeat split; intros; cbn; lra. }
  assert (Q := @delay_pdf_pos 2 0 1 1 ltac:(lra) ltac:(lra) ltac:(lra)).
  split.
  - exists 1%nat, (fun _ => 0), (fun _ => 0%nat), 1. split.
    { split; [intros; lra|]. split; [intros i j _ _; lra|intros; lia]. }
    split; [apply P; lra|].
    destruct (C63_actual_value (ex_ct (1/2)) 1 (fun _ => 0) (fun _ => 0%nat) 1 0) as [_ B]; [intros; cbn; lra|].
    rewrite (B 0%nat); [|lia|apply act_ex; cbn; lra|intros; lia].
    unfold rate_at. cbn [Rsum]. rewrite act_ex by (cbn; lra). unfold conn. cbn [ex_ct cm_dtmax cm_lam cm_A cm_W cm_mu cm_tau].
    intros H. injection H as H. replace (1 - 0) with 1 in H by lra. lra.
  - exists 2%nat, (fun _ => 0), (fun _ => 0%nat), 1. split.
    { split; [intros; lra|]. split; [intros i j _ _; lra|intros; lia]. }
    split; [apply P; lra|].
    destruct (C63_actual_value (ex_ct 1) 2 (fun _ => 0) (fun _ => 0%nat) 1 0) as [_ B]; [intros; cbn; lra|].
    rewrite (B 1%nat); [|lia|apply act_ex; cbn; lra|intros; lia].
    unfold rate_at. cbn [Rsum]. rewrite !act_ex by (cbn; lra). unfold conn. cbn [ex_ct cm_dtmax cm_lam cm_A cm_W cm_mu cm_tau].
    intros H. injection H as H. replace (1 - 0) with 1 in H by lra. lra.
Qed.

(* ================= C65 ================= *)
Definition mean (xs : list R) : R := lsum xs / INR (length xs).
(** Centred sum of squares. *)
Definition css (xs : list R) : R := lsum (map (fun x => (x - mean xs) ^ 2) xs).

Lemma sq_about xs c : lsum (map (fun x => (x - c) ^ 2) xs) = lsum (map (fun x => x ^ 2) xs) - 2 * c * lsum xs + INR (length xs) * c ^ 2.
Proof.
  induction xs as [|x xs IH]; [cbn; lra|]. cbn [map lsum length]. rewrite S_INR, IH. ring.
Qed.
Lemma css_alt xs c : lsum (map (fun x => (x - c) ^ 2) xs) = css xs + INR (length xs) * (mean xs - c) ^ 2.
Proof.
  destruct xs as [|x xs]; [cbn; lra|]. unfold css. rewrite !sq_about. unfold mean.
  assert (INR (length (x :: xs)) <> 0) by (apply not_0_INR; discriminate). field. auto.
Qed.
Lemma css_nonneg xs : 0 <= css xs.
Proof.
  unfold css. generalize (mean xs) as c. intros c. induction xs as [|x xs IH]; cbn [map lsum]; [lra|]. pose proof (pow2_ge_0 (x - c)). lra.
Qed.

(** The conjugate update for observations xs. *)
Definition post_params (m l a b : R) (xs : list R) : R * R * R * R :=
  let n := INR (length xs) in
  ((l * m + lsum xs) / (l + n), l + n, a + n / 2,
   b + css xs / 2 + l * n * (mean xs - m) ^ 2 / (2 * (l + n))).
Definition ng (lgam : R -> R) (q : R * R * R * R) (p : R * R) : R :=
  let '(m, l, a, b) := q in normal_gamma_lpdf lgam m l a b (fst p) (snd p).

Lemma ln_sqrt x : 0 < x -> ln (sqrt x) = ln x / 2.
Proof.
  intros H. assert (E : ln (sqrt x * sqrt x) = ln x) by (rewrite sqrt_sqrt by lra; reflexivity).
  rewrite ln_mult in E by (apply sqrt_lt_R0; lra). lra.
Qed.
Lemma normal_loglik_eq xs mu tau : 0 < tau ->
  normal_loglik xs mu tau = INR (length xs) * (ln tau / 2 - ln (2 * PI) / 2) - tau / 2 * lsum (map (fun x => (x - mu) ^ 2) xs).
Proof.
  intros Ht. pose proof PI_RGT_0 as HPI. unfold normal_loglik. induction xs as [|x xs IH]; [cbn; lra|].
  cbn [map lsum length]. rewrite S_INR, IH. unfold normal_pdf.
  rewrite ln_mult; [|apply sqrt_lt_R0, Rdiv_lt_0_compat; lra|apply exp_pos]. rewrite ln_exp, ln_sqrt by (apply Rdiv_lt_0_compat; lra).
  rewrite ln_div by lra. field.
Qed.

(** Conjugacy: prior times likelihood is the normal-gamma density with the updated parameters. *)
Lemma conjugate lgam m l a b xs : 0 < l ->
  same_law (fun p => 0 < snd p) (ng lgam (post_params m l a b xs))
    (fun p => normal_gamma_lpdf lgam m l a b (fst p) (snd p) + normal_loglik xs (fst p) (snd p)).
Proof.
  intros Hl. pose proof PI_RGT_0 as HPI. set (n := INR (length xs)). assert (Hn : 0 <= n) by apply pos_INR.
  unfold same_law, ng, post_params. fold n. unfold normal_gamma_lpdf.
  set (b' := b + css xs / 2 + l * n * (mean xs - m) ^ 2 / (2 * (l + n))). set (a' := a + n / 2).
  exists (a' * ln b' - lgam a' - (a * ln b - lgam a) + (ln (l + n) - ln l) / 2 + n * ln (2 * PI) / 2).
  intros [mu tau] Ht. cbn [fst snd] in *.
  rewrite normal_loglik_eq by exact Ht. fold n. rewrite css_alt. fold n.
  rewrite !ln_sqrt by (apply Rdiv_lt_0_compat; nra). rewrite !ln_div by (try lra; nra). rewrite !ln_mult by lra.
  assert (El : lsum xs = n * mean xs).
  { destruct xs as [|x xs]; [unfold n, mean; cbn; lra|]. unfold mean. fold n. field. unfold n. apply not_0_INR. discriminate. }
  rewrite El. unfold b', a'. set (xb := mean xs). set (s2 := css xs). set (La := ln tau). set (Ll := ln l). set (L2 := ln 2 + ln PI).
  replace (ln (2 * PI)) with L2 by (unfold L2; rewrite ln_mult by lra; reflexivity).
  set (Lln := ln (l + n)).
  match goal with |- context [ln ?B] => set (Lb := ln B) end.
  field_simplify_eq; [|lra]. ring.
Qed.

(** Transformed delays of the events of b attributed to events of a: in one data set, and over all of them. *)
Definition pair_delays (m : ctmodel) (a b : nat) (d : ctdata) : list R := map (xdelay m d) (filter (pair_events d a b) (seq 0 (cd_N d))).
Definition all_delays (m : ctmodel) (a b : nat) (data : list ctdata) : list R := concat (map (pair_delays m a b) data).

Lemma lsum_filter (P : nat -> bool) (x : vec) l : lsum (map x (filter P l)) = lsum (map (fun n => if P n then x n else 0) l).
Proof. induction l as [|n l IH]; [reflexivity|]. cbn [filter map lsum]. destruct (P n); cbn [map lsum]; rewrite IH; lra. Qed.
Lemma total_list N P x : total N P x = lsum (map x (filter P (seq 0 N))).
Proof. unfold total. now rewrite lsum_filter, lsum_map_seq. Qed.
Lemma count_list N P : count N P = INR (length (filter P (seq 0 N))).
Proof.
  unfold count. rewrite <- (lsum_map_seq (fun n => if P n then 1 else 0)), <- (lsum_filter P (fun _ => 1)), lsum_map_const. lra.
Qed.
Lemma stats_delays m d a b : stats_ok m d ->
  cd_imp d 0%nat a b = INR (length (pair_delays m a b d)) /\ cd_imp d 1%nat a b = lsum (pair_delays m a b d) /\
  cd_imp d 2%nat a b = css (pair_delays m a b d).
Proof.
  intros H. unfold pair_delays. split; [|split].
  - rewrite (st_n H), count_list. now rewrite map_length.
  - rewrite (st_sum H), total_list. reflexivity.
  - rewrite (st_ss H). rewrite count_list, !total_list. unfold css, mean. rewrite map_length, map_map. reflexivity.
Qed.
Lemma all_delays_lsum m a b data : lsum (all_delays m a b data) = lsum (map (fun d => lsum (pair_delays m a b d)) data).
Proof. unfold all_delays. induction data as [|d data IH]; [reflexivity|]. cbn [map concat lsum]. now rewrite lsum_app, IH. Qed.
Lemma all_delays_length m a b data : INR (length (all_delays m a b data)) = lsum (map (fun d => INR (length (pair_delays m a b d))) data).
Proof. unfold all_delays. induction data as [|d data IH]; [reflexivity|]. cbn [map concat lsum]. now rewrite app_length, plus_INR, IH. Qed.
Lemma all_delays_css m a b data c :
  lsum (map (fun x => (x - c) ^ 2) (all_delays m a b data)) =
  lsum (map (fun d => css (pair_delays m a b d) + INR (length (pair_delays m a b d)) * (mean (pair_delays m a b d) - c) ^ 2) data).
Proof.
  unfold all_delays. induction data as [|d data IH]; [reflexivity|]. cbn [map concat lsum]. now rewrite map_app, lsum_app, IH, css_alt.
Qed.

(** Spread of the data sets' means about the overall mean. *)
Definition between (m : ctmodel) (a b : nat) (data : list ctdata) : R :=
  lsum (map (fun d => INR (length (pair_delays m a b d)) * (mean (pair_delays m a b d) - mean (all_delays m a b data)) ^ 2) data).
Lemma between_nonneg m a b data : 0 <= between m a b data.
Proof.
  unfold between. generalize (mean (all_delays m a b data)) as c. intros c. induction data as [|d data IH]; cbn [map lsum]; [lra|].
  pose proof (pow2_ge_0 (mean (pair_delays m a b d) - c)). pose proof (pos_INR (length (pair_delays m a b d))). nra.
Qed.
Lemma between_0 m a b data : between m a b data = 0 <->
  (forall d, In d data -> pair_delays m a b d <> [] -> mean (pair_delays m a b d) = mean (all_delays m a b data)).
Proof.
  unfold between. generalize (mean (all_delays m a b data)) as c. intros c.
  assert (NN : forall l, 0 <= lsum (map (fun d => INR (length (pair_delays m a b d)) * (mean (pair_delays m a b d) - c) ^ 2) l)).
  { induction l as [|d l IH]; cbn [map lsum]; [lra|].
    pose proof (pow2_ge_0 (mean (pair_delays m a b d) - c)). pose proof (pos_INR (length (pair_delays m a b d))). nra. }
  induction data as [|d data IH]; cbn [map lsum]; [split; [intros _ d []|reflexivity]|].
  pose proof (NN data) as N1. pose proof (pow2_ge_0 (mean (pair_delays m a b d) - c)) as N2. pose proof (pos_INR (length (pair_delays m a b d))) as N3.
  split.
  - intros E. assert (E1 : INR (length (pair_delays m a b d)) * (mean (pair_delays m a b d) - c) ^ 2 = 0) by nra.
    assert (E2 : lsum (map (fun d => INR (length (pair_delays m a b d)) * (mean (pair_delays m a b d) - c) ^ 2) data) = 0) by nra.
    intros d' [<-|Hin] Hne; [|apply IH; auto].
    assert (INR (length (pair_delays m a b d)) <> 0) by (apply not_0_INR; intros Z; apply length_zero_iff_nil in Z; contradiction).
    apply Rmult_integral in E1 as [E1|E1]; [contradiction|].
    destruct (Req_dec (mean (pair_delays m a b d) - c) 0) as [Z|Z]; [lra|]. exfalso. apply (pow_nonzero _ 2) in Z. contradiction.
  - intros H. rewrite (proj2 IH) by (intros; apply H; auto; now right).
    destruct (pair_delays m a b d) as [|x xs] eqn:E; [cbn; lra|].
    rewrite <- E, (H d (or_introl eq_refl)) by (rewrite E; discriminate). ring.
Qed.

(** What is requested from the normal-gamma sampler: the posterior parameters given the pooled delays, except that the rate
    parameter lacks half the spread between data sets. *)
Theorem C65_actual_request :
  forall m data a b, (forall d, In d data -> stats_ok m d) -> 0 < cm_lmbda0 m ->
    ct_imp_request m data a b =
    let '(mu, l, al, be) := post_params (cm_mu0 m) (cm_lmbda0 m) (cm_alpha0 m) (cm_beta0 m) (all_delays m a b data) in
    (mu, l, al, be - between m a b data / 2).
Proof.
  intros m data a b H Hl. unfold ct_imp_request, nig_stats, post_params. rewrite !pool_lsum, !Rplus_0_l.
  rewrite (@lsum_map_ext _ (fun d => cd_imp d 0%nat a b) (fun d => INR (length (pair_delays m a b d))) data) by (intros d Hd; exact (proj1 (stats_delays a b (H d Hd)))).
  rewrite (@lsum_map_ext _ (fun d => cd_imp d 1%nat a b) (fun d => lsum (pair_delays m a b d)) data) by (intros d Hd; exact (proj1 (proj2 (stats_delays a b (H d Hd))))).
  rewrite (@lsum_map_ext _ (fun d => cd_imp d 2%nat a b) (fun d => css (pair_delays m a b d)) data) by (intros d Hd; exact (proj2 (proj2 (stats_delays a b (H d Hd))))).
  rewrite <- all_delays_lsum, <- all_delays_length.
  assert (Ec : css (all_delays m a b data) = lsum (map (fun d => css (pair_delays m a b d)) data) + between m a b data).
  { unfold css at 1. rewrite all_delays_css, lsum_map_plus. reflexivity. }
  rewrite Ec. unfold nig_post. set (xs := all_delays m a b data). set (n := INR (length xs)).
  assert (Hn : 0 <= n) by apply pos_INR.
  replace (if Reqb n 0 then 0 else lsum xs / n) with (mean xs).
  2:{ unfold mean. fold n. destruct (Reqb n 0) eqn:E; [|reflexivity]. apply Reqb_true in E. unfold n in E.
      destruct xs as [|x xs']; [cbn; lra|]. exfalso. revert E. apply not_0_INR. discriminate. }
  assert (El : n * mean xs = lsum xs).
  { unfold mean. fold n. destruct xs as [|x xs']; [cbn; lra|]. field. unfold n. apply not_0_INR. discriminate. }
  rewrite El. f_equal. field. lra.
Qed.

(** The draw is from the posterior given all delays exactly when the data sets' mean delays for the pair agree. *)
Theorem C65_posterior_iff_means_agree :
  forall lgam m data a b, (forall d, In d data -> stats_ok m d) -> 0 < cm_lmbda0 m ->
    (same_law (fun p => 0 < snd p) (ng lgam (ct_imp_request m data a b))
       (fun p => normal_gamma_lpdf lgam (cm_mu0 m) (cm_lmbda0 m) (cm_alpha0 m) (cm_beta0 m) (fst p) (snd p) +
                 normal_loglik (all_delays m a b data) (fst p) (snd p)) <->
     (forall d, In d data -> pair_delays m a b d <> [] -> mean (pair_delays m a b d) = mean (all_delays m a b data))).
Proof.
  intros lgam m data a b H Hl. rewrite <- between_0.
  pose proof (@conjugate lgam (cm_mu0 m) (cm_lmbda0 m) (cm_alpha0 m) (cm_beta0 m) (all_delays m a b data) Hl) as (c0 & Hc).
  pose proof (@C65_actual_request m data a b H Hl) as E. unfold post_params in E, Hc. cbv zeta beta in E.
  rewrite E. unfold ng in *. cbv beta iota in *. unfold normal_gamma_lpdf in *. split.
  - intros (c & Hs). 
    pose proof (Hs (0, 1) Rlt_0_1) as S1. pose proof (Hc (0, 1) Rlt_0_1) as C1.
    pose proof (Hs (0, 2) Rlt_0_2) as S2. pose proof (Hc (0, 2) Rlt_0_2) as C2. cbn [fst snd] in *.
    match goal with H1 : ?A1 = ?B1 + c, H2 : ?A2 = ?B1 + c0, H3 : ?A3 = ?B2 + c, H4 : ?A4 = ?B2 + c0 |- _ => 
       assert (Q : (A1 - A2) - (A3 - A4) = 0) by lra end.
    clear S1 S2 C1 C2. ring_simplify in Q. lra.
  - intros E0. exists c0. intros p Hp. specialize (Hc p Hp). rewrite E0.
    match type of Hc with context [ln ?B] => idtac end.
    rewrite <- Hc. replace (0 / 2) with 0 by lra. rewrite !Rminus_0_r. reflexivity.
Qed.

Corollary C65_single_dataset_partial :
  forall lgam m data1 d data2 a b, (forall d', In d' (data1 ++ d :: data2) -> stats_ok m d') -> 0 < cm_lmbda0 m ->
    (forall d', In d' (data1 ++ data2) -> pair_delays m a b d' = []) ->
    same_law (fun p => 0 < snd p) (ng lgam (ct_imp_request m (data1 ++ d :: data2) a b))
      (fun p => normal_gamma_lpdf lgam (cm_mu0 m) (cm_lmbda0 m) (cm_alpha0 m) (cm_beta0 m) (fst p) (snd p) +
                normal_loglik (pair_delays m a b d) (fst p) (snd p)).
Proof.
  intros lgam m d1 d d2 a b H Hl He.
  assert (E : all_delays m a b (d1 ++ d :: d2) = pair_delays m a b d).
  { unfold all_delays. assert (Z : forall l, (forall x, In x l -> pair_delays m a b x = []) -> concat (map (pair_delays m a b) l) = []).
    { induction l as [|x l IH]; intros Hx; [reflexivity|]. cbn [map concat]. rewrite Hx by now left. apply IH. intros; apply Hx; now right. }
    rewrite map_app, concat_app. cbn [map concat]. rewrite !Z by (intros; apply He, in_or_app; auto). cbn. apply app_nil_r. }
  rewrite <- E. apply C65_posterior_iff_means_agree; auto.
  intros d' Hin Hne. rewrite E. apply in_app_or in Hin as [Hin|[<-|Hin]]; [|reflexivity|];
    (exfalso; apply Hne, He, in_or_app; auto).
Qed.

(** Two one-process recordings: events at 0 and s. *)
Definition ex_rec (s : R) : ctdata :=
  {| cd_N := 2; cd_S := fun n => if Nat.eqb n 0 then 0 else s; cd_C := fun _ => 0%nat; cd_T := 3; cd_Z := fun _ => (-1)%Z;
     cd_bkgd := fun _ => 2; cd_weight := fun _ _ => 0; cd_imp := fun _ _ _ => 0 |}.
Lemma ex_ct_ok w : 0 <= w -> params_ok (ex_ct w).
Proof. intros Hw. repeat split; intros; cbn; lra. Qed.
Lemma ex_rec_ok s : 0 <= s < 3 -> data_ok 1 (ex_rec s).
Proof.
  intros Hs. split; [|split].
  - intros n Hn. cbn. destruct (Nat.eqb n 0); lra.
  - intros i j Hij Hj. cbn in *. destruct i as [|i], j as [|j]; cbn; try lra; lia.
  - intros; cbn; lia.
Qed.
(** A draw of the parents that attributes the second event to the first. *)
Lemma ex_attributed s : 1 <= s <= 3 / 2 ->
  exists u d, (forall n, (n < 2)%nat -> unit_interval (u n)) /\ ct_parents_resample (ex_ct 1) [0%nat; 1%nat] u (ex_rec s) = Ok d /\
    stats_ok (ex_ct 1) d /\ pair_delays (ex_ct 1) 0 0 d = [to_line 2 s].
Proof.
  intros Hs. pose proof (@ex_ct_ok 1 ltac:(lra)) as Hp. pose proof (@ex_rec_ok s ltac:(lra)) as Hd.
  destruct (@C59_probabilities (ex_ct 1) (ex_rec s) 1 Hp Hd ltac:(cbn; lia)) as (Hpn & Hp1 & _).
  destruct (@C59_probabilities (ex_ct 1) (ex_rec s) 0 Hp Hd ltac:(cbn; lia)) as (_ & Hp0 & _).
  assert (Hpos : 0 < pparent (ex_ct 1) (ex_rec s) 1%nat 1%nat).
  { unfold pparent, parent_prob. apply Rdiv_lt_0_compat.
    - unfold parent_weight. cbn [ex_rec cd_S cd_C Nat.eqb ex_ct cm_dtmax].
      destruct (Rleb eps (s - 0)) eqn:E1; [|apply Rleb_false in E1; unfold eps in E1; lra].
      destruct (Rleb (s - 0) (2 - eps)) eqn:E2; [|apply Rleb_false in E2; unfold eps in E2; lra]. cbn [andb].
      unfold impulse_of, conn. cbn [cm_A cm_W]. rewrite Rmult_1_l. apply Rmult_lt_0_compat; [apply kappa_c_pos|].
      apply delay_pdf_pos; cbn; lra.
    - rewrite Rsum_S_l. apply Rplus_lt_le_0_compat; [cbn; lra|]. apply Rsum_nonneg. intros i Hi.
      unfold parent_weight. destruct (_ && _)%bool eqn:E; [|lra]. apply andb_prop in E as [A B]. apply Rleb_true in A. apply Rleb_true in B.
      unfold impulse_of, conn. cbn [ex_ct cm_A cm_W]. rewrite Rmult_1_l. apply Rlt_le, Rmult_lt_0_compat; [apply kappa_c_pos|].
      pose proof eps_pos. apply delay_pdf_pos; cbn [ex_ct cm_dtmax cm_tau cm_mu] in *; lra. }
  set (p := pparent (ex_ct 1) (ex_rec s) 1) in *. cbn [Rsum] in Hp1, Hp0.
  pose (u := fun n => if Nat.eqb n 0 then 0 else p 0%nat).
  assert (Hu : forall n, (n < cd_N (ex_rec s))%nat -> unit_interval (u n)).
  { intros n Hn. unfold u, unit_interval. destruct (Nat.eqb n 0); [lra|]. specialize (Hpn 0%nat ltac:(lia)). lra. }
  destruct (@C59_parent_update (ex_ct 1) [0%nat; 1%nat] u (ex_rec s) Hp Hd (Permutation_refl _) Hu) as (d & E & (EN & ES & EC & ET) & Hst & Hz).
  exists u, d. split; [exact Hu|]. split; [exact E|]. split; [exact Hst|].
  assert (Z0 : cd_Z d 0 = (-1)%Z).
  { destruct (Hz 0%nat ltac:(cbn; lia)) as (_ & Hsel & _). apply (Hsel 0%nat); [lia|]. unfold selects. cbn [Rsum u Nat.eqb]. lra. }
  assert (Z1 : cd_Z d 1 = 0%Z).
  { destruct (Hz 1%nat ltac:(cbn; lia)) as (_ & Hsel & _). apply (Hsel 1%nat); [lia|]. fold p. unfold selects. cbn [Rsum u Nat.eqb]. lra. }
  unfold pair_delays. rewrite EN. cbn [ex_rec cd_N seq filter]. unfold pair_events. rewrite Z0, Z1, EC. cbn.
  unfold xdelay. rewrite Z1, ES. cbn. do 2 f_equal. lra.
Qed.

(** Two data sets whose delays differ: the requested law is not the posterior. *)
Theorem C65_pooled_posterior_refuted :
  forall lgam, exists m u1 u2 r1 r2 d1 d2, params_ok m /\ data_ok (cm_K m) r1 /\ data_ok (cm_K m) r2 /\ 0 < cm_lmbda0 m /\
    ct_parents_resample m [0%nat; 1%nat] u1 r1 = Ok d1 /\ ct_parents_resample m [0%nat; 1%nat] u2 r2 = Ok d2 /\
    ~ same_law (fun p => 0 < snd p) (ng lgam (ct_imp_request m [d1; d2] 0 0))
       (fun p => normal_gamma_lpdf lgam (cm_mu0 m) (cm_lmbda0 m) (cm_alpha0 m) (cm_beta0 m) (fst p) (snd p) +
                 normal_loglik (all_delays m 0 0 [d1; d2]) (fst p) (snd p)).
Proof.
  intros lgam. destruct (@ex_attributed 1 ltac:(lra)) as (u1 & d1 & _ & E1 & S1 & L1).
  destruct (@ex_attributed (4/3) ltac:(lra)) as (u2 & d2 & _ & E2 & S2 & L2).
  exists (ex_ct 1), u1, u2, (ex_rec 1), (ex_rec (4/3)), d1, d2.
  split; [apply ex_ct_ok; lra|]. split; [apply ex_rec_ok; lra|]. split; [apply ex_rec_ok; lra|]. split; [cbn; lra|].
  split; [exact E1|]. split; [exact E2|].
  rewrite C65_posterior_iff_means_agree; [|intros d [<-|[<-|[]]]; assumption|cbn; lra].
  intros H. assert (H1 := H d1 (or_introl eq_refl)). rewrite L1 in H1. specialize (H1 ltac:(discriminate)).
  unfold all_delays in H1. cbn [map concat app] in H1. rewrite L1, L2 in H1. unfold mean, to_line in H1. cbn [lsum length app INR] in H1.
  replace (1 / (2 - 1)) with 1 in H1 by lra. replace (4 / 3 / (2 - 4 / 3)) with 2 in H1 by lra. rewrite ln_1 in H1.
  pose proof ln_lt_2. lra.
Qed.

(** The two draws made for an edge factor the requested normal-gamma law: the precision is drawn by the gamma generator
    (shape a, scale 1/b) and then the mean by the normal generator, whose standard deviation is that of precision
    lambda * tau for the precision just drawn. *)
Theorem C65_draw_factorises :
  forall (g nrm : nat -> nat -> R -> R -> R) m data k1 k2 mN l a b, ct_imp_request m data k1 k2 = (mN, l, a, b) ->
  exists tau sd, ct_imp_resample g nrm m data k1 k2 = (nrm k1 k2 mN sd, tau) /\ tau = g k1 k2 a (1 / b) /\
    forall lgam mu, 0 < tau -> 0 < l -> 0 < b ->
      0 < sd /\
      ng lgam (mN, l, a, b) (mu, tau) = (gamma_lpdf lgam a (/ (1 / b)) tau + ln (normal_pdf mN (/ (sd ^ 2)) mu))%R.
Proof.
  intros g nrm m data k1 k2 mN l a b E. unfold ct_imp_resample. rewrite E. cbn [sample_nig].
  set (tau := g k1 k2 a (1 / b)). exists tau, (sqrt (1 / (l * tau))). split; [reflexivity|]. split; [reflexivity|].
  intros lgam mu Ht Hl Hb. assert (Hlt : 0 < l * tau) by nra.
  assert (Hs : 0 < sqrt (1 / (l * tau))) by (apply sqrt_lt_R0; apply Rdiv_lt_0_compat; lra).
  split; [exact Hs|]. rewrite <- Rsqr_pow2, Rsqr_sqrt by (apply Rlt_le, Rdiv_lt_0_compat; lra).
  replace (/ (1 / (l * tau))) with (l * tau) by (field; split; lra).
  replace (/ (1 / b)) with b by (field; lra).
  unfold ng, normal_gamma_lpdf, gamma_lpdf, normal_pdf. cbn [fst snd].
  rewrite ln_mult, ln_exp; [lra| |apply exp_pos].
  apply sqrt_lt_R0. apply Rdiv_lt_0_compat; [lra|]. pose proof PI_RGT_0. lra.
Qed.

(** Non-vacuity: a single attributed recording meets the hypotheses of the positive result. *)
Example C65_nonvacuous : exists d, stats_ok (ex_ct 1) d /\ pair_delays (ex_ct 1) 0 0 d <> [] /\ 0 < cm_lmbda0 (ex_ct 1).
Proof.
  destruct (@ex_attributed 1 ltac:(lra)) as (u1 & d1 & _ & E1 & S1 & L1). exists d1. split; [exact S1|]. rewrite L1. split; [discriminate|cbn; lra].
Qed.

Print Assumptions C63_actual_value.
Print Assumptions C63_compute_rate_partial.
Print Assumptions C63_compute_rate_refuted.
Print Assumptions C65_actual_request.
Print Assumptions C65_posterior_iff_means_agree.
Print Assumptions C65_single_dataset_partial.
Print Assumptions C65_pooled_posterior_refuted.
Print Assumptions C65_draw_factorises.
