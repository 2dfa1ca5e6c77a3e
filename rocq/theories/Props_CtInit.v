(** * Props_CtInit: initialising a continuous-time model from a standard Hawkes model (C109). *)
From Coq Require Import FunctionalExtensionality Permutation.
From Verif Require Import Prelude ExtReal Arrays Spec_Basis Spec_Discrete Spec_Continuous M_Basis M_Parents M_Discrete M_Gibbs M_MeanField M_Standard
  M_Nonlinear M_Network M_Sweep M_Continuous M_CtInit L_Basis L_Discrete L_Continuous Props_Network Props_Standard Props_Standard2 Props_Nonlinear Props_Nonlinear2
  Props_Continuous Props_Continuous2 Props_Continuous3 Props_InitOwn.
Set Implicit Arguments.
Open Scope R_scope.
Local Arguments eadd : simpl never.
Local Arguments emul : simpl never.

(* ------------------------------------------------------------------ *)
(** ** Specification vocabulary *)

(** A standard model as bounded fitting leaves it: K finite weight rows, all at least 1e-16 (standard_models.py 107-108, 148-154). *)
Definition fitted (p : nproc) (w : mat) : Prop :=
  fin_weights p w /\ (0 < p_B p)%nat /\
  forall k j, (k < p_K p)%nat -> (j < 1 + p_K p * p_B p)%nat -> / 10 ^ 16 <= w k j.
(** The total weight of the connection i -> j, and the response of the standard model at its l-th time bin, in the
    weights of process j: entry 0 is the bias, entries 1 + i B + b belong to the pair. *)
Definition std_weight (p : nproc) (w : mat) (i j : nat) : R := Rsum (p_B p) (fun b => w j (1 + (i * p_B p + b))%nat).
Definition std_response (p : nproc) (w : mat) (i j l : nat) : R :=
  Rsum (p_B p) (fun b => p_bas p l b * (w j (1 + (i * p_B p + b))%nat / std_weight p w i j)).
(** Squared distance between the continuous-time delay density and that response, at the time points of the bins moved
    inside the window by 1e-6. *)
Definition time_point (bdt D : R) (l : nat) : R := Rmin (Rmax (bdt * INR l) (/ 10 ^ 6)) (D - / 10 ^ 6).
Definition misfit (bdt D : R) (p : nproc) (w : mat) (i j : nat) (mu tau : R) : R :=
  Rsum (p_L p) (fun l => (delay_pdf D mu tau (time_point bdt D l) - std_response p w i j l) ^ 2).
Definition misfit_silent (p : nproc) (w : mat) (i j : nat) : R := Rsum (p_L p) (fun l => (0 - std_response p w i j l) ^ 2).
(** scipy.optimize.leastsq (MINPACK lmdif): started where all residuals are numbers it answers with a point where they are
    numbers too and their sum of squares is not larger. *)
Definition sum_sq (n : nat) (f : nat -> er) : R := Rsum n (fun l => fval (f l) ^ 2).
Definition lsq_contract (fit : lsq) : Prop :=
  forall f n x0, (forall l, (l < n)%nat -> efinite (f x0 l) = true) ->
  (forall l, (l < n)%nat -> efinite (f (fit f n x0) l) = true) /\ sum_sq n (f (fit f n x0)) <= sum_sq n (f x0).
(** Number of edges. *)
Definition edges (K : nat) (A : bmat) : nat := length (filter (fun ij => A (fst ij) (snd ij)) (list_prod (seq 0 K) (seq 0 K))).
(** The edge probability of the network, when it is one number. *)
Definition one_sparsity (no : netobj) (q : R) : Prop :=
  match no with NetEr n => e_p n = q | NetSbm _ s => sb_C s = 1%nat /\ sb_p s 0%nat 0%nat = q end.
(** Everything but the rates, the adjacency, the weights and the delay parameters. *)
Definition same_setting (m m' : ctmodel) : Prop :=
  cm_K m' = cm_K m /\ cm_dtmax m' = cm_dtmax m /\ cm_net m' = cm_net m /\ cm_data m' = cm_data m /\ cm_alpha m' = cm_alpha m /\
  cm_beta m' = cm_beta m /\ cm_mu0 m' = cm_mu0 m /\ cm_lmbda0 m' = cm_lmbda0 m /\ cm_alpha0 m' = cm_alpha0 m /\
  cm_beta0 m' = cm_beta0 m /\ cm_par m' = cm_par m.

(* ------------------------------------------------------------------ *)
(** ** Counting above a percentile *)
Lemma filter_perm_len (f : R -> bool) (l l' : list R) : Permutation l l' -> length (filter f l) = length (filter f l').
Proof.
  induction 1 as [|x l l' _ IH|x y l|l l' l'' _ IH1 _ IH2]; cbn [filter]; [reflexivity| | |congruence].
  - destruct (f x); cbn [length]; now rewrite IH.
  - destruct (f x), (f y); reflexivity.
Qed.
Lemma filter_none (f : R -> bool) (l : list R) : (forall x, In x l -> f x = false) -> filter f l = [].
Proof.
  induction l as [|x l IH]; intros H; [reflexivity|]. cbn [filter]. rewrite H by now left. apply IH. intros; apply H; now right.
Qed.
Lemma filter_all (f : R -> bool) (l : list R) : (forall x, In x l -> f x = true) -> filter f l = l.
Proof.
  induction l as [|x l IH]; intros H; [reflexivity|]. cbn [filter]. rewrite H by now left. f_equal. apply IH. intros; apply H; now right.
Qed.
Lemma filter_len (f : R -> bool) (l : list R) : (length (filter f l) <= length l)%nat.
Proof. induction l as [|x l IH]; cbn [filter length]; [lia|]. destruct (f x); cbn [length]; lia. Qed.
Lemma sorted_count (s : list R) (thr : R) (i : nat) : (i < length s)%nat ->
  (forall a b, (a <= b < length s)%nat -> nth a s 0 <= nth b s 0) -> nth i s 0 <= thr ->
  (length (filter (fun x => Rltb thr x) s) <= length s - 1 - i)%nat /\
  (((S i < length s)%nat -> thr < nth (S i) s 0) -> length (filter (fun x => Rltb thr x) s) = (length s - 1 - i)%nat).
Proof.
  intros Hi Hs Ht.
  assert (E0 : length (filter (fun x => Rltb thr x) s) = (length (filter (fun x => Rltb thr x) (firstn (S i) s)) + length (filter (fun x => Rltb thr x) (skipn (S i) s)))%nat)
    by (rewrite <- app_length, <- filter_app, firstn_skipn; reflexivity).
  rewrite E0. clear E0.
  assert (E : filter (fun x => Rltb thr x) (firstn (S i) s) = []).
  { apply filter_none. intros x Hx. apply In_nth with (d := 0) in Hx as (a & Ha & <-). rewrite firstn_length in Ha.
    apply Rltb_false. assert (En : nth a (firstn (S i) s) 0 = nth a s 0).
    { rewrite <- (firstn_skipn (S i) s) at 2. rewrite app_nth1; [reflexivity|]. rewrite firstn_length. lia. }
    rewrite En. apply Rle_trans with (nth i s 0); [|exact Ht]. apply Hs. lia. }
  rewrite E. cbn [length Nat.add]. pose proof (filter_len (fun x => Rltb thr x) (skipn (S i) s)) as Hl. rewrite skipn_length in Hl.
  split; [lia|]. intros Hn. rewrite filter_all.
  - rewrite skipn_length. lia.
  - intros x Hx. apply In_nth with (d := 0) in Hx as (a & Ha & <-). rewrite skipn_length in Ha.
    assert (En : nth a (skipn (S i) s) 0 = nth (S i + a) s 0).
    { rewrite <- (firstn_skipn (S i) s) at 2. rewrite app_nth2 by (rewrite firstn_length; lia). f_equal. rewrite firstn_length. lia. }
    rewrite En. apply Rltb_true. apply Rlt_le_trans with (nth (S i) s 0); [apply Hn; lia|]. apply Hs. lia.
Qed.
Lemma percentile_count (l : list R) (q thr : R) : 0 <= q <= 1 -> percentile l ((1 - q) * 100) = Ok thr ->
  INR (length (filter (fun x => Rltb thr x) l)) < q * INR (length l - 1) + 1 /\
  (NoDup l -> q * INR (length l - 1) <= INR (length (filter (fun x => Rltb thr x) l))).
Proof.
  intros Hq E. unfold percentile in E. rewrite (proj2 (Rltb_false ((1 - q) * 100) 0)), (proj2 (Rltb_false 100 ((1 - q) * 100))) in E by lra. cbn [orb] in E.
  destruct l as [|a l'] eqn:El; [discriminate|]. rewrite <- El in *. assert (Hlen : (0 < length l)%nat) by (rewrite El; cbn; lia). clear El a l'.
  cbv zeta in E. injection E as E.
  replace ((1 - q) * 100 / 100) with (1 - q) in E by field. set (N := INR (length l - 1)) in *. set (v := N * (1 - q)) in *.
  assert (HN : 0 <= N) by apply pos_INR.
  assert (Hv : 0 <= v <= N) by (unfold v; nra).
  destruct (floorZ_spec v) as (Hf1 & Hf2). set (z := floorZ v) in *.
  assert (Hz : (0 <= z)%Z). { assert (H : (-1 < z)%Z) by (apply lt_IZR; lra). lia. }
  set (i := Z.to_nat z) in *. assert (HI : INR i = IZR z) by (unfold i; rewrite INR_IZR_INZ, Z2Nat.id by exact Hz; reflexivity).
  assert (Hi : (i <= length l - 1)%nat). { apply INR_le. rewrite HI. fold N. lra. }
  pose proof (Permutation_length (sortR_perm l)) as Hls. set (s := sortR l) in *.
  assert (Hs : forall a b, (a <= b < length s)%nat -> nth a s 0 <= nth b s 0) by (intros a b Hab; apply sorted_nth; [apply sortR_sorted|exact Hab]).
  assert (Hmono : nth i s 0 <= nth (Nat.min (i + 1) (length l - 1)) s 0) by (apply Hs; lia).
  assert (Hg : 0 <= v - INR i < 1) by (rewrite HI; lra).
  destruct (@sorted_count s thr i ltac:(lia) Hs) as (Hle & Heq).
  { rewrite <- E. assert (0 <= (v - INR i) * (nth (Nat.min (i + 1) (length l - 1)) s 0 - nth i s 0)) by (apply Rmult_le_pos; lra). lra. }
  rewrite (filter_perm_len (fun x => Rltb thr x) (Permutation_sym (sortR_perm l))). fold s.
  assert (Hn : INR (length s - 1 - i) = N - INR i) by (rewrite Hls, minus_INR by lia; reflexivity).
  split.
  - apply le_INR in Hle. rewrite Hn, HI in Hle. assert (q * N = N - v) by (unfold v; ring). lra.
  - intros Hd. rewrite Heq, Hn, HI; [assert (q * N = N - v) by (unfold v; ring); lra|].
    intros Hlt. rewrite <- E. replace (Nat.min (i + 1) (length l - 1)) with (S i) by lia.
    assert (Hne : nth i s 0 <> nth (S i) s 0).
    { assert (Hds : NoDup s) by (apply (Permutation_NoDup (Permutation_sym (sortR_perm l))); exact Hd).
      intros He. assert (HH := proj1 (NoDup_nth s 0) Hds i (S i) ltac:(lia) ltac:(lia) He). lia. }
    assert (nth i s 0 <= nth (S i) s 0) by (apply Hs; lia).
    set (x := nth i s 0) in *. set (y := nth (S i) s 0) in *. set (g := v - INR i) in *. clearbody x y g. nra.
Qed.
Lemma flat_prod K (W : mat) : flat_mat K W = map (fun ij => W (fst ij) (snd ij)) (list_prod (seq 0 K) (seq 0 K)).
Proof.
  unfold flat_mat. assert (G : forall l, flat_map (fun i => map (fun j => W i j) (seq 0 K)) l = map (fun ij => W (fst ij) (snd ij)) (list_prod l (seq 0 K))).
  { induction l as [|i l IH]; [reflexivity|]. cbn [flat_map list_prod]. rewrite map_app, <- IH, map_map. reflexivity. }
  apply G.
Qed.
Lemma edges_filter K (W : mat) (thr : R) (A : bmat) : (forall i j, (i < K)%nat -> (j < K)%nat -> A i j = Rltb thr (W i j)) ->
  edges K A = length (filter (fun x => Rltb thr x) (flat_mat K W)).
Proof.
  intros HA. rewrite flat_prod. unfold edges.
  assert (G : forall l : list (nat * nat), (forall ij, In ij l -> (fst ij < K)%nat /\ (snd ij < K)%nat) ->
    length (filter (fun ij => A (fst ij) (snd ij)) l) = length (filter (fun x => Rltb thr x) (map (fun ij => W (fst ij) (snd ij)) l))).
  { induction l as [|ij l IH]; intros H; [reflexivity|]. cbn [filter map]. destruct (H ij (or_introl eq_refl)) as (H1 & H2).
    rewrite HA by auto. destruct (Rltb thr _); cbn [length]; rewrite IH; auto; intros; apply H; now right. }
  apply G. intros [i j] Hin. apply in_prod_iff in Hin as (H1 & H2). apply in_seq in H1, H2. cbn. lia.
Qed.
Lemma map_NoDup_on (A : Type) (f : A -> R) (l : list A) : NoDup l -> (forall a b, In a l -> In b l -> f a = f b -> a = b) -> NoDup (map f l).
Proof.
  induction 1 as [|x l Hx Hl IH]; intros Hf; cbn [map]; [constructor|]. constructor.
  - intros Hin. apply in_map_iff in Hin as (y & He & Hy). apply Hx. rewrite <- (Hf y x); auto; [now right|now left].
  - apply IH. intros a b Ha Hb. apply Hf; now right.
Qed.
Lemma prod_NoDup (l l' : list nat) : NoDup l -> NoDup l' -> NoDup (list_prod l l').
Proof.
  intros Hl Hl'. induction Hl as [|x l Hx Hl IH]; cbn [list_prod]; [constructor|].
  assert (G : forall u v : list (nat * nat), NoDup u -> NoDup v -> (forall z, In z u -> ~ In z v) -> NoDup (u ++ v)).
  { induction u as [|z u IHu]; intros v Hu Hv Hd; cbn [app]; [exact Hv|]. inversion Hu; subst. constructor.
    - rewrite in_app_iff. intros [H|H]; [contradiction|]. apply (Hd z); [now left|exact H].
    - apply IHu; auto. intros y Hy. apply Hd. now right. }
  apply G; [|exact IH|].
  - apply FinFun.Injective_map_NoDup; [|exact Hl']. intros a b H. congruence.
  - intros [a b] Ha Hb. apply in_map_iff in Ha as (y & [= <- <-] & _). apply in_prod_iff in Hb as (H & _). contradiction.
Qed.
Lemma flat_NoDup K (W : mat) : (forall i j i' j', (i < K)%nat -> (j < K)%nat -> (i' < K)%nat -> (j' < K)%nat -> W i j = W i' j' -> i = i' /\ j = j') ->
  NoDup (flat_mat K W).
Proof.
  intros HW. rewrite flat_prod. apply map_NoDup_on; [apply prod_NoDup; apply seq_NoDup|].
  intros [a b] [c d] H1 H2 He. apply in_prod_iff in H1, H2. rewrite !in_seq in *. cbn in He. destruct (HW a b c d) as (-> & ->); lia || auto.
Qed.

(** Also for the discrete-time models: how many edges initialize_with_standard_model keeps. *)
Theorem C52_number_of_edges :
  forall s K B q ip s', 0 <= q <= 1 -> init_from_std s K B q = Ok (ip, s') ->
  INR (edges K (ip_A ip)) < q * INR (K * K - 1) + 1 /\
  ((forall i j i' j', (i < K)%nat -> (j < K)%nat -> (i' < K)%nat -> (j' < K)%nat -> s_W s i j = s_W s i' j' -> i = i' /\ j = j') ->
   q * INR (K * K - 1) <= INR (edges K (ip_A ip))).
Proof.
  intros s K B q ip s' Hq E. unfold init_from_std in E. apply bindr_ok in E as (u1 & _ & E). apply bindr_ok in E as (u2 & _ & E).
  cbv zeta in E. apply bindr_ok in E as (thr & Et & E). injection E as <- _. cbn [ip_A].
  set (W := fun k1 k2 => s_W s k1 k2 + / 10 ^ 6) in *.
  rewrite (@edges_filter K W thr) by reflexivity. destruct (percentile_count _ Hq Et) as (H1 & H2). rewrite flat_len in H1, H2.
  split; [exact H1|]. intros Hd. apply H2. apply flat_NoDup. intros i j i' j' Hi Hj Hi' Hj' He. apply Hd; auto. unfold W in He. lra.
Qed.
Print Assumptions C52_number_of_edges.

(* ------------------------------------------------------------------ *)
(** ** The fit of the delay parameters *)
Lemma imp_any_pos D dt mu tau : 0 < dt < D -> 0 < tau -> imp_any D dt mu tau = Fin (delay_pdf D mu tau dt).
Proof.
  intros H Ht. rewrite <- (@C61_impulse_is_density D dt mu tau H Ht). unfold imp_any, py_impulse. cbv zeta.
  rewrite (@ediv_fin (2 * PI) tau) by lra. cbn [esqrt]. pose proof PI_RGT_0.
  rewrite (proj2 (Rltb_false (2 * PI / tau) 0)) by (left; apply Rdiv_lt_0_compat; lra). rewrite emul_fin. reflexivity.
Qed.
Lemma imp_any_neg D dt mu tau : tau < 0 -> imp_any D dt mu tau = NaN.
Proof.
  intros Ht. unfold imp_any. cbv zeta. rewrite (@ediv_fin (2 * PI) tau) by lra. cbn [esqrt]. pose proof PI_RGT_0.
  rewrite (proj2 (Rltb_true (2 * PI / tau) 0)); [reflexivity|]. apply Ropp_lt_cancel. rewrite Ropp_0.
  replace (- (2 * PI / tau)) with (2 * PI / - tau) by (field; lra). apply Rdiv_lt_0_compat; lra.
Qed.
Lemma imp_any_zero D dt mu : 0 < dt < D -> imp_any D dt mu 0 = Fin 0.
Proof.
  intros H. unfold imp_any. cbv zeta. pose proof PI_RGT_0.
  rewrite (@ediv_fin dt D) by lra. assert (Hq : 0 < dt / D) by (apply Rdiv_lt_0_compat; lra).
  rewrite esub_fin. replace (1 - dt / D) with ((D - dt) / D) by (field; lra).
  rewrite !elog_fin by (apply Rdiv_lt_0_compat; lra). rewrite !esub_fin. rewrite !emul_fin. cbn [eexp].
  unfold ediv at 2. rewrite (proj2 (Reqb_true 0 0)) by reflexivity. unfold einf_sign at 1. rewrite (proj2 (Rltb_true 0 (2 * PI))) by lra. cbn [esqrt].
  unfold emul at 2, einf_sign. rewrite (proj2 (Rltb_true 0 (dt * (D - dt) / D))) by (apply Rdiv_lt_0_compat; [apply Rmult_lt_0_compat|]; lra).
  unfold ediv. rewrite emul_fin. f_equal. ring.
Qed.
Lemma std_ir_fin p w i j l : fitted p w -> (i < p_K p)%nat -> (j < p_K p)%nat -> std_ir p i j l = Fin (std_response p w i j l).
Proof.
  intros (Hf & HB & Hw) Hi Hj. unfold std_ir, std_response.
  assert (Hpos : 0 < block_sum p w i j).
  { unfold block_sum. apply Rsum_pos; [exact HB|]. intros b Hb. apply Rlt_le_trans with (/ 10 ^ 16); [lra|]. apply Hw; [exact Hj|nia]. }
  destruct (@C57_G_rows_sum_to_one_partial p w i j Hf Hj) as (HG & _); [lra|].
  apply esum_fin. intros b _. rewrite HG, emul_fin. reflexivity.
Qed.
Lemma time_point_in bdt D l : 2 * / 10 ^ 6 < D -> 0 < time_point bdt D l < D.
Proof.
  intros HD. unfold time_point. pose proof (Rmax_r (bdt * INR l) (/ 10 ^ 6)). assert (0 < / 10 ^ 6) by lra. split.
  - apply Rmin_glb_lt; lra.
  - eapply Rle_lt_trans; [apply Rmin_r|]. lra.
Qed.
Lemma ct_loss_pos D bdt p w i j mu tau l : 2 * / 10 ^ 6 < D -> fitted p w -> (i < p_K p)%nat -> (j < p_K p)%nat -> 0 < tau ->
  ct_loss D bdt p i j (mu, tau) l = Fin (delay_pdf D mu tau (time_point bdt D l) - std_response p w i j l).
Proof.
  intros HD Hf Hi Hj Ht. unfold ct_loss. cbn [fst snd]. rewrite (@std_ir_fin p w) by auto.
  change (t_basis bdt D l) with (time_point bdt D l). rewrite imp_any_pos; [reflexivity|now apply time_point_in|exact Ht].
Qed.
Lemma pair_fit fit D bdt p w i j mu tau : lsq_contract fit -> 2 * / 10 ^ 6 < D -> fitted p w -> (1 <= p_L p)%nat ->
  (i < p_K p)%nat -> (j < p_K p)%nat -> 0 < tau ->
  let a := fit (ct_loss D bdt p i j) (p_L p) (mu, tau) in
  0 <= snd a /\ (0 < snd a -> misfit bdt D p w i j (fst a) (snd a) <= misfit bdt D p w i j mu tau) /\
  (misfit bdt D p w i j mu tau < misfit_silent p w i j -> 0 < snd a).
Proof.
  intros Hc HD Hf HL Hi Hj Ht a.
  destruct (Hc (ct_loss D bdt p i j) (p_L p) (mu, tau)) as (Hfin & Hle).
  { intros l _. rewrite (@ct_loss_pos D bdt p w) by auto. reflexivity. }
  fold a in Hfin, Hle. clearbody a. destruct a as [mu' tau']. cbn [fst snd].
  assert (E0 : sum_sq (p_L p) (ct_loss D bdt p i j (mu, tau)) = misfit bdt D p w i j mu tau).
  { unfold sum_sq, misfit. apply Rsum_ext. intros l _. rewrite (@ct_loss_pos D bdt p w) by auto. reflexivity. }
  assert (H0 : 0 <= tau').
  { destruct (Rle_dec 0 tau') as [H|H]; [exact H|]. specialize (Hfin 0%nat ltac:(lia)). unfold ct_loss in Hfin. cbn [fst snd] in Hfin.
    rewrite imp_any_neg in Hfin by lra. discriminate. }
  split; [exact H0|]. split.
  - intros Hp. rewrite <- E0. eapply Rle_trans; [|exact Hle]. right. unfold sum_sq, misfit. apply Rsum_ext.
    intros l _. rewrite (@ct_loss_pos D bdt p w) by auto. reflexivity.
  - intros Hlt. destruct H0 as [H0|H0]; [exact H0|]. exfalso. rewrite E0 in Hle. subst tau'.
    assert (E1 : sum_sq (p_L p) (ct_loss D bdt p i j (mu', 0)) = misfit_silent p w i j).
    { unfold sum_sq, misfit_silent. apply Rsum_ext. intros l _. unfold ct_loss. cbn [fst snd]. rewrite (@std_ir_fin p w) by auto.
      change (t_basis bdt D l) with (time_point bdt D l). rewrite imp_any_zero by now apply time_point_in. reflexivity. }
    lra.
Qed.

(** The loop treats every pair once, starting from its own current values. *)
Lemma fit_pairs_outside fit D bdt p l : forall mu tau i j, ~ In (i, j) l ->
  let r := fold_left (ct_fit_pair fit D bdt p) l (mu, tau) in fst r i j = mu i j /\ snd r i j = tau i j.
Proof.
  induction l as [|[a b] l IH]; intros mu tau i j Hn; cbn [fold_left]; [split; reflexivity|]. cbn [ct_fit_pair].
  destruct (IH (upd2 mu a b (fst (fit (ct_loss D bdt p a b) (p_L p) (mu a b, tau a b))))
               (upd2 tau a b (snd (fit (ct_loss D bdt p a b) (p_L p) (mu a b, tau a b)))) i j) as (E1 & E2); [intros H; apply Hn; now right|].
  assert (Hne : i <> a \/ j <> b).
  { destruct (Nat.eq_dec i a) as [->|]; [|now left]. destruct (Nat.eq_dec j b) as [->|]; [|now right]. exfalso. apply Hn. now left. }
  rewrite upd2_neq in E1 by exact Hne. rewrite upd2_neq in E2 by exact Hne. split; assumption.
Qed.
Lemma fit_pairs_inside fit D bdt p l : forall mu tau i j, NoDup l -> In (i, j) l ->
  let r := fold_left (ct_fit_pair fit D bdt p) l (mu, tau) in
  (fst r i j, snd r i j) = fit (ct_loss D bdt p i j) (p_L p) (mu i j, tau i j).
Proof.
  induction l as [|[a b] l IH]; intros mu tau i j Hd Hin; [destruct Hin|]. inversion Hd as [|? ? Hx Hl]; subst. cbn [fold_left ct_fit_pair].
  destruct Hin as [[= -> ->]|Hin].
  - destruct (@fit_pairs_outside fit D bdt p l (upd2 mu i j (fst (fit (ct_loss D bdt p i j) (p_L p) (mu i j, tau i j))))
               (upd2 tau i j (snd (fit (ct_loss D bdt p i j) (p_L p) (mu i j, tau i j)))) i j Hx) as (E1 & E2).
    cbv zeta. unfold mat in *. rewrite upd2_eq in E1. rewrite upd2_eq in E2. etransitivity; [|symmetry; apply surjective_pairing].
    exact (f_equal2 pair E1 E2).
  - cbv zeta. etransitivity; [exact (IH _ _ i j Hl Hin)|].
    assert (Hne : i <> a \/ j <> b).
    { destruct (Nat.eq_dec i a) as [->|]; [|now left]. destruct (Nat.eq_dec j b) as [->|]; [|now right]. exfalso. contradiction. }
    rewrite !upd2_neq by exact Hne. reflexivity.
Qed.
Lemma fit_all_at fit D bdt p K mu tau i j : (i < K)%nat -> (j < K)%nat ->
  let r := ct_fit_all fit D bdt p K mu tau in (fst r i j, snd r i j) = fit (ct_loss D bdt p i j) (p_L p) (mu i j, tau i j).
Proof.
  intros Hi Hj. apply fit_pairs_inside; [apply prod_NoDup; apply seq_NoDup|]. apply in_prod_iff. rewrite !in_seq. lia.
Qed.

(* ------------------------------------------------------------------ *)
(** ** C109 *)
Lemma threshold_one K W no q : (0 < K)%nat -> 0 <= q <= 1 -> one_sparsity no q -> 
  exists thr A, percentile (flat_mat K W) ((1 - q) * 100) = Ok thr /\ ct_threshold K W no = Ok (K, K, A) /\
  forall i j, (i < K)%nat -> (j < K)%nat -> A i j = Rltb thr (W i j).
Proof.
  intros HK Hq Hs.
  destruct (@percentile_ok (flat_mat K W) ((1 - q) * 100)) as (thr & Et); [|lra|].
  { unfold flat_mat. destruct K; [lia|]. cbn. discriminate. }
  destruct no as [fp s|n]; cbn [one_sparsity ct_threshold] in *.
  - destruct Hs as (HC & Hp). rewrite HC. unfold percentile_table.
    rewrite (proj2 (forall_lt_true _ _)).
    2:{ intros i Hi. apply forall_lt_true. intros j Hj. replace i with 0%nat by lia. replace j with 0%nat by lia. rewrite Hp, Et. reflexivity. }
    cbn [bindr].
    destruct (Nat.eqb_spec 1 K) as [HK1|HK1].
    + exists thr. eexists. split; [exact Et|]. split; [reflexivity|]. intros i j Hi Hj.
      assert (i = 0%nat) by lia. assert (j = 0%nat) by lia. subst i j. cbv beta. rewrite Hp, Et. reflexivity.
    + exists thr. eexists. split; [exact Et|]. split; [reflexivity|]. intros i j Hi Hj. cbv beta. rewrite Hp, Et. reflexivity.
  - exists thr. eexists. rewrite Hs, Et. cbn [bindr]. split; [reflexivity|]. split; [reflexivity|]. reflexivity.
Qed.

(** Accepted, and what is stored: the standard model's background rates and connection weights (all at least 1e-16), an
    adjacency matrix that keeps exactly the strongest connections - fewer than p (K^2 - 1) + 1 of them, and at least
    p (K^2 - 1) when no two weights are equal - and delay parameters that reproduce the standard model's responses no
    worse than those the model had.  The settings, the network and the data are untouched. *)
Theorem C109_initialised_partial :
  forall fit bdt p w m q,
  fitted p w -> p_K p = cm_K m -> (0 < cm_K m)%nat -> (2 <= p_L p)%nat -> one_sparsity (cm_net m) q -> 0 <= q <= 1 ->
  exists m', ct_init_with_std fit true p bdt m = (Ok (cm_K m, cm_K m), m') /\ same_setting m m' /\
  (forall k, (k < cm_K m)%nat -> cm_lam m' k = w k 0%nat) /\
  (forall i j, (i < cm_K m)%nat -> (j < cm_K m)%nat -> cm_W m' i j = std_weight p w i j /\ / 10 ^ 16 <= cm_W m' i j) /\
  (forall i j i' j', (i < cm_K m)%nat -> (j < cm_K m)%nat -> (i' < cm_K m)%nat -> (j' < cm_K m)%nat ->
     cm_A m' i j = true -> cm_W m' i j <= cm_W m' i' j' -> cm_A m' i' j' = true) /\
  INR (edges (cm_K m) (cm_A m')) < q * INR (cm_K m * cm_K m - 1) + 1 /\
  ((forall i j i' j', (i < cm_K m)%nat -> (j < cm_K m)%nat -> (i' < cm_K m)%nat -> (j' < cm_K m)%nat ->
      std_weight p w i j = std_weight p w i' j' -> i = i' /\ j = j') ->
   q * INR (cm_K m * cm_K m - 1) <= INR (edges (cm_K m) (cm_A m'))) /\
  (lsq_contract fit -> 2 * / 10 ^ 6 < cm_dtmax m ->
   forall i j, (i < cm_K m)%nat -> (j < cm_K m)%nat -> 0 < cm_tau m i j ->
     0 <= cm_tau m' i j /\
     (0 < cm_tau m' i j -> misfit bdt (cm_dtmax m) p w i j (cm_mu m' i j) (cm_tau m' i j) <= misfit bdt (cm_dtmax m) p w i j (cm_mu m i j) (cm_tau m i j)) /\
     (misfit bdt (cm_dtmax m) p w i j (cm_mu m i j) (cm_tau m i j) < misfit_silent p w i j -> 0 < cm_tau m' i j)).
Proof.
  intros fit bdt p w m q Hft HK HK0 HL Hs Hq. pose proof Hft as (Hf & HB & Hw). unfold ct_init_with_std. cbn [negb].
  rewrite HK, Nat.eqb_refl. cbn [negb]. rewrite (proj2 (Nat.ltb_ge (p_L p) 2)) by lia. rewrite andb_false_r.
  assert (EW : forall i j, (i < cm_K m)%nat -> (j < cm_K m)%nat -> Rmax (fval (p_W p i j)) (/ 10 ^ 16) = std_weight p w i j /\ / 10 ^ 16 <= std_weight p w i j).
  { intros i j Hi Hj. rewrite (@p_W_fin p w) by (auto; lia). cbn [fval]. change (block_sum p w i j) with (std_weight p w i j).
    assert (H : / 10 ^ 16 <= std_weight p w i j).
    { unfold std_weight. apply Rle_trans with (w j (1 + (i * p_B p + 0))%nat).
      - apply Hw; [lia|]. rewrite HK. nia.
      - apply (@Rsum_term_le (p_B p) (fun b => w j (1 + (i * p_B p + b))%nat) 0%nat); [|lia].
        intros b Hb. apply Rle_trans with (/ 10 ^ 16); [lra|]. apply Hw; [lia|]. rewrite HK. nia. }
    split; [apply Rmax_left; exact H|exact H]. }
  set (W := fun i j => Rmax (fval (p_W p i j)) (/ 10 ^ 16)) in *.
  destruct (@threshold_one (cm_K m) W (cm_net m) q HK0 Hq Hs) as (thr & A & Et & EA & HA). rewrite EA.
  eexists. split; [reflexivity|]. split; [repeat split|]. cbn [cm_set cm_lam cm_W cm_A cm_mu cm_tau cm_K cm_dtmax].
  split; [intros k Hk; unfold p_bias; rewrite (@n_w_at_fin p w) by (auto; lia); reflexivity|].
  split; [intros i j Hi Hj; destruct (EW i j Hi Hj) as (E1 & E2); unfold W; rewrite E1; split; [reflexivity|exact E2]|].
  split.
  { intros i j i' j' Hi Hj Hi' Hj' Ha Hle. rewrite HA in Ha |- * by auto. apply Rltb_true in Ha. apply Rltb_true. unfold W in *. lra. }
  rewrite (@edges_filter (cm_K m) W thr) by exact HA. destruct (percentile_count _ Hq Et) as (H1 & H2). rewrite flat_len in H1, H2.
  split; [exact H1|]. split.
  { intros Hd. apply H2, flat_NoDup. intros i j i' j' Hi Hj Hi' Hj' He. apply Hd; auto.
    unfold W in He. rewrite (proj1 (EW i j Hi Hj)), (proj1 (EW i' j' Hi' Hj')) in He. exact He. }
  intros Hc HD i j Hi Hj Htau.
  pose proof (@fit_all_at fit (cm_dtmax m) bdt p (cm_K m) (cm_mu m) (cm_tau m) i j Hi Hj) as E. cbv zeta in E.
  set (r := ct_fit_all fit (cm_dtmax m) bdt p (cm_K m) (cm_mu m) (cm_tau m)) in *. clearbody r.
  pose proof (@pair_fit fit (cm_dtmax m) bdt p w i j (cm_mu m i j) (cm_tau m i j) Hc HD Hft ltac:(lia) ltac:(lia) ltac:(lia) Htau) as HP.
  cbv zeta in HP. rewrite <- E in HP. exact HP.
Qed.
Print Assumptions C109_initialised_partial.

(** A model that can be sampled further: if each standard response is better matched by the current delay parameters than
    by no response at all, all parameters are in their domain (the hypothesis of the sampler's theorems, C58-C67). *)
Theorem C109_ready_to_sample :
  forall fit bdt p w m q r m',
  fitted p w -> p_K p = cm_K m -> (0 < cm_K m)%nat -> (2 <= p_L p)%nat -> one_sparsity (cm_net m) q -> 0 <= q <= 1 ->
  lsq_contract fit -> 2 * / 10 ^ 6 < cm_dtmax m ->
  (forall i j, (i < cm_K m)%nat -> (j < cm_K m)%nat -> 0 < cm_tau m i j /\
     misfit bdt (cm_dtmax m) p w i j (cm_mu m i j) (cm_tau m i j) < misfit_silent p w i j) ->
  ct_init_with_std fit true p bdt m = (r, m') -> params_ok m'.
Proof.
  intros fit bdt p w m q r m' Hft HK HK0 HL Hs Hq Hc HD Hm E.
  destruct (@C109_initialised_partial fit bdt p w m q Hft HK HK0 HL Hs Hq) as (m1 & E1 & (S1 & _) & Hlam & HW & _ & _ & _ & Hfit).
  rewrite E1 in E. injection E as _ <-. destruct Hft as (_ & _ & Hw). unfold params_ok. rewrite S1.
  split; [|split].
  - intros k Hk. rewrite Hlam by exact Hk. apply Rlt_le_trans with (/ 10 ^ 16); [lra|]. apply Hw; lia.
  - intros a b Ha Hb. destruct (HW a b Ha Hb) as (_ & H). lra.
  - intros a b Ha Hb. destruct (Hm a b Ha Hb) as (Ht & Hlt). apply (Hfit Hc HD a b Ha Hb Ht). exact Hlt.
Qed.
Print Assumptions C109_ready_to_sample.

(** The wrong kind of model, or another number of processes: refused, nothing changed. *)
Theorem C109_wrong_model_refused :
  forall fit is_std p bdt m, is_std = false \/ p_K p <> cm_K m -> ct_init_with_std fit is_std p bdt m = (Raise AssertionError, m).
Proof.
  intros fit is_std p bdt m H. unfold ct_init_with_std. destruct is_std; cbn [negb]; [|reflexivity].
  destruct H as [H|H]; [discriminate|]. destruct (Nat.eqb_spec (p_K p) (cm_K m)); [contradiction|]. reflexivity.
Qed.
Print Assumptions C109_wrong_model_refused.

(** Refuted: a refused call leaves the model as it was.  With a block network of C groups, 1 < C <> K, K > 1, the call
    fails - after all delay parameters have been replaced by the optimiser's answers. *)
Theorem C109_failed_call_changes_model_refuted :
  forall fit p bdt m fp s, p_K p = cm_K m -> (2 <= p_L p)%nat -> (1 < cm_K m)%nat -> cm_net m = NetSbm fp s -> (1 < sb_C s)%nat -> sb_C s <> cm_K m ->
  exists m', ct_init_with_std fit true p bdt m = (Raise ValueError, m') /\
  (forall i j, (i < cm_K m)%nat -> (j < cm_K m)%nat ->
     (cm_mu m' i j, cm_tau m' i j) = fit (ct_loss (cm_dtmax m) bdt p i j) (p_L p) (cm_mu m i j, cm_tau m i j)) /\
  cm_lam m' = cm_lam m /\ cm_A m' = cm_A m /\ cm_W m' = cm_W m.
Proof.
  intros fit p bdt m fp s HK HL HK1 En HC HCK. unfold ct_init_with_std. cbn [negb]. rewrite HK, Nat.eqb_refl. cbn [negb].
  rewrite (proj2 (Nat.ltb_ge (p_L p) 2)) by lia. rewrite andb_false_r.
  set (W := fun i j => Rmax (fval (p_W p i j)) (/ 10 ^ 16)).
  assert (Et : ct_threshold (cm_K m) W (cm_net m) = Raise ValueError).
  { rewrite En. cbn [ct_threshold]. destruct (percentile_table _ _ _) as [thr|e] eqn:Ep; cbn [bindr].
    - destruct (Nat.eqb_spec (sb_C s) (cm_K m)); [contradiction|]. destruct (Nat.eqb_spec (sb_C s) 1); [lia|].
      destruct (Nat.eqb_spec (cm_K m) 1); [lia|]. reflexivity.
    - unfold percentile_table in Ep. destruct (forall_lt _ _); [discriminate|].
      destruct (flat_mat (cm_K m) W) as [|x l] eqn:El; [|injection Ep as <-; reflexivity].
      pose proof (flat_len (cm_K m) W) as Hl. rewrite El in Hl. cbn in Hl. nia. }
  rewrite Et. eexists. split; [reflexivity|]. cbn [cm_set cm_mu cm_tau cm_lam cm_A cm_W]. split; [|repeat split].
  intros i j Hi Hj. apply fit_all_at; assumption.
Qed.
Print Assumptions C109_failed_call_changes_model_refuted.

(** Refuted: the network's ban on self connections is respected.  If the strongest connection of the standard model is a
    process's influence on itself, the edge is switched on whatever allow_self_connections says. *)
Theorem C109_self_edge_refuted :
  forall fit bdt p w m q k0,
  fitted p w -> p_K p = cm_K m -> (2 <= cm_K m)%nat -> (2 <= p_L p)%nat -> one_sparsity (cm_net m) q -> 0 < q <= 1 -> (k0 < cm_K m)%nat ->
  net_allow (cm_net m) = false ->
  (forall i j, (i < cm_K m)%nat -> (j < cm_K m)%nat -> (i, j) <> (k0, k0) -> std_weight p w i j < std_weight p w k0 k0) ->
  exists m', ct_init_with_std fit true p bdt m = (Ok (cm_K m, cm_K m), m') /\ net_allow (cm_net m') = false /\ cm_A m' k0 k0 = true.
Proof.
  intros fit bdt p w m q k0 Hft HK HK0 HL Hs Hq Hk Hal Hmax.
  assert (EW : forall i j, (i < cm_K m)%nat -> (j < cm_K m)%nat -> Rmax (fval (p_W p i j)) (/ 10 ^ 16) = std_weight p w i j).
  { intros i j Hi Hj. destruct (@C109_initialised_partial fit bdt p w m q Hft HK ltac:(lia) HL Hs ltac:(lra)) as (m1 & E1 & _ & _ & HW & _).
    destruct (HW i j Hi Hj) as (H1 & _). rewrite <- H1. unfold ct_init_with_std in E1. cbn [negb] in E1. rewrite HK, Nat.eqb_refl in E1. cbn [negb] in E1.
    rewrite (proj2 (Nat.ltb_ge (p_L p) 2)) in E1 by lia. rewrite andb_false_r in E1. destruct (ct_threshold _ _ _) as [[[r c] A]|e]; [|discriminate].
    injection E1 as _ _ <-. reflexivity. }
  unfold ct_init_with_std. cbn [negb]. rewrite HK, Nat.eqb_refl. cbn [negb]. rewrite (proj2 (Nat.ltb_ge (p_L p) 2)) by lia. rewrite andb_false_r.
  set (W := fun i j => Rmax (fval (p_W p i j)) (/ 10 ^ 16)) in *.
  destruct (@threshold_one (cm_K m) W (cm_net m) q ltac:(lia) ltac:(lra) Hs) as (thr & A & Et & EA & HA). rewrite EA.
  eexists. split; [reflexivity|]. cbn [cm_set cm_net cm_A]. split; [exact Hal|]. rewrite HA by exact Hk. apply Rltb_true.
  destruct (@count_flat_one (cm_K m) W k0 k0 Hk Hk) as (Hc & Hm).
  { intros i j Hi Hj Hne. unfold W. rewrite !EW by auto. now apply Hmax. }
  eapply percentile_lt; [exact Et|lra| |exact Hm|exact Hc]. rewrite flat_len. nia.
Qed.
Print Assumptions C109_self_edge_refuted.

(** Refuted: the most likely network is kept.  Even with edge probability 1 the weakest connection is dropped. *)
Theorem C109_some_edge_dropped_refuted :
  forall fit bdt p w m q,
  fitted p w -> p_K p = cm_K m -> (0 < cm_K m)%nat -> (2 <= p_L p)%nat -> one_sparsity (cm_net m) q -> 0 <= q <= 1 ->
  exists m' i j, ct_init_with_std fit true p bdt m = (Ok (cm_K m, cm_K m), m') /\ (i < cm_K m)%nat /\ (j < cm_K m)%nat /\ cm_A m' i j = false.
Proof.
  intros fit bdt p w m q Hft HK HK0 HL Hs Hq.
  unfold ct_init_with_std. cbn [negb]. rewrite HK, Nat.eqb_refl. cbn [negb]. rewrite (proj2 (Nat.ltb_ge (p_L p) 2)) by lia. rewrite andb_false_r.
  set (W := fun i j => Rmax (fval (p_W p i j)) (/ 10 ^ 16)) in *.
  destruct (@threshold_one (cm_K m) W (cm_net m) q HK0 Hq Hs) as (thr & A & Et & EA & HA). rewrite EA.
  apply percentile_ge in Et as (x & Hx & Hle). apply flat_mat_in in Hx as (i & j & Hi & Hj & ->).
  eexists. exists i, j. split; [reflexivity|]. split; [exact Hi|]. split; [exact Hj|]. cbn [cm_set cm_A]. rewrite HA by auto. now apply Rltb_false.
Qed.
Print Assumptions C109_some_edge_dropped_refuted.

(* ------------------------------------------------------------------ *)
(** ** Non-vacuity *)

(** A standard model of two processes whose strongest weight is 0 -> 0, and a network that forbids self connections. *)
Definition ex_w (k j : nat) : R := if Nat.eqb k 0 then (if Nat.eqb j 1 then 3 else 1) else 2.
Definition ex_std : nproc :=
  {| p_K := 2; p_B := 1; p_L := 3; p_bas := fun _ _ => 1;
     p_nodes := [n_with_w (n_init Linear 2 1 1 None None) (fun j => Fin (ex_w 0 j)); n_with_w (n_init Linear 2 1 1 None None) (fun j => Fin (ex_w 1 j))] |}.
Definition ex_noself : netobj := NetEr {| e_K := 2; e_p := 1 / 2; e_v := 1; e_kappa := 1; e_alpha := None; e_beta := None; e_allow := false; e_mf := None |}.
Definition ex_ctm (no : netobj) : ctmodel :=
  {| cm_K := 2; cm_dtmax := 3; cm_lam := fun _ => 1; cm_A := fun _ _ => true; cm_W := fun _ _ => 1; cm_mu := fun _ _ => 0; cm_tau := fun _ _ => 1;
     cm_net := no; cm_data := []; cm_alpha := 1; cm_beta := 1; cm_mu0 := 0; cm_lmbda0 := 1; cm_alpha0 := 1; cm_beta0 := 1; cm_par := true |}.
Lemma ex_fitted : fitted ex_std ex_w.
Proof.
  split; [|split].
  - split; [reflexivity|]. intros k Hk. cbn in Hk. destruct k as [|[|k]]; [| |lia]; eexists; (split; [reflexivity|reflexivity]).
  - cbn. lia.
  - intros k j _ _. unfold ex_w. destruct (Nat.eqb k 0), (Nat.eqb j 1); lra.
Qed.
(** An optimiser that meets the contract and moves: it tries mu = 1. *)
Definition ex_fit : lsq := fun f n x0 =>
  if (forall_lt n (fun l => efinite (f (1, snd x0) l)) && Rleb (sum_sq n (f (1, snd x0))) (sum_sq n (f x0)))%bool then (1, snd x0) else x0.
Lemma ex_fit_contract : lsq_contract ex_fit.
Proof.
  intros f n x0 H. unfold ex_fit. destruct (forall_lt _ _) eqn:E1; cbn [andb]; [|split; [exact H|lra]].
  destruct (Rleb _ _) eqn:E2; [|split; [exact H|lra]]. apply Rleb_true in E2. split; [|exact E2]. intros l Hl.
  exact (proj1 (forall_lt_true _ _) E1 l Hl).
Qed.
Example C109_nonvacuous :
  fitted ex_std ex_w /\ p_K ex_std = cm_K (ex_ctm ex_noself) /\ one_sparsity (cm_net (ex_ctm ex_noself)) (1 / 2) /\ lsq_contract ex_fit /\
  net_allow (cm_net (ex_ctm ex_noself)) = false /\
  (forall i j, (i < 2)%nat -> (j < 2)%nat -> (i, j) <> (0%nat, 0%nat) -> std_weight ex_std ex_w i j < std_weight ex_std ex_w 0 0).
Proof.
  split; [exact ex_fitted|]. split; [reflexivity|]. split; [reflexivity|]. split; [exact ex_fit_contract|]. split; [reflexivity|].
  intros i j Hi Hj Hne. unfold std_weight, ex_w. cbn. destruct i as [|[|i]], j as [|[|j]]; try lia; cbn; try lra. congruence.
Qed.
Example C109_block_nonvacuous : exists s m, cm_net m = NetSbm false s /\ (1 < sb_C s)%nat /\ sb_C s <> cm_K m /\ (1 < cm_K m)%nat.
Proof.
  exists {| sb_K := 2; sb_C := 3; sb_pi := fun _ => 1; sb_tau0 := 1; sb_tau1 := 1; sb_kappa := 1; sb_alpha := 1; sb_beta := 1; sb_allow := true;
            sb_m := fun _ => 1 / 3; sb_c := fun _ => 0%nat; sb_p := fun _ _ => 1 / 2; sb_v := fun _ _ => 1; sb_fixed := false |}.
  exists (ex_ctm (NetSbm false {| sb_K := 2; sb_C := 3; sb_pi := fun _ => 1; sb_tau0 := 1; sb_tau1 := 1; sb_kappa := 1; sb_alpha := 1; sb_beta := 1; sb_allow := true;
            sb_m := fun _ => 1 / 3; sb_c := fun _ => 0%nat; sb_p := fun _ _ => 1 / 2; sb_v := fun _ _ => 1; sb_fixed := false |})).
  cbn. repeat split; lia.
Qed.
(** Bounded fitting leads to such standard models (standard_models.py 101-126 with the linear node's bounds). *)
Lemma C109_fitting_gives_fitted :
  forall p x, p_shape p -> (0 < p_B p)%nat -> Forall (fun n => n_kind n = Linear) (p_nodes p) ->
  (forall k n, nth_error (p_nodes p) k = Some n -> n_in_bounds n (x k)) -> fitted (n_op p (NFit x)) x.
Proof.
  intros p x (Hlen & Hsh) HB Hk Hb. cbn [n_op].
  set (f := fun kn => n_fit (snd kn) (x (fst kn))).
  assert (Hc : length (combine (seq 0 (length (p_nodes p))) (p_nodes p)) = p_K p) by (rewrite combine_length, seq_length; lia).
  assert (Hn : forall k, (k < p_K p)%nat -> exists n, nth_error (p_nodes p) k = Some n /\
     nth_error (map f (combine (seq 0 (length (p_nodes p))) (p_nodes p))) k = Some (n_fit n (x k))).
  { intros k Hkk. destruct (nth_error (p_nodes p) k) as [n|] eqn:En; [|apply nth_error_None in En; lia]. exists n. split; [reflexivity|].
    rewrite nth_error_map. assert (G : forall s (l : list nnode) i, nth_error l i = Some n -> nth_error (combine (seq s (length l)) l) i = Some ((s + i)%nat, n)).
    { clear. intros s l. revert s. induction l as [|y l IH]; intros s i Hi; destruct i as [|i]; try discriminate; cbn [length seq combine nth_error] in *.
      - injection Hi as <-. f_equal. f_equal. lia.
      - rewrite (IH (S s) i Hi). f_equal. f_equal. lia. }
    rewrite (G 0%nat _ _ En). reflexivity. }
  split; [|split; [exact HB|]].
  - split; [cbn [p_with_nodes p_nodes p_K]; rewrite map_length; exact Hc|]. cbn [p_with_nodes p_nodes p_K]. intros k Hkk.
    destruct (Hn k Hkk) as (n & En & Ef). exists (n_fit n (x k)). split; [exact Ef|]. intros j. unfold n_fit.
    rewrite Forall_forall in Hk. rewrite (Hk n (nth_error_In _ _ En)). reflexivity.
  - cbn [p_with_nodes p_K p_B]. intros k j Hkk Hj. destruct (Hn k Hkk) as (n & En & _).
    rewrite Forall_forall in Hk, Hsh. pose proof (Hb k n En) as H. unfold n_in_bounds in H. rewrite (Hk n (nth_error_In _ _ En)) in H.
    destruct (Hsh n (nth_error_In _ _ En)) as (H1 & H2). apply H. unfold n_P. rewrite H1, H2. exact Hj.
Qed.
Lemma pdf_bound_peak x : normal_pdf 0 1 x <= 1 / 2 * exp (- (1 / 2) * (x - 0) ^ 2) /\ 0 < normal_pdf 0 1 x.
Proof.
  unfold normal_pdf. pose proof PI_RGT_0. pose proof PI2_3_2 as H3. unfold PI2 in H3.
  assert (Hs : 0 < sqrt (1 / (2 * PI)) <= 1 / 2).
  { split; [apply sqrt_lt_R0, Rdiv_lt_0_compat; lra|]. rewrite <- (sqrt_square (1 / 2)) by lra. apply sqrt_le_1; [left; apply Rdiv_lt_0_compat; lra|lra|].
    apply Rmult_le_reg_r with (2 * PI); [lra|]. replace (1 / (2 * PI) * (2 * PI)) with 1 by (field; lra). lra. }
  pose proof (exp_pos (- (1 / 2) * (x - 0) ^ 2)) as He. split; [apply Rmult_le_compat_r; lra|apply Rmult_lt_0_compat; lra].
Qed.
Lemma pdf_peak x : 0 < normal_pdf 0 1 x <= 1 / 2.
Proof.
  destruct (pdf_bound_peak x) as (H1 & H2). split; [exact H2|]. eapply Rle_trans; [exact H1|].
  assert (exp (- (1 / 2) * (x - 0) ^ 2) <= exp 0); [|rewrite exp_0 in *; lra].
  assert (Hx : - (1 / 2) * (x - 0) ^ 2 <= 0) by nra. destruct Hx as [Hx|Hx]; [left; apply exp_increasing; exact Hx|rewrite Hx; lra].
Qed.
Lemma ex_pdf l : (l < 3)%nat -> 0 < delay_pdf 3 0 1 (time_point 1 3 l) < 2.
Proof.
  intros Hl. assert (E0 : 0 < / 10 ^ 6 < 1 / 100000) by lra.
  destruct l as [|[|[|l]]]; [| | |lia].
  - assert (Et : time_point 1 3 0 = / 10 ^ 6). { unfold time_point. cbn [INR]. rewrite Rmult_0_r, Rmax_right, Rmin_left; lra. }
    rewrite Et. set (e := / 10 ^ 6) in *. clearbody e. clear Et. unfold delay_pdf. destruct (pdf_bound_peak (to_line 3 e)) as (H1 & H2).
    assert (Hq : 0 < 3 / (e * (3 - e))) by (apply Rdiv_lt_0_compat; [lra|apply Rmult_lt_0_compat; lra]). split; [apply Rmult_lt_0_compat; lra|].
    set (y := to_line 3 e) in *. assert (Ey : y = - ln ((3 - e) / e)). { unfold y, to_line. rewrite <- ln_Rinv by (apply Rdiv_lt_0_compat; lra). f_equal. field. lra. }
    assert (Hy : y <= -2).
    { rewrite Ey. assert (Hln : ln (exp (1 + 1)) < ln ((3 - e) / e)); [|rewrite ln_exp in Hln; lra]. apply ln_increasing; [apply exp_pos|].
      rewrite exp_plus. pose proof exp_le_3. pose proof (exp_pos 1). apply Rle_lt_trans with 9; [nra|].
      apply Rmult_lt_reg_r with e; [lra|]. replace ((3 - e) / e * e) with (3 - e) by (field; lra). lra. }
    assert (Hexp : exp (- (1 / 2) * (y - 0) ^ 2) <= e / (3 - e)).
    { replace (e / (3 - e)) with (exp y).
      - assert (Hx : - (1 / 2) * (y - 0) ^ 2 <= y) by nra. destruct Hx as [Hx|Hx]; [left; apply exp_increasing; exact Hx|rewrite Hx; lra].
      - rewrite Ey, exp_Ropp, exp_ln by (apply Rdiv_lt_0_compat; lra). field. lra. }
    apply Rle_lt_trans with (1 / 2 * (e / (3 - e)) * (3 / (e * (3 - e)))); [apply Rmult_le_compat_r; lra|].
    replace (1 / 2 * (e / (3 - e)) * (3 / (e * (3 - e)))) with (3 / 2 / ((3 - e) * (3 - e))) by (field; lra).
    apply Rmult_lt_reg_r with ((3 - e) * (3 - e)); [apply Rmult_lt_0_compat; lra|]. unfold Rdiv at 1. rewrite Rmult_assoc, Rinv_l by nra. nra.
  - assert (Et : time_point 1 3 1 = 1). { unfold time_point. cbn [INR]. rewrite Rmult_1_r, Rmax_left, Rmin_left; lra. }
    rewrite Et. unfold delay_pdf. destruct (pdf_peak (to_line 3 1)). split; [apply Rmult_lt_0_compat; lra|]. lra.
  - assert (Et : time_point 1 3 2 = 2). { unfold time_point. cbn [INR]. rewrite Rmult_1_l, Rmax_left, Rmin_left; lra. }
    rewrite Et. unfold delay_pdf. destruct (pdf_peak (to_line 3 2)). split; [apply Rmult_lt_0_compat; lra|]. lra.
Qed.
Example C109_ready_nonvacuous : forall i j, (i < 2)%nat -> (j < 2)%nat ->
  0 < cm_tau (ex_ctm ex_noself) i j /\ misfit 1 3 ex_std ex_w i j (cm_mu (ex_ctm ex_noself) i j) (cm_tau (ex_ctm ex_noself) i j) < misfit_silent ex_std ex_w i j.
Proof.
  intros i j Hi Hj. cbn [ex_ctm cm_tau cm_mu]. split; [lra|]. unfold misfit, misfit_silent. cbn [ex_std p_L].
  assert (Es : forall l, std_response ex_std ex_w i j l = 1).
  { intros l. unfold std_response, std_weight. cbn [ex_std p_B p_bas Rsum]. unfold ex_w. 
    destruct (Nat.eqb j 0); [destruct (Nat.eqb (1 + (i * 1 + 0)) 1)|]; field. }
  cbn [Rsum]. rewrite !Es. pose proof (@ex_pdf 0%nat ltac:(lia)). pose proof (@ex_pdf 1%nat ltac:(lia)). pose proof (@ex_pdf 2%nat ltac:(lia)).
  assert (Hsq : forall x, 0 < x < 2 -> (x - 1) ^ 2 < (0 - 1) ^ 2) by (intros; nra).
  pose proof (Hsq _ H). pose proof (Hsq _ H0). pose proof (Hsq _ H1). lra.
Qed.
