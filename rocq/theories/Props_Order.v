(** * Props_Order: the order of the recordings does not matter (C134). *)
From Coq Require Import FunctionalExtensionality Permutation.
From Verif Require Import Prelude ExtReal Arrays Spec_Order Spec_Relabel M_Basis M_Parents M_Discrete M_Gibbs M_Dist M_Network M_Sweep M_MeanField M_Vlb
  M_Standard M_Continuous L_Discrete L_Gibbs L_Standard L_Relabel Props_Network Props_Gibbs.
Set Implicit Arguments.
Open Scope R_scope.

Lemma reordered_perm {A} n s (l l' : list A) : rearrangement n s -> (n <= length l)%nat -> reordered s l l' -> Permutation l l'.
Proof.
  intros (H1 & H2 & H3) Hn [E H]. apply Permutation_nth_error. split; [auto|]. exists s. split; [|auto].
  intros i j Hij. destruct (Nat.lt_ge_cases i n) as [Hi|Hi]; destruct (Nat.lt_ge_cases j n) as [Hj|Hj].
  - auto.
  - exfalso. specialize (H1 i Hi). rewrite Hij, (H3 j Hj) in H1. lia.
  - exfalso. specialize (H1 j Hj). rewrite <- Hij, (H3 i Hi) in H1. lia.
  - rewrite <- (H3 i Hi), <- (H3 j Hj). exact Hij.
Qed.
Lemma rearr_lt n s i k : rearrangement n s -> (n <= k)%nat -> (i < k)%nat -> (s i < k)%nat.
Proof. intros (H1 & H2 & H3) Hn Hi. destruct (Nat.lt_ge_cases i n) as [H|H]; [specialize (H1 i H); lia|rewrite H3; auto]. Qed.
Lemma reordered_app {A} n s (l l' ps : list A) : rearrangement n s -> (n <= length l)%nat -> reordered s l l' -> reordered s (l ++ ps) (l' ++ ps).
Proof.
  intros Hr Hn [E H]. split; [rewrite !app_length; lia|]. intros i. destruct (Nat.lt_ge_cases i (length l)) as [Hi|Hi].
  - rewrite !nth_error_app1; auto; [|lia]. eapply rearr_lt; eauto.
  - destruct Hr as (H1 & H2 & H3). rewrite (H3 i) by lia. rewrite !nth_error_app2 by lia. now rewrite E.
Qed.

Lemma pool_perm {A} (f : A -> R) l l' : Permutation l l' -> pool f l = pool f l'.
Proof. intros H. rewrite !pool_lsum. apply lsum_perm. now apply Permutation_map. Qed.
Lemma fold_eadd_elsum {A} (f : A -> er) l : forall a, fold_left (fun s d => eadd s (f d)) l a = eadd a (elsum (map f l)).
Proof. induction l as [|x l IH]; intros a; cbn [fold_left map elsum]; [now rewrite eadd_0_r|]. rewrite IH. now rewrite eadd_assoc. Qed.
Lemma fold_eadd_perm {A} (f : A -> er) l l' a : Permutation l l' ->
  fold_left (fun s d => eadd s (f d)) l a = fold_left (fun s d => eadd s (f d)) l' a.
Proof. intros H. rewrite !fold_eadd_elsum. f_equal. apply elsum_perm. now apply Permutation_map. Qed.

(** Element-wise partial maps that also read the position. *)
Section pos.
Variables (A B : Type) (f : nat -> A -> result B).
Fixpoint mapi (i : nat) (l : list A) : result (list B) :=
  match l with [] => Ok [] | x :: l' => do y <- f i x ;; do r <- mapi (S i) l' ;; Ok (y :: r) end.
Lemma mapi_spec l : forall i out, mapi i l = Ok out <->
  length out = length l /\ forall j x, nth_error l j = Some x -> exists y, nth_error out j = Some y /\ f (i + j)%nat x = Ok y.
Proof.
  induction l as [|x l IH]; intros i out; cbn [mapi].
  - split.
    + intros [= <-]. split; [reflexivity|]. intros [|j] x H; discriminate.
    + intros [H _]. destruct out; [reflexivity|discriminate].
  - split.
    + intros H. apply bindr_ok in H. destruct H as (y & Hy & H). apply bindr_ok in H. destruct H as (r & Hr & [= <-]).
      apply IH in Hr. destruct Hr as [E Hr]. split; [cbn; lia|]. intros [|j] z Hz; cbn in *.
      * injection Hz as <-. exists y. now rewrite Nat.add_0_r.
      * destruct (Hr j z Hz) as (w & Hw & Hf). exists w. split; auto. now rewrite <- plus_n_Sm.
    + intros [E H]. destruct out as [|y r]; [discriminate|]. injection E as E.
      destruct (H 0%nat x eq_refl) as (y' & [= <-] & Hf). rewrite Nat.add_0_r in Hf. rewrite Hf. cbn [bindr].
      assert (Hr : mapi (S i) l = Ok r).
      { apply IH. split; [auto|]. intros j z Hz. destruct (H (S j) z Hz) as (w & Hw & Hf'). exists w. split; [exact Hw|].
        now rewrite Nat.add_succ_comm. }
      now rewrite Hr.
Qed.
End pos.
Lemma resample_parents_mapi gsl mult q data : forall i,
  resample_parents gsl mult q i data = mapi (fun j p => pa_resample gsl (mult j) p q) i data.
Proof. induction data as [|p data IH]; intros i; cbn; [reflexivity|]. destruct (pa_resample _ _ _ _); cbn; [|reflexivity]. now rewrite IH. Qed.
Lemma mf_parents_mapi e data : forall i, mf_parents e data = mapi (fun _ p => mf_update_python p e) i data.
Proof. induction data as [|p data IH]; intros i; cbn; [reflexivity|]. destruct (mf_update_python _ _); cbn; [|reflexivity]. now rewrite (IH (S i)). Qed.
Lemma ct_all_mapi m dr data : forall i,
  ct_resample_all m dr i data = mapi (fun j d => ct_parents_resample m (td_norder dr d) (td_u dr j) d) i data.
Proof. induction data as [|p data IH]; intros i; cbn; [reflexivity|]. destruct (ct_parents_resample _ _ _ _); cbn; [|reflexivity]. now rewrite IH. Qed.

(** Rearranging the input rearranges the output. *)
Lemma list_build {B} n (P : nat -> B -> Prop) : (forall i, (i < n)%nat -> exists y, P i y) ->
  exists l, length l = n /\ forall i, (i < n)%nat -> exists y, nth_error l i = Some y /\ P i y.
Proof.
  induction n as [|n IH]; intros H; [exists []; split; [reflexivity|intros; lia]|].
  destruct IH as (l & E & Hl); [intros; apply H; lia|]. destruct (H n) as (y & Hy); [lia|]. exists (l ++ [y]).
  split; [rewrite app_length; cbn; lia|]. intros i Hi. destruct (Nat.eq_dec i n) as [->|Hn].
  - exists y. rewrite nth_error_app2, E, Nat.sub_diag by lia. auto.
  - destruct (Hl i) as (z & Hz & Pz); [lia|]. exists z. rewrite nth_error_app1 by lia. auto.
Qed.
Lemma mapi_reordered {A B} (f f' : nat -> A -> result B) n s l l' out :
  rearrangement n s -> (n <= length l)%nat -> reordered s l l' -> (forall i x, f' i x = f (s i) x) ->
  mapi f 0 l = Ok out -> exists out', mapi f' 0 l' = Ok out' /\ reordered s out out'.
Proof.
  intros Hr Hn [E H] Hf Ho. apply mapi_spec in Ho. destruct Ho as [Eo Ho].
  destruct (@list_build _ (length l) (fun i y => nth_error out (s i) = Some y)) as (out' & E' & H').
  { intros i Hi. assert (Hs := rearr_lt Hr Hn Hi). destruct (nth_error out (s i)) eqn:Ex; eauto.
    apply nth_error_None in Ex. lia. }
  assert (R : reordered s out out').
  { split; [lia|]. intros i. destruct (Nat.lt_ge_cases i (length l)) as [Hi|Hi].
    - destruct (H' i Hi) as (y & -> & ->). reflexivity.
    - destruct Hr as (_ & _ & H3). rewrite H3 by lia.
      rewrite (proj2 (nth_error_None out' i)), (proj2 (nth_error_None out i)) by lia. reflexivity. }
  exists out'. split; [|exact R]. apply mapi_spec. split; [lia|]. intros j x Hx. rewrite H in Hx. destruct (Ho _ _ Hx) as (y & Hy & Fy).
  exists y. split; [rewrite (proj2 R); exact Hy|]. cbn in *. now rewrite Hf.
Qed.
Lemma rearr_onto n s k j : rearrangement n s -> (n <= k)%nat -> (j < k)%nat -> exists i, (i < k)%nat /\ s i = j.
Proof.
  intros (H1 & H2 & H3) Hn Hj. destruct (Nat.lt_ge_cases j n) as [H|H].
  - destruct (@relabelling_onto n s j) as (i & Hi & E); [split; auto|auto|]. exists i. split; [lia|exact E].
  - exists j. split; auto.
Qed.
Lemma mapi_ok_iff {A B} (f : nat -> A -> result B) l :
  (exists out, mapi f 0 l = Ok out) <-> (forall j x, nth_error l j = Some x -> exists y, f j x = Ok y).
Proof.
  split.
  - intros [out H] j x Hx. apply mapi_spec in H. destruct H as [_ H]. destruct (H _ _ Hx) as (y & _ & Hy). eauto.
  - intros H. destruct (@list_build _ (length l) (fun i y => exists x, nth_error l i = Some x /\ f i x = Ok y)) as (out & E & Ho).
    + intros i Hi. destruct (nth_error l i) as [x|] eqn:Ex; [|apply nth_error_None in Ex; lia]. destruct (H _ _ Ex) as (y & Hy). eauto.
    + exists out. apply mapi_spec. split; [exact E|]. intros j x Hx. assert (Hj : (j < length l)%nat) by (apply nth_error_Some; congruence).
      destruct (Ho j Hj) as (y & Hy & x' & Hx' & Fy). exists y. rewrite Hx in Hx'. injection Hx' as <-. auto.
Qed.
Lemma mapi_reordered_back {A B} (f f' : nat -> A -> result B) n s l l' :
  rearrangement n s -> (n <= length l)%nat -> reordered s l l' -> (forall i x, f' i x = f (s i) x) ->
  (exists out', mapi f' 0 l' = Ok out') -> exists out, mapi f 0 l = Ok out.
Proof.
  intros Hr Hn [E H] Hf H'. apply mapi_ok_iff. rewrite mapi_ok_iff in H'. intros j x Hx.
  assert (Hj : (j < length l)%nat) by (apply nth_error_Some; congruence).
  destruct (rearr_onto Hr Hn Hj) as (i & Hi & Ei). specialize (H' i x). rewrite H, Ei in H'. destruct (H' Hx) as (y & Hy).
  exists y. now rewrite <- Ei, <- Hf.
Qed.

(* ------------------------------------------------------------------ *)
(** ** Discrete time: likelihood *)

Lemma ll_sum_from m ds : forall pre acc, dm_data m = pre ++ ds ->
  ll_sum m (map Z.of_nat (seq (length pre) (length ds))) acc = Ok (eadd acc (elsum (map (fun d => pa_ll d (params_of m)) ds))).
Proof.
  induction ds as [|d ds IH]; intros pre acc E; cbn [length seq map ll_sum elsum].
  - now rewrite eadd_0_r.
  - unfold ll_at at 1. rewrite py_index_nat by (rewrite E, app_length; cbn; lia).
    rewrite E at 1. rewrite nth_error_app2, Nat.sub_diag by lia. cbn [nth_error bindr].
    specialize (IH (pre ++ [d]) (eadd acc (pa_ll d (params_of m)))). rewrite app_length, Nat.add_1_r in IH.
    rewrite IH; [now rewrite eadd_assoc|]. rewrite <- app_assoc. exact E.
Qed.
(** Adding the recordings in another order changes no log likelihood; the i-th new recording has the likelihood and rates of the
    recording it was before. *)
Theorem C134_log_likelihood : forall m data' s, rearrangement (length (dm_data m)) s -> reordered s (dm_data m) data' ->
  log_likelihood (with_data m data') All = log_likelihood m All /\
  (forall i, (i < length (dm_data m))%nat ->
     log_likelihood (with_data m data') (One (Z.of_nat i)) = log_likelihood m (One (Z.of_nat (s i))) /\
     compute_rate (with_data m data') (Z.of_nat i) None None = compute_rate m (Z.of_nat (s i)) None None).
Proof.
  intros m data' s Hr Hs. assert (P := reordered_perm Hr (le_n _) Hs). split.
  - cbn [log_likelihood].
    pose proof (@ll_sum_from (with_data m data') data' [] (Fin 0) eq_refl) as H1. pose proof (@ll_sum_from m (dm_data m) [] (Fin 0) eq_refl) as H2.
    cbn [length] in H1, H2. cbn [dm_data with_data]. rewrite H1, H2.
    do 2 f_equal. apply elsum_perm, Permutation_sym, Permutation_map, P.
  - intros i Hi. destruct Hs as [El Hs]. assert (Hsi := rearr_lt Hr (le_n _) Hi). split.
    + cbn [log_likelihood ll_sum]. unfold ll_at. cbn [dm_data with_data]. rewrite !py_index_nat by lia. rewrite Hs. reflexivity.
    + unfold compute_rate, rate_input. cbn [dm_data with_data]. rewrite El, !py_index_nat by lia. rewrite Hs.
      rewrite !(proj2 (Z.ltb_lt _ _)) by lia. reflexivity.
Qed.

(* ------------------------------------------------------------------ *)
(** ** Discrete time: Gibbs sampling *)

Lemma bias_perm g a b l l' : Permutation l l' -> bias_resample g a b l = bias_resample g a b l'.
Proof.
  intros P. apply functional_extensionality. intros k. unfold bias_resample, bias_request.
  now rewrite (pool_perm (fun d => IZR (bkgd_ss0 d k)) P), (pool_perm (fun d => bkgd_ss1 d k) P).
Qed.
Lemma ir_perm dr gamma l l' : Permutation l l' -> ir_resample dr gamma l = ir_resample dr gamma l'.
Proof.
  intros P. unfold ir_resample. do 2 (apply functional_extensionality; intros ?). apply functional_extensionality. intros b.
  f_equal. unfold ir_request. apply functional_extensionality. intros c. now rewrite (pool_perm _ P).
Qed.
Lemma ssW_perm g n A l l' : Permutation l l' -> ss_W_resample g n A l = ss_W_resample g n A l'.
Proof.
  intros P. unfold ss_W_resample, ss_W_request. do 2 (apply functional_extensionality; intros ?).
  now rewrite (pool_perm (fun d => IZR (weight_ss0 d x x0)) P), (pool_perm (fun d => IZR (weight_ss1 d x x0)) P).
Qed.
Lemma mix_ss_perm l l' i j : Permutation l l' -> mix_ss l i j = mix_ss l' i j.
Proof. intros P. unfold mix_ss. now rewrite (pool_perm (fun d => IZR (weight_ss0 d i j)) P), (pool_perm (fun d => IZR (weight_ss1 d i j)) P). Qed.
Lemma mixA_perm lgam k0 n0 n u l l' : Permutation l l' -> mix_resample_A lgam k0 n0 n u l = mix_resample_A lgam k0 n0 n u l'.
Proof. intros P. unfold mix_resample_A. do 2 (apply functional_extensionality; intros ?). now rewrite (mix_ss_perm _ _ P). Qed.
Lemma mixW_perm g k0 n0 n A l l' : Permutation l l' -> mix_W_resample g k0 n0 n A l = mix_W_resample g k0 n0 n A l'.
Proof. intros P. unfold mix_W_resample, mix_W_request. do 2 (apply functional_extensionality; intros ?). now rewrite (mix_ss_perm _ _ P). Qed.
Lemma data_ll_perm m l l' : Permutation l l' -> data_ll m l = data_ll m l'.
Proof. intros P. unfold data_ll. do 2 (apply functional_extensionality; intros ?). now apply fold_eadd_perm. Qed.
Lemma par_ll_perm m l l' : Permutation l l' -> par_ll m l = par_ll m l'.
Proof. intros P. unfold par_ll. do 2 (apply functional_extensionality; intros ?). now apply fold_eadd_perm. Qed.
Lemma Apar_perm order m n u l l' : Permutation l l' -> resample_A_parallel order m n u l = resample_A_parallel order m n u l'.
Proof.
  intros P. unfold resample_A_parallel. destruct l as [|d l].
  - apply Permutation_nil in P. now subst.
  - destruct l' as [|d' l']; [apply Permutation_sym, Permutation_nil in P; discriminate|]. now rewrite (par_ll_perm m P).
Qed.
Lemma Aser_perm m n u l l' : Permutation l l' -> resample_A_serial m n u l = resample_A_serial m n u l'.
Proof. intros P. unfold resample_A_serial. now rewrite (data_ll_perm m P). Qed.
Lemma ss_resample_perm par order g u n m l l' : Permutation l l' ->
  ss_resample par order g u n (with_data m l') = with_data (ss_resample par order g u n (with_data m l)) l'.
Proof.
  intros P. unfold ss_resample. cbn [dm_data dm_A with_data with_A with_W]. rewrite (ssW_perm g n (dm_A m) P).
  set (W := ss_W_resample _ _ _ _).
  change (with_data (with_A ?x ?y) l') with (with_A (with_data x l') y). change (with_data (with_W (with_data m l) W) l') with (with_W (with_data m l') W).
  f_equal. destruct par.
  - rewrite (Apar_perm order _ n u P). reflexivity.
  - rewrite (Aser_perm _ n u P). reflexivity.
Qed.
Lemma mix_resample_perm lgam k0 n0 g u n m l l' : Permutation l l' ->
  mix_resample lgam k0 n0 g u n (with_data m l') = with_data (mix_resample lgam k0 n0 g u n (with_data m l)) l'.
Proof.
  intros P. unfold mix_resample. cbn [dm_data with_data]. rewrite (mixA_perm lgam k0 n0 n u P), (mixW_perm g k0 n0 n _ P). reflexivity.
Qed.

(** The same draws, handed to the same recordings in their new positions. *)
Definition redraw (s : nat -> nat) (d : sweep_draws) : sweep_draws :=
  {| sd_mult := fun i => sd_mult d (s i); sd_bias := sd_bias d; sd_ir := sd_ir d; sd_net := sd_net d; sd_er := sd_er d;
     sd_W := sd_W d; sd_u := sd_u d; sd_order := sd_order d |}.
Definition gi_with_data (st : gibbs) (l : list parents) : gibbs := {| gi_m := with_data (gi_m st) l; gi_net := gi_net st; gi_h := gi_h st |}.
(** The two models hold the same parameters, network and hyperparameters, and the same recordings rearranged by [s]. *)
Definition same_up_to_order (s : nat -> nat) (st st' : gibbs) : Prop :=
  reordered s (dm_data (gi_m st)) (dm_data (gi_m st')) /\ st' = gi_with_data st (dm_data (gi_m st')).


(** Everything a sweep does after the parents. *)
Definition finish (lgam : R -> R) (rn : bool) (d : sweep_draws) (st : gibbs) (data : list parents) : gibbs :=
  let h := gi_h st in
  let m := with_data (gi_m st) data in
  let m := with_lam m (bias_resample (sd_bias d) (h_alpha h) (h_beta h) data) in
  let m := with_g m (ir_resample (sd_ir d) (h_gamma h) data) in
  if dm_mix (gi_m st) then
    let m := mix_resample lgam (h_kappa0 h) (h_nu0 h) (sd_W d) (sd_u d) (net_view (gi_net st)) m in
    {| gi_m := m; gi_net := if rn then net_resample lgam (sd_net d) (sd_er d) (dm_A m) (dm_W m) (gi_net st) else gi_net st; gi_h := h |}
  else
    let no := net_resample lgam (sd_net d) (sd_er d) (dm_A m) (dm_W m) (gi_net st) in
    {| gi_m := ss_resample (h_parallel h) (sd_order d) (sd_W d) (sd_u d) (net_view no) m; gi_net := no; gi_h := h |}.
Lemma sweep_finish lgam rn d st : sweep lgam rn d st =
  do data <- mapi (fun j p => pa_resample (h_gsl (gi_h st)) (sd_mult d j) p (params_of (gi_m st))) 0 (dm_data (gi_m st)) ;;
  Ok (finish lgam rn d st data).
Proof.
  unfold sweep, finish, mix_sweep, ss_sweep. rewrite !resample_parents_mapi. destruct (dm_mix (gi_m st)); reflexivity.
Qed.
Lemma finish_perm lgam rn d s st l0 l l' : Permutation l l' ->
  finish lgam rn (redraw s d) (gi_with_data st l0) l' = gi_with_data (finish lgam rn d st l) l'.
Proof.
  intros P. unfold finish. cbn [gi_with_data gi_m gi_h gi_net dm_mix with_data redraw sd_bias sd_ir sd_net sd_er sd_W sd_u sd_order].
  rewrite <- (bias_perm (sd_bias d) (h_alpha (gi_h st)) (h_beta (gi_h st)) P), <- (ir_perm (sd_ir d) (h_gamma (gi_h st)) P).
  set (lam := bias_resample _ _ _ _). set (g := ir_resample _ _ _).
  change (with_g (with_lam (with_data (with_data (gi_m st) l0) l') lam) g) with (with_data (with_g (with_lam (gi_m st) lam) g) l').
  change (with_g (with_lam (with_data (gi_m st) l) lam) g) with (with_data (with_g (with_lam (gi_m st) lam) g) l).
  destruct (dm_mix (gi_m st)).
  - rewrite (mix_resample_perm lgam _ _ (sd_W d) (sd_u d) (net_view (gi_net st)) _ P). reflexivity.
  - cbn [dm_A dm_W with_data].
    rewrite (ss_resample_perm (h_parallel (gi_h st)) (sd_order d) (sd_W d) (sd_u d) _ _ P). reflexivity.
Qed.
Lemma finish_data lgam rn d st l : dm_data (gi_m (finish lgam rn d st l)) = l.
Proof. unfold finish. destruct (dm_mix (gi_m st)); reflexivity. Qed.

Lemma sweep_order lgam rn d st st' s n : rearrangement n s -> (n <= length (dm_data (gi_m st)))%nat -> same_up_to_order s st st' ->
  (forall st1, sweep lgam rn d st = Ok st1 ->
     exists st1', sweep lgam rn (redraw s d) st' = Ok st1' /\ same_up_to_order s st1 st1' /\
       length (dm_data (gi_m st1)) = length (dm_data (gi_m st))) /\
  ((exists st1', sweep lgam rn (redraw s d) st' = Ok st1') -> exists st1, sweep lgam rn d st = Ok st1).
Proof.
  intros Hr Hn [Hs E]. set (data' := dm_data (gi_m st')) in *. clearbody data'. subst st'.
  set (q := params_of (gi_m st)). set (gsl := h_gsl (gi_h st)).
  assert (HR := fun out => @mapi_reordered _ _ (fun j p => pa_resample gsl (sd_mult d j) p q) (fun j p => pa_resample gsl (sd_mult d (s j)) p q)
     n s (dm_data (gi_m st)) data' out Hr Hn Hs (fun _ _ => eq_refl)).
  assert (HB := @mapi_reordered_back _ _ (fun j p => pa_resample gsl (sd_mult d j) p q) (fun j p => pa_resample gsl (sd_mult d (s j)) p q)
     n s (dm_data (gi_m st)) data' Hr Hn Hs (fun _ _ => eq_refl)).
  rewrite !sweep_finish. cbn [gi_with_data gi_h gi_m with_data dm_data redraw sd_mult]. change (params_of (with_data (gi_m st) data')) with q.
  change (params_of (gi_m st)) with q. fold gsl.
  split.
  - intros st1 H. apply bindr_ok in H. destruct H as (out & Ho & [= <-]).
    destruct (HR out Ho) as (out' & Ho' & Hs'). exists (gi_with_data (finish lgam rn d st out) out').
    assert (El : length out = length (dm_data (gi_m st))) by (apply mapi_spec in Ho; apply Ho).
    split; [|split].
    + rewrite Ho'. cbn [bindr]. f_equal. apply finish_perm. eapply reordered_perm; eauto; lia.
    + split; [|reflexivity]. rewrite finish_data. exact Hs'.
    + now rewrite finish_data.
  - intros [st1' H]. apply bindr_ok in H. destruct H as (out' & Ho' & _). destruct HB as (out & Ho); [eauto|].
    rewrite Ho. cbn [bindr]. eauto.
Qed.

Lemma add_data_frame m s f mb : exists ps r, forall l, add_data_st (with_data m l) s f mb = (r, with_data m (l ++ ps)).
Proof.
  unfold add_data_st. cbn [dm_K with_data]. destruct (check_S (dm_K m) s) as [T|e].
  2:{ exists [], (Raise e). intros l. now rewrite app_nil_r. }
  assert (HF : forall l, get_F (with_data m l) T s f = get_F m T s f) by (intros; reflexivity).
  destruct (get_F m T s f) as [F|e] eqn:EF.
  2:{ exists [], (Raise e). intros l. now rewrite HF, app_nil_r. }
  destruct mb as [n|].
  2:{ exists [mk_parents (dm_K m) (dm_B m) (dm_dt m) T (sv_at s) F], (Ok tt). intros l. rewrite HF. reflexivity. }
  destruct (Z.eqb n 0).
  { exists [], (Raise ZeroDivisionError). intros l. now rewrite HF, app_nil_r. }
  destruct (Z.ltb n 0).
  { exists [], (Ok tt). intros l. now rewrite HF, app_nil_r. }
  exists (map (fun off => mk_parents (dm_K m) (dm_B m) (dm_dt m) (Nat.min (off + Z.to_nat n) T - off)
            (slice2 off (sv_at s)) (slice3 off F)) (offsets T T (Z.to_nat n) 0)), (Ok tt).
  intros l. rewrite HF. f_equal. revert l. induction (offsets T T (Z.to_nat n) 0) as [|o os IH]; intros l; cbn [fold_left map].
  - now rewrite app_nil_r.
  - unfold append_data at 2. cbn [dm_K dm_B dm_dt dm_data with_data].
    change (with_data (with_data m l) ?x) with (with_data m x). rewrite IH. now rewrite <- app_assoc.
Qed.

(** The same history, every sweep with its draws handed to the same recordings. *)
Definition reop (s : nat -> nat) (o : gop) : gop := match o with GSweep rn d => GSweep rn (redraw s d) | GAdd a f mb => GAdd a f mb end.
(** A sampler whose first recordings were added in another order, given the same random numbers, goes through the same parameter
    values - background rates, weights, adjacency, impulse responses and network - whatever is added and sampled later, and attributes
    the events of every recording to the same parents. *)
Theorem C134_gibbs_histories : forall lgam s n h st st', rearrangement n s -> (n <= length (dm_data (gi_m st)))%nat ->
  same_up_to_order s st st' -> same_up_to_order s (grun lgam h st) (grun lgam (map (reop s) h) st').
Proof.
  intros lgam s n h. induction h as [|o h IH]; intros st st' Hr Hn Hs; [exact Hs|]. cbn [map grun].
  destruct o as [a f mb | rn d]; cbn [reop gstep].
  - destruct (@add_data_frame (gi_m st) a f mb) as (ps & r & Hf). destruct Hs as [Hs E].
    set (data' := dm_data (gi_m st')) in *. clearbody data'. subst st'. cbn [gi_with_data gi_m].
    assert (E0 : add_data_st (gi_m st) a f mb = (r, with_data (gi_m st) (dm_data (gi_m st) ++ ps))).
    { rewrite <- Hf. f_equal. destruct st as [[] ? ?]. reflexivity. }
    rewrite E0, Hf. cbn [snd]. apply IH; auto.
    + cbn. rewrite app_length. lia.
    + split; [|reflexivity]. cbn. eapply reordered_app; eauto.
  - destruct (@sweep_order lgam rn d st st' s n Hr Hn Hs) as [H1 H2].
    destruct (sweep lgam rn d st) as [st1|e] eqn:E1.
    + destruct (H1 st1 eq_refl) as (st1' & -> & Hs1 & El). cbn [snd]. apply IH; auto. lia.
    + destruct (sweep lgam rn (redraw s d) st') as [st1'|e'] eqn:E2; cbn [snd]; [|apply IH; auto].
      destruct H2 as (st1 & H2); [eauto|]. discriminate.
Qed.
(** In particular after recordings were added in two different orders; outcomes of the calls agree too. *)
Theorem C134_gibbs_sweep : forall lgam s rn d st st', rearrangement (length (dm_data (gi_m st))) s -> same_up_to_order s st st' ->
  (forall st1, sweep lgam rn d st = Ok st1 -> exists st1', sweep lgam rn (redraw s d) st' = Ok st1' /\ same_up_to_order s st1 st1') /\
  ((exists st1', sweep lgam rn (redraw s d) st' = Ok st1') -> exists st1, sweep lgam rn d st = Ok st1).
Proof.
  intros lgam s rn d st st' Hr Hs. destruct (@sweep_order lgam rn d st st' s _ Hr (le_n _) Hs) as [H1 H2]. split; [|exact H2].
  intros st1 H. destruct (H1 st1 H) as (st1' & A & B & _). eauto.
Qed.

(* ------------------------------------------------------------------ *)
(** ** Discrete time: variational inference *)
Definition mm_with_data (m : mfmodel) (l : list parents) : mfmodel :=
  {| mm_h := mm_h m; mm_bias := mm_bias m; mm_gamma := mm_gamma m; mm_w := mm_w m; mm_net := mm_net m; mm_data := l; mm_off := mm_off m |}.
Lemma bias_mf_perm a b l l' x : Permutation l l' -> bias_mf a b l x = bias_mf a b l' x.
Proof.
  intros P. unfold bias_mf, mf_update_lambda0. destruct l as [|d l].
  - apply Permutation_nil in P. now subst.
  - destruct l' as [|d' l']; [apply Permutation_sym, Permutation_nil in P; discriminate|]. do 2 f_equal; apply functional_extensionality; intros k;
    now rewrite (pool_perm _ P).
Qed.
Lemma ir_mf_perm g l l' x : Permutation l l' -> ir_mf g l x = ir_mf g l' x.
Proof. intros P. unfold ir_mf, mf_update_gamma. do 3 (apply functional_extensionality; intros ?). now rewrite (pool_perm _ P). Qed.
Lemma weights_mf_perm lgam k0 n0 n l l' w : Permutation l l' -> weights_mf lgam k0 n0 n l w = weights_mf lgam k0 n0 n l' w.
Proof.
  intros P. unfold weights_mf, meanfieldupdate_kappa_v. destruct l as [|d l].
  - apply Permutation_nil in P. now subst.
  - destruct l' as [|d' l']; [apply Permutation_sym, Permutation_nil in P; discriminate|]. cbn [bindr]. do 2 f_equal.
    f_equal; do 2 (apply functional_extensionality; intros ?); now rewrite (pool_perm _ P).
Qed.
Lemma mf_get_vlb_perm lgam psi m l l' : Permutation l l' -> mf_get_vlb lgam psi (mm_with_data m l) = mf_get_vlb lgam psi (mm_with_data m l').
Proof.
  intros P. unfold mf_get_vlb. cbn [mm_with_data mm_h mm_bias mm_gamma mm_w mm_net mm_data].
  change (data_vlb psi (mm_with_data m ?x)) with (data_vlb psi m).
  rewrite (fold_eadd_perm (fun d => data_vlb psi m d) (Fin 0) P). reflexivity.
Qed.
(** A coordinate-ascent step on recordings added in another order gives the same variational parameters and returns the same bound. *)
Theorem C134_mean_field : forall lgam psi s m l m1 v, rearrangement (length (mm_data m)) s -> reordered s (mm_data m) l ->
  mf_cd_step lgam psi m = Ok (m1, v) ->
  exists l1, mf_cd_step lgam psi (mm_with_data m l) = Ok (mm_with_data m1 l1, v) /\ reordered s (mm_data m1) l1 /\
    length (mm_data m1) = length (mm_data m).
Proof.
  intros lgam psi s m l m1 v Hr Hs H. unfold mf_cd_step, mf_batch_step in *.
  apply bindr_ok in H. destruct H as (m1' & Hb & H). apply bindr_ok in H. destruct H as (v' & Hv & [= -> ->]).
  apply bindr_ok in Hb. destruct Hb as (data & Hd & Hb). apply bindr_ok in Hb. destruct Hb as (b & Eb & Hb).
  apply bindr_ok in Hb. destruct Hb as (n & En & Hb). apply bindr_ok in Hb. destruct Hb as (w & Ew & Hb).
  apply bindr_ok in Hb. destruct Hb as (no & Eno & [= <-]).
  rewrite (@mf_parents_mapi _ _ 0) in Hd.
  destruct (@mapi_reordered _ _ (fun _ p => mf_update_python p (mf_in_of psi m)) (fun _ p => mf_update_python p (mf_in_of psi m)) _ s
     (mm_data m) l data Hr (le_n _) Hs (fun _ _ => eq_refl) Hd) as (data' & Hd' & Hs').
  assert (El : length data = length (mm_data m)) by (apply mapi_spec in Hd; apply Hd).
  assert (P : Permutation data data') by (eapply reordered_perm; eauto; lia).
  exists data'. cbn [mm_with_data mm_h mm_bias mm_gamma mm_w mm_net mm_data mm_off] in *.
  split; [|split; [exact Hs'|exact El]].
  rewrite (@mf_parents_mapi _ _ 0). change (mf_in_of psi (mm_with_data m l)) with (mf_in_of psi m). rewrite Hd'. cbn [bindr].
  rewrite <- (bias_mf_perm _ _ _ P), Eb. cbn [bindr]. rewrite En. cbn [bindr].
  rewrite <- (weights_mf_perm _ _ _ _ _ P), Ew. cbn [bindr]. rewrite Eno. cbn [bindr].
  rewrite <- (ir_mf_perm _ _ P).
  match goal with |- (do v0 <- mf_get_vlb _ _ ?x ;; _) = _ => set (X := x) end.
  match type of Hv with mf_get_vlb _ _ ?y = _ => set (Y := y) in * end.
  change X with (mm_with_data Y data'). change Y with (mm_with_data Y data) in Hv. rewrite (mf_get_vlb_perm lgam psi Y P) in Hv.
  rewrite Hv. reflexivity.
Qed.
Theorem C134_vlb : forall lgam psi m l, Permutation (mm_data m) l -> mf_get_vlb lgam psi (mm_with_data m l) = mf_get_vlb lgam psi m.
Proof.
  intros lgam psi m l P. rewrite <- (mf_get_vlb_perm lgam psi m P). f_equal. destruct m; reflexivity.
Qed.

(* ------------------------------------------------------------------ *)
(** ** The standard model *)
Definition grow (allow : bool) (P B k : nat) (w : vec) (g : vec) : result vec :=
  if allow then Ok g
  else if forall_lt P (fun j => if self_block B k j then close0 (w j) else true)
       then Ok (fun j => if self_block B k j then 0 else g j) else Raise AssertionError.
Lemma s_gradient_grow m k w ds : s_gradient_row m k w ds = grow (sm_allow m) (sm_P m) (sm_B m) k w
  (fun j => lsum (map (fun d => s_grad_data m k w d j) ds) + s_grad_prior (sm_alpha m) (sm_beta m) w j).
Proof. reflexivity. Qed.
Lemma s_compute_gradient_perm m l k : Permutation (sm_data m) l -> s_compute_gradient (sm_with_data m l) k All = s_compute_gradient m k All.
Proof.
  intros P. unfold s_compute_gradient. rewrite !s_data_list_all. cbn [bindr sm_K sm_data sm_with_data sm_w].
  destruct (Nat.ltb k (sm_K m)); [|reflexivity]. rewrite !s_gradient_grow. cbn [sm_with_data sm_allow sm_B sm_alpha sm_beta].
  change (sm_P (sm_with_data m l)) with (sm_P m). f_equal. apply functional_extensionality. intros j. f_equal.
  apply lsum_perm, Permutation_sym. apply Permutation_map. exact P.
Qed.
Lemma s_gd_row_perm m l e k : Permutation (sm_data m) l ->
  s_gd_row (sm_with_data m l) e k = do m1 <- s_gd_row m e k ;; Ok (sm_with_data m1 l).
Proof.
  intros P. unfold s_gd_row. rewrite (@s_compute_gradient_perm m l k P). destruct (s_compute_gradient m k All); reflexivity.
Qed.
Lemma s_gd_perm m l e : Permutation (sm_data m) l ->
  s_gradient_descent_step (sm_with_data m l) e = do m1 <- s_gradient_descent_step m e ;; Ok (sm_with_data m1 l).
Proof.
  intros P. unfold s_gradient_descent_step. cbn [sm_K sm_with_data]. generalize (seq 0 (sm_K m)) as ks. intros ks. revert m P.
  induction ks as [|k ks IH]; intros m P; cbn [s_rows]; [reflexivity|].
  rewrite (@s_gd_row_perm m l e k P). unfold s_gd_row. destruct (s_compute_gradient m k All) as [g|ex]; [|reflexivity]. cbn [bindr].
  match goal with |- s_rows _ (sm_with_data ?x _) _ = _ => change (s_rows (fun m0 k0 => s_gd_row m0 e k0) (sm_with_data x l) ks =
    do m1 <- s_rows (fun m0 k0 => s_gd_row m0 e k0) x ks ;; Ok (sm_with_data m1 l)); apply IH end.
  exact P.
Qed.
(** The standard model: likelihood, posterior, gradient, background-rate initialisation and gradient steps do not depend on the order
    in which the recordings were added. *)
Theorem C134_standard_model : forall m l, Permutation (sm_data m) l ->
  (forall ks lk, s_ks m ks = Ok lk -> s_log_likelihood (sm_with_data m l) All ks = s_log_likelihood m All ks) /\
  (forall ks lk, s_ks m (match ks with KNone => KArr (seq 0 (sm_K m)) | _ => ks end) = Ok lk ->
     s_log_posterior (sm_with_data m l) All ks = s_log_posterior m All ks) /\
  (forall k, s_compute_gradient (sm_with_data m l) k All = s_compute_gradient m k All) /\
  s_init_background (sm_with_data m l) = sm_with_data (s_init_background m) l /\
  (forall e, s_gradient_descent_step (sm_with_data m l) e = do m1 <- s_gradient_descent_step m e ;; Ok (sm_with_data m1 l)).
Proof.
  intros m l P.
  assert (HL : forall ks lk, s_ks m ks = Ok lk -> s_log_likelihood (sm_with_data m l) All ks = s_log_likelihood m All ks).
  { intros ks lk E. rewrite (@s_ll_all m ks lk E), (@s_ll_all (sm_with_data m l) ks lk E). f_equal. cbn [sm_data sm_with_data].
    apply elsum_perm, Permutation_sym. apply Permutation_map. exact P. }
  split; [exact HL|]. split; [|split; [|split]].
  - intros ks lk E. unfold s_log_posterior. cbn [sm_K sm_with_data]. rewrite (HL _ _ E). reflexivity.
  - intros k. now apply s_compute_gradient_perm.
  - unfold s_init_background. cbn [sm_data sm_with_data]. destruct (sm_data m) as [|d ds].
    + apply Permutation_nil in P. subst. reflexivity.
    + destruct l as [|d' l']; [apply Permutation_sym, Permutation_nil in P; discriminate|].
      unfold sm_with_w, sm_with_data. cbn [sm_K sm_B sm_dt sm_alpha sm_beta sm_allow sm_L sm_bas sm_w sm_data]. f_equal.
      apply functional_extensionality. intros k. apply functional_extensionality. intros [|j]; [|reflexivity].
      unfold Rdiv. f_equal; [|apply f_equal]; apply lsum_perm, Permutation_sym; apply Permutation_map; exact P.
  - intros e. now apply s_gd_perm.
Qed.

(* ------------------------------------------------------------------ *)
(** ** Continuous time *)
Definition ct_redraw (s : nat -> nat) (d : ct_draws) : ct_draws :=
  {| td_u := fun i => td_u d (s i); td_norder := td_norder d; td_bias := td_bias d; td_g := td_g d; td_nrm := td_nrm d; td_net := td_net d;
     td_er := td_er d; td_W := td_W d; td_uA := td_uA d; td_order := td_order d |}.
Theorem C134_ct_log_likelihood : forall order m l, Permutation (cm_data m) l ->
  ct_log_likelihood order (cm_with_data m l) None = ct_log_likelihood order m None.
Proof.
  intros order m l P. unfold ct_log_likelihood. cbn [cm_data cm_with_data cm_set].
  change (ct_ll_data order (cm_with_data m l)) with (ct_ll_data order m). symmetry. apply (fold_eadd_perm (ct_ll_data order m) (Fin 0) P).
Qed.
Lemma nig_perm l l' j : Permutation l l' -> nig_stats l j = nig_stats l' j.
Proof. intros P. unfold nig_stats. do 2 (apply functional_extensionality; intros ?). now rewrite (pool_perm _ P). Qed.
Lemma ctW_perm g n A l l' : Permutation l l' -> ct_W_resample g n A l = ct_W_resample g n A l'.
Proof.
  intros P. unfold ct_W_resample, ct_W_request. do 2 (apply functional_extensionality; intros ?).
  now rewrite (pool_perm (fun d => cd_weight d x x0) P), (pool_perm (fun d => IZR (cd_Ns d x)) P).
Qed.
Lemma ct_single_perm m irs l l' : Permutation l l' -> ct_ll_single m irs l = ct_ll_single m irs l'.
Proof. intros P. unfold ct_ll_single. do 2 (apply functional_extensionality; intros ?). now apply fold_eadd_perm. Qed.
Lemma ct_weights_perm order no g u m l l' : Permutation l l' ->
  ct_weights_resample order no g u (cm_with_data m l') l' = cm_with_data (ct_weights_resample order no g u (cm_with_data m l) l) l'.
Proof.
  intros P. unfold ct_weights_resample. cbn [cm_with_data cm_set cm_net cm_A cm_lam cm_mu cm_tau cm_data cm_par cm_K cm_W].
  rewrite (ctW_perm g (net_view (cm_net m)) (cm_A m) P). set (W := ct_W_resample _ _ _ _). cbv zeta.
  pose (X' := cm_set m (cm_lam m) (cm_A m) W (cm_mu m) (cm_tau m) (cm_net m) l').
  pose (X := cm_set m (cm_lam m) (cm_A m) W (cm_mu m) (cm_tau m) (cm_net m) l).
  assert (E : ct_ll_single X' (fun d => ct_irs (no d) X' d) l' = ct_ll_single X (fun d => ct_irs (no d) X d) l).
  { symmetry. etransitivity; [apply (@ct_single_perm X (fun d => ct_irs (no d) X d) l l' P)|reflexivity]. }
  assert (EA : (if cm_par X' then match l' with
                 | [] => fun k1 k2 => Rltb (u k1 k2) (n_P (net_view (cm_net m)) k1 k2)
                 | _ => ct_A_parallel order (ct_ll_single X' (fun d => ct_irs (no d) X' d) l') (n_P (net_view (cm_net m))) u (cm_K X') (cm_A X')
                 end else ct_A_serial (ct_ll_single X' (fun d => ct_irs (no d) X' d) l') (n_P (net_view (cm_net m))) u (cm_K X') (cm_A X')) =
               (if cm_par X then match l with
                 | [] => fun k1 k2 => Rltb (u k1 k2) (n_P (net_view (cm_net m)) k1 k2)
                 | _ => ct_A_parallel order (ct_ll_single X (fun d => ct_irs (no d) X d) l) (n_P (net_view (cm_net m))) u (cm_K X) (cm_A X)
                 end else ct_A_serial (ct_ll_single X (fun d => ct_irs (no d) X d) l) (n_P (net_view (cm_net m))) u (cm_K X) (cm_A X))).
  { rewrite E. change (cm_par X') with (cm_par X). change (cm_K X') with (cm_K X). change (cm_A X') with (cm_A X).
    destruct (cm_par X); [|reflexivity]. destruct l as [|d l].
    - apply Permutation_nil in P. now subst.
    - destruct l' as [|d' l']; [apply Permutation_sym, Permutation_nil in P; discriminate|]. reflexivity. }
  etransitivity; [|exact (f_equal (fun A => cm_set X' (cm_lam X') A (cm_W X') (cm_mu X') (cm_tau X') (cm_net X') l') EA)]. reflexivity.
Qed.
(** Everything a continuous-time sweep does after the parents. *)
Definition ct_finish (lgam : R -> R) (dr : ct_draws) (m : ctmodel) (data : list ctdata) : ctmodel :=
  let m := cm_with_data m data in
  let m := cm_set m (ct_bias_resample (td_bias dr) m data) (cm_A m) (cm_W m) (cm_mu m) (cm_tau m) (cm_net m) data in
  let mt := ct_imp_resample (td_g dr) (td_nrm dr) m data in
  let m := cm_set m (cm_lam m) (cm_A m) (cm_W m) (fun a b => fst (mt a b)) (fun a b => snd (mt a b)) (cm_net m) data in
  let no := net_resample lgam (td_net dr) (td_er dr) (cm_A m) (cm_W m) (cm_net m) in
  let m := cm_set m (cm_lam m) (cm_A m) (cm_W m) (cm_mu m) (cm_tau m) no data in
  ct_weights_resample (td_order dr) (td_norder dr) (td_W dr) (td_uA dr) m data.
Lemma ct_sweep_finish lgam dr m : ct_sweep lgam dr m =
  do data <- mapi (fun j d => ct_parents_resample m (td_norder dr d) (td_u dr j) d) 0 (cm_data m) ;; Ok (ct_finish lgam dr m data).
Proof. unfold ct_sweep. rewrite ct_all_mapi. reflexivity. Qed.
Lemma ct_bias_same g m l l' : (forall k, ct_bias_ss (map cd_stat l) k = ct_bias_ss (map cd_stat l') k) -> ct_bias_resample g m l = ct_bias_resample g m l'.
Proof. intros H. apply functional_extensionality. intros k. unfold ct_bias_resample, ct_bias_request. now rewrite H. Qed.
Lemma ct_finish_perm lgam dr s m l0 l l' : Permutation l l' ->
  (forall k, ct_bias_ss (map cd_stat l) k = ct_bias_ss (map cd_stat l') k) ->
  ct_finish lgam (ct_redraw s dr) (cm_with_data m l0) l' = cm_with_data (ct_finish lgam dr m l) l'.
Proof.
  intros P Hb. unfold ct_finish. cbn [ct_redraw td_bias td_g td_nrm td_net td_er td_order td_norder td_W td_uA]. cbv zeta.
  set (lam := ct_bias_resample (td_bias dr) m l).
  assert (E1 : ct_bias_resample (td_bias dr) m l' = lam) by (symmetry; now apply ct_bias_same).
  set (mt := ct_imp_resample (td_g dr) (td_nrm dr) m l).
  assert (E2 : ct_imp_resample (td_g dr) (td_nrm dr) m l' = mt).
  { unfold mt, ct_imp_resample, ct_imp_request. do 2 (apply functional_extensionality; intros ?).
    now rewrite (nig_perm 0 P), (nig_perm 1 P), (nig_perm 2 P). }
  set (no := net_resample lgam (td_net dr) (td_er dr) (cm_A m) (cm_W m) (cm_net m)).
  set (M := cm_set m lam (cm_A m) (cm_W m) (fun a b => fst (mt a b)) (fun a b => snd (mt a b)) no []).
  change (ct_weights_resample (td_order dr) (td_norder dr) (td_W dr) (td_uA dr)
    (cm_set m (ct_bias_resample (td_bias dr) m l') (cm_A m) (cm_W m) (fun a b => fst (ct_imp_resample (td_g dr) (td_nrm dr) m l' a b))
       (fun a b => snd (ct_imp_resample (td_g dr) (td_nrm dr) m l' a b)) no l') l' =
    cm_with_data (ct_weights_resample (td_order dr) (td_norder dr) (td_W dr) (td_uA dr) (cm_with_data M l) l) l').
  rewrite E1, E2. rewrite <- (ct_weights_perm _ _ _ _ M P). reflexivity.
Qed.

Lemma ct_bias_last l d k : ct_bias_ss (map cd_stat (l ++ [d])) k = (cd_bkgd d k, cd_T d).
Proof. unfold ct_bias_ss. rewrite map_app, fold_left_app. reflexivity. Qed.
Lemma last_split {A} (l : list A) n : length l = S n -> exists l0 d, l = l0 ++ [d] /\ nth_error l n = Some d.
Proof.
  intros E. destruct (@exists_last _ l) as (l0 & d & ->); [intros ->; discriminate|]. rewrite app_length in E. cbn in E.
  exists l0, d. split; [reflexivity|]. rewrite nth_error_app2 by lia. replace (n - length l0)%nat with 0%nat by lia. reflexivity.
Qed.
(** A continuous-time sweep: the order of the recordings matters only through which recording comes last. *)
Theorem C134_ct_sweep_partial : forall lgam s dr m l m1, rearrangement (length (cm_data m)) s -> reordered s (cm_data m) l ->
  s (length (cm_data m) - 1)%nat = (length (cm_data m) - 1)%nat ->
  ct_sweep lgam dr m = Ok m1 ->
  exists l1, ct_sweep lgam (ct_redraw s dr) (cm_with_data m l) = Ok (cm_with_data m1 l1) /\ reordered s (cm_data m1) l1.
Proof.
  intros lgam s dr m l m1 Hr Hs Hlast H. rewrite ct_sweep_finish in *. apply bindr_ok in H. destruct H as (out & Ho & [= <-]).
  destruct (@mapi_reordered _ _ (fun j d => ct_parents_resample m (td_norder dr d) (td_u dr j) d)
     (fun j d => ct_parents_resample m (td_norder dr d) (td_u dr (s j)) d) _ s (cm_data m) l out Hr (le_n _) Hs (fun _ _ => eq_refl) Ho)
    as (out' & Ho' & Hs').
  assert (El : length out = length (cm_data m)) by (apply mapi_spec in Ho; apply Ho).
  assert (P : Permutation out out') by (eapply reordered_perm; eauto; lia).
  exists out'. split; [|exact Hs'].
  change ((do data <- mapi (fun j d => ct_parents_resample m (td_norder dr d) (td_u dr (s j)) d) 0 l ;;
          Ok (ct_finish lgam (ct_redraw s dr) (cm_with_data m l) data)) = Ok (cm_with_data (ct_finish lgam dr m out) out')).
  rewrite Ho'. cbn [bindr]. f_equal. apply ct_finish_perm; [exact P|]. intros k.
  destruct (length (cm_data m)) as [|n] eqn:En.
  - destruct out; [|discriminate]. apply Permutation_nil in P. now subst.
  - cbn in Hlast. rewrite Nat.sub_0_r in Hlast. destruct Hs' as [El' Hs'].
    destruct (@last_split _ out n El) as (o & d & Eo & Hd). destruct (@last_split _ out' n) as (o' & d' & Eo' & Hd'); [lia|].
    rewrite Hs', Hlast, Hd in Hd'. injection Hd' as <-. rewrite Eo, Eo', !ct_bias_last. reflexivity.
Qed.
(** It does matter when the last recording changes: the background rates of a two-recording model are drawn from another distribution
    when the recordings are swapped (the finding of C23). *)
Theorem C134_ct_background_refuted : exists (alpha beta : R) (d1 d2 : ct_stat), forall k,
  ct_bias_request alpha beta [d1; d2] k <> ct_bias_request alpha beta [d2; d1] k /\
  fst (ct_bias_request alpha beta [d1; d2] k) <> fst (ct_bias_request alpha beta [d2; d1] k).
Proof.
  exists 1, 1, {| cs_bkgd := fun _ => 3; cs_T := 10 |}, {| cs_bkgd := fun _ => 5; cs_T := 10 |}. intros k. cbn.
  assert (H : 1 + 5 <> 1 + 3) by lra. split; [intros E; injection E as E1; lra|exact H].
Qed.

(** Two recordings swapped. *)
Definition swap2 (i : nat) : nat := match i with O => 1%nat | S O => 0%nat | _ => i end.
Example C134_nonvacuous : rearrangement 2 swap2 /\ reordered swap2 [10; 20]%Z [20; 10]%Z /\
  rearrangement 3 swap2 /\ swap2 (3 - 1)%nat = (3 - 1)%nat.
Proof.
  assert (H : forall i, (i < 2)%nat -> i = 0%nat \/ i = 1%nat) by (intros; lia).
  repeat split; cbn.
  - intros i Hi. destruct (H i Hi) as [-> | ->]; cbn; lia.
  - intros i j Hi Hj. destruct (H i Hi) as [-> | ->], (H j Hj) as [-> | ->]; cbn; lia.
  - intros [|[|i]] Hi; cbn; lia.
  - intros [|[|[|i]]]; reflexivity.
  - intros [|[|i]] Hi; cbn; lia.
  - intros [|[|i]] [|[|j]] Hi Hj; cbn; lia.
  - intros [|[|i]] Hi; cbn; lia.
Qed.
Example C134_nonvacuous_sampler : forall st p q, dm_data (gi_m st) = [p; q] -> same_up_to_order swap2 st (gi_with_data st [q; p]).
Proof. intros st p q E. split; [|reflexivity]. cbn. rewrite E. split; [reflexivity|]. intros [|[|[|i]]]; reflexivity. Qed.

Print Assumptions C134_log_likelihood.
Print Assumptions C134_gibbs_histories.
Print Assumptions C134_gibbs_sweep.
Print Assumptions C134_mean_field.
Print Assumptions C134_vlb.
Print Assumptions C134_standard_model.
Print Assumptions C134_ct_log_likelihood.
Print Assumptions C134_ct_sweep_partial.
Print Assumptions C134_ct_background_refuted.
