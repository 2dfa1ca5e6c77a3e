(** * Props_Gibbs: C20-C26, C28, Gibbs updates of the discrete-time models (and the
    continuous-time background update, C23). *)
From Coq Require Import Permutation.
From Coquelicot Require Import Coquelicot.
From Verif Require Import Prelude ExtReal Arrays Spec_Basis Spec_Discrete Spec_Parents Spec_Gibbs
  M_Basis M_Parents M_Discrete M_Gibbs L_Discrete L_Minibatch L_Parents L_Gibbs Props_Discrete Props_Parents.
Set Implicit Arguments.
Open Scope R_scope.

(** No event is attributed a negative number of times. *)
Definition nonneg_Z (d : parents) : Prop := forall t k c, (0 <= attributed d t k c)%Z.

Lemma bkgd_ss0_nonneg d k : nonneg_Z d -> (0 <= bkgd_ss0 d k)%Z.
Proof. intros H. rewrite (proj1 (C15_statistics_meaning d k)). apply Zsum_nonneg. intros; apply H. Qed.
Lemma lsum_map_nonneg {A} (f : A -> R) l : (forall x, In x l -> 0 <= f x) -> 0 <= lsum (map f l).
Proof. intros H. apply lsum_nonneg. intros x Hx. apply in_map_iff in Hx as (y & <- & Hy). auto. Qed.

(* ------------------------------------------------------------------ *)
(** ** C20 *)

(** The background update draws lambda0[k] from a gamma law (shape a, scale s) whose
    density is prior x likelihood of the background events: in every data set, the
    events of every bin attributed to the background, each bin observed for dt. *)
Theorem C20_background_posterior :
  forall lgam (g : gam1) alpha beta data k,
  0 < alpha -> 0 < beta -> (forall d, In d data -> nonneg_Z d /\ 0 < pa_dt d) ->
  exists a s, bias_resample g alpha beta data k = g k a s /\ 0 < a /\ 0 < s /\
  same_law (fun x => 0 < x) (fun x => gamma_lpdf lgam a (/ s) x)
    (fun x => gamma_lpdf lgam alpha beta x
      + lsum (map (fun d => Rsum (pa_T d) (fun t => pois_loglik (IZR (attributed d t k 0)) (pa_dt d) x)) data)).
Proof.
  intros lgam g alpha beta data k Ha Hb Hd.
  set (n := lsum (map (fun d => IZR (bkgd_ss0 d k)) data)).
  set (T := lsum (map (fun d => bkgd_ss1 d k) data)).
  assert (Hn : 0 <= n).
  { apply lsum_map_nonneg. intros d Hin. apply IZR_le, bkgd_ss0_nonneg. now apply Hd. }
  assert (HT : 0 <= T).
  { apply lsum_map_nonneg. intros d Hin. unfold bkgd_ss1. apply Rmult_le_pos; [apply pos_INR|].
    apply Rlt_le. now apply Hd. }
  exists (alpha + n), (1 / (beta + T)). split.
  { unfold bias_resample, bias_request. rewrite !pool_lsum. fold n T. now rewrite !Rplus_0_l. }
  split; [lra|]. split; [apply Rdiv_lt_0_compat; lra|].
  exists ((alpha + n) * ln (beta + T) - lgam (alpha + n) - (alpha * ln beta - lgam alpha)). intros x Hx.
  replace (/ (1 / (beta + T))) with (beta + T) by (field; lra).
  assert (E : lsum (map (fun d => Rsum (pa_T d) (fun t => pois_loglik (IZR (attributed d t k 0)) (pa_dt d) x)) data)
              = n * ln x - T * x).
  { unfold n, T. rewrite <- !lsum_map_scal_r, <- lsum_map_minus. apply lsum_map_ext. intros d _.
    unfold pois_loglik, bkgd_ss1. rewrite (proj1 (C15_statistics_meaning d k)), IZR_Zsum.
    rewrite Rsum_minus, Rsum_scal_r, Rsum_const. ring. }
  rewrite E. unfold gamma_lpdf. ring.
Qed.
Print Assumptions C20_background_posterior.

(** With no data the draw is from the prior. *)
Theorem C20_no_data_prior :
  forall (g : gam1) alpha beta k, bias_resample g alpha beta [] k = g k alpha (1 / beta).
Proof. intros. unfold bias_resample, bias_request, pool. cbn. now rewrite !Rplus_0_r. Qed.
Print Assumptions C20_no_data_prior.

Lemma ex_p_nonneg_Z : nonneg_Z ex_p /\ 0 < pa_dt ex_p.
Proof.
  split; [|cbn; lra]. intros t k c. unfold attributed. apply Zsum_nonneg. intros r _.
  destruct (Nat.eqb _ _); cbn; lia.
Qed.
Example C20_nonvacuous : forall d, In d [ex_p; ex_p] -> nonneg_Z d /\ 0 < pa_dt d.
Proof. intros d [<-|[<-|[]]]; apply ex_p_nonneg_Z. Qed.

(* ------------------------------------------------------------------ *)
(** ** C21 *)

(** Events of k2 attributed to k1 in a data set. *)
Definition children (d : parents) (k1 k2 : nat) : Z :=
  Zsum (pa_T d) (fun t => Zsum (pa_B d) (fun b => attributed d t k2 (1 + (k1 * pa_B d + b))%nat)).

Lemma weight_ss0_children d k1 k2 : weight_ss0 d k1 k2 = children d k1 k2.
Proof. apply (proj2 (proj2 (C15_statistics_meaning d k2))). Qed.
Lemma children_nonneg d k1 k2 : nonneg_Z d -> (0 <= children d k1 k2)%Z.
Proof. intros H. apply Zsum_nonneg; intros; apply Zsum_nonneg; intros; apply H. Qed.

(** A present edge: each event of k1 has Poisson(w) children on k2.  An absent edge
    (which has no children) is drawn from the prior. *)
Theorem C21_weight_posterior :
  forall lgam (g : gam2) n A data k1 k2,
  0 < n_kappa n -> 0 < n_V n k1 k2 ->
  (forall d, In d data -> nonneg_Z d /\ (0 <= n_events (pa_T d) (pa_S d) k1)%Z) ->
  (A k1 k2 = false -> forall d, In d data -> children d k1 k2 = 0%Z) ->
  exists a s, ss_W_resample g n A data k1 k2 = g k1 k2 a s /\ 0 < a /\ 0 < s /\
  (A k1 k2 = false -> a = n_kappa n /\ / s = n_V n k1 k2) /\
  same_law (fun w => 0 < w) (fun w => gamma_lpdf lgam a (/ s) w)
    (fun w => gamma_lpdf lgam (n_kappa n) (n_V n k1 k2) w
      + if A k1 k2
        then lsum (map (fun d => pois_loglik (IZR (children d k1 k2)) (IZR (n_events (pa_T d) (pa_S d) k1)) w) data)
        else 0).
Proof.
  intros lgam g n A data k1 k2 Hk Hv Hd Habs.
  set (c := lsum (map (fun d => IZR (children d k1 k2)) data)).
  set (N := lsum (map (fun d => IZR (n_events (pa_T d) (pa_S d) k1)) data)).
  assert (Hc : 0 <= c).
  { apply lsum_map_nonneg. intros d Hin. apply IZR_le, children_nonneg. now apply Hd. }
  assert (HN : 0 <= N) by (apply lsum_map_nonneg; intros d Hin; apply IZR_le; now apply Hd).
  pose proof (b2R_range (A k1 k2)) as HA.
  exists (n_kappa n + c), (1 / (n_V n k1 k2 + N * b2R (A k1 k2))). split.
  { unfold ss_W_resample, ss_W_request. rewrite !pool_lsum, !Rplus_0_l. unfold c, N.
    rewrite (lsum_map_ext (fun d => IZR (weight_ss0 d k1 k2)) (fun d => IZR (children d k1 k2)))
      by (intros; now rewrite weight_ss0_children).
    rewrite (lsum_map_ext (fun d => IZR (weight_ss1 d k1 k2)) (fun d => IZR (n_events (pa_T d) (pa_S d) k1))); [reflexivity|].
    intros d _. unfold weight_ss1. now rewrite pa_Ns_sum. }
  assert (HNA : 0 <= N * b2R (A k1 k2)) by (apply Rmult_le_pos; tauto).
  split; [lra|]. split; [apply Rdiv_lt_0_compat; lra|].
  assert (Es : / (1 / (n_V n k1 k2 + N * b2R (A k1 k2))) = n_V n k1 k2 + N * b2R (A k1 k2)) by (field; lra).
  rewrite Es. assert (Hc0 : A k1 k2 = false -> c = 0).
  { intros HA0. unfold c. rewrite (lsum_map_ext _ (fun _ => 0)) by (intros d Hin; now rewrite Habs).
    rewrite lsum_map_const. lra. }
  split.
  { intros HA0. rewrite Hc0 by auto. rewrite HA0. cbn. split; lra. }
  exists ((n_kappa n + c) * ln (n_V n k1 k2 + N * b2R (A k1 k2)) - lgam (n_kappa n + c)
          - (n_kappa n * ln (n_V n k1 k2) - lgam (n_kappa n))). intros w Hw.
  destruct (A k1 k2) eqn:EA; cbn [b2R].
  - assert (E : lsum (map (fun d => pois_loglik (IZR (children d k1 k2)) (IZR (n_events (pa_T d) (pa_S d) k1)) w) data)
                = c * ln w - N * w).
    { unfold c, N. rewrite <- !lsum_map_scal_r, <- lsum_map_minus. reflexivity. }
    rewrite E. unfold gamma_lpdf. ring.
  - rewrite Hc0 by reflexivity. unfold gamma_lpdf. ring.
Qed.
Print Assumptions C21_weight_posterior.

(** The same law is the exact conditional of the Poisson superposition model (counts
    of (k1,b) in bin t ~ Poisson(w g_b F[t,k1,b] dt)) whenever no filtered mass is cut
    off at the end of the data. *)
Definition no_truncation (d : parents) (k1 : nat) : Prop :=
  forall b, (b < pa_B d)%nat ->
    pa_dt d * Rsum (pa_T d) (fun t => pa_F d t k1 b) = IZR (n_events (pa_T d) (pa_S d) k1).
Definition pair_loglik (d : parents) (gb : nat -> R) (k1 k2 : nat) (w : R) : R :=
  Rsum (pa_T d) (fun t => Rsum (pa_B d) (fun b =>
    IZR (attributed d t k2 (1 + (k1 * pa_B d + b))%nat) * ln (w * gb b * pa_F d t k1 b)
    - w * gb b * pa_F d t k1 b * pa_dt d)).
Definition supported (d : parents) (gb : nat -> R) (k1 k2 : nat) : Prop :=
  forall t b, (t < pa_T d)%nat -> (b < pa_B d)%nat ->
    attributed d t k2 (1 + (k1 * pa_B d + b))%nat <> 0%Z -> 0 < gb b /\ 0 < pa_F d t k1 b.

Lemma exposure_sum d gb k1 w : no_truncation d k1 ->
  Rsum (pa_B d) gb = 1 ->
  Rsum (pa_T d) (fun t => Rsum (pa_B d) (fun b => w * gb b * pa_F d t k1 b * pa_dt d))
  = IZR (n_events (pa_T d) (pa_S d) k1) * w.
Proof.
  intros Ht Hg. rewrite Rsum_swap.
  rewrite (Rsum_ext _ (fun b => (IZR (n_events (pa_T d) (pa_S d) k1) * w) * gb b)).
  - rewrite Rsum_scal. change (Rsum (pa_B d) (fun b => gb b)) with (Rsum (pa_B d) gb). rewrite Hg. ring.
  - intros b Hb. rewrite <- (Ht b Hb). rewrite (Rsum_ext _ (fun t => w * gb b * pa_dt d * pa_F d t k1 b)) by (intros; ring).
    rewrite Rsum_scal. ring.
Qed.
Lemma pair_loglik_W d gb k1 k2 : no_truncation d k1 -> Rsum (pa_B d) gb = 1 -> supported d gb k1 k2 ->
  exists c, forall w, 0 < w ->
  pair_loglik d gb k1 k2 w
  = pois_loglik (IZR (children d k1 k2)) (IZR (n_events (pa_T d) (pa_S d) k1)) w + c.
Proof.
  intros Ht Hg Hs.
  exists (Rsum (pa_T d) (fun t => Rsum (pa_B d) (fun b =>
    IZR (attributed d t k2 (1 + (k1 * pa_B d + b))%nat) * ln (gb b * pa_F d t k1 b)))).
  intros w Hw. unfold pair_loglik, pois_loglik.
  rewrite (Rsum_ext _ (fun t => Rsum (pa_B d) (fun b => IZR (attributed d t k2 (1 + (k1 * pa_B d + b))%nat) * ln w)
     + Rsum (pa_B d) (fun b => IZR (attributed d t k2 (1 + (k1 * pa_B d + b))%nat) * ln (gb b * pa_F d t k1 b))
     - Rsum (pa_B d) (fun b => w * gb b * pa_F d t k1 b * pa_dt d))).
  - rewrite Rsum_minus, Rsum_plus, exposure_sum by auto.
    assert (E : Rsum (pa_T d) (fun i => Rsum (pa_B d) (fun b =>
       IZR (attributed d i k2 (1 + (k1 * pa_B d + b))%nat) * ln w)) = IZR (children d k1 k2) * ln w).
    { unfold children. rewrite IZR_Zsum, <- Rsum_scal_r. apply Rsum_ext; intros t _.
      now rewrite IZR_Zsum, <- Rsum_scal_r. }
    rewrite E. ring.
  - intros t Htt. rewrite <- Rsum_plus, <- Rsum_minus. apply Rsum_ext; intros b Hb.
    destruct (Z.eq_dec (attributed d t k2 (1 + (k1 * pa_B d + b))%nat) 0) as [->|Hz]; [ring|].
    destruct (Hs t b Htt Hb Hz) as [H1 H2]. rewrite (Rmult_assoc w), ln_mult; [ring|auto|nra].
Qed.

Theorem C21_exact_conditional :
  forall lgam (g : gam2) n A data k1 k2 (gb : nat -> R),
  0 < n_kappa n -> 0 < n_V n k1 k2 -> A k1 k2 = true ->
  (forall d, In d data -> nonneg_Z d /\ (0 <= n_events (pa_T d) (pa_S d) k1)%Z /\
     no_truncation d k1 /\ Rsum (pa_B d) gb = 1 /\ supported d gb k1 k2) ->
  exists a s, ss_W_resample g n A data k1 k2 = g k1 k2 a s /\
  same_law (fun w => 0 < w) (fun w => gamma_lpdf lgam a (/ s) w)
    (fun w => gamma_lpdf lgam (n_kappa n) (n_V n k1 k2) w
      + lsum (map (fun d => pair_loglik d gb k1 k2 w) data)).
Proof.
  intros lgam g n A data k1 k2 gb Hk Hv HA Hd.
  destruct (@C21_weight_posterior lgam g n A data k1 k2 Hk Hv) as (a & s & E & _ & _ & _ & (c & Hc)).
  - intros d Hin. destruct (Hd d Hin) as (H1 & H2 & _). auto.
  - congruence.
  - exists a, s. split; [exact E|].
    assert (G : exists c', forall w, 0 < w -> lsum (map (fun d => pair_loglik d gb k1 k2 w) data)
      = lsum (map (fun d => pois_loglik (IZR (children d k1 k2)) (IZR (n_events (pa_T d) (pa_S d) k1)) w) data) + c').
    { clear Hc E. induction data as [|d l IH]; [exists 0; intros; cbn; lra|].
      destruct IH as (c1 & H1); [intros; apply Hd; now right|].
      destruct (Hd d (or_introl eq_refl)) as (_ & _ & H3 & H4 & H5).
      destruct (@pair_loglik_W d gb k1 k2 H3 H4 H5) as (c2 & H2). exists (c1 + c2). intros w Hw.
      cbn [map lsum]. rewrite H1, H2 by auto. ring. }
    destruct G as (c' & Hc'). exists (c - c'). intros w Hw. rewrite Hc, HA, Hc' by auto. ring.
Qed.
Print Assumptions C21_exact_conditional.

(** A data set with one event of process 0 in bin 0 whose whole filtered mass (bin 1)
    lies inside the data, and one event of process 1 attributed to it. *)
Definition ex_child : parents :=
  {| pa_T := 2; pa_K := 2; pa_B := 1; pa_dt := 1;
     pa_S := fun t k => if Nat.eqb t k then 1%Z else 0%Z;
     pa_F := fun t k b => if (Nat.eqb t 1 && Nat.eqb k 0)%bool then 1 else 0;
     pa_Z := fun k r c => if (Nat.eqb k 1 && Nat.eqb c 1)%bool then 1%Z else if (Nat.eqb k 0 && Nat.eqb c 0)%bool then 1%Z else 0%Z;
     pa_EZ := fun _ _ _ => 0 |}.
Example C21_nonvacuous :
  children ex_child 0 1 = 1%Z /\ n_events 2 (pa_S ex_child) 0 = 1%Z /\ no_truncation ex_child 0 /\
  nonneg_Z ex_child /\ supported ex_child (fun _ => 1) 0 1.
Proof.
  split; [reflexivity|]. split; [reflexivity|]. split.
  { intros b Hb. cbn in Hb. unfold n_events. cbn. lra. }
  split.
  { intros t k c. unfold attributed. apply Zsum_nonneg. intros r _.
    destruct (Nat.eqb _ _); [|lia]. cbn. destruct (_ && _)%bool; [lia|]. destruct (_ && _)%bool; lia. }
  intros t b Ht Hb Hz. cbn in Ht, Hb. split; [lra|].
  destruct t as [|[|t]]; [|cbn; lra|lia]. exfalso. apply Hz. apply attributed_none; reflexivity || (cbn; lia).
Qed.

(* ------------------------------------------------------------------ *)
(** ** C22 *)

(** Log likelihood of the bases of the events of k2 attributed to k1, when each is
    distributed as g over the basis functions. *)
Definition basis_loglik (d : parents) (k1 k2 : nat) (x : vec) : R :=
  Rsum (pa_T d) (fun t => Rsum (pa_B d) (fun b =>
    IZR (attributed d t k2 (1 + (k1 * pa_B d + b))%nat) * ln (x b))).

Lemma basis_loglik_ss d k1 k2 x :
  basis_loglik d k1 k2 x = Rsum (pa_B d) (fun b => IZR (ir_ss d k1 k2 b) * ln (x b)).
Proof.
  unfold basis_loglik. rewrite Rsum_swap. apply Rsum_ext; intros b _.
  destruct (C15_statistics_meaning d k2) as (_ & H & _). rewrite H, IZR_Zsum, Rsum_scal_r. reflexivity.
Qed.

Theorem C22_impulse_posterior :
  forall lgam (dr : dir2) B gamma data k1 k2,
  (forall b, (b < B)%nat -> 0 < gamma b) ->
  (forall d, In d data -> nonneg_Z d /\ pa_B d = B) ->
  exists al : vec,
  (forall b, ir_resample dr gamma data k1 k2 b = dr k1 k2 al b) /\
  (forall b, (b < B)%nat -> 0 < al b) /\
  same_law (open_simplex B) (dirichlet_lpdf lgam B al)
    (fun x => dirichlet_lpdf lgam B gamma x + lsum (map (fun d => basis_loglik d k1 k2 x) data)) /\
  ((forall al', (forall b, (b < B)%nat -> 0 < al' b) -> open_simplex B (dr k1 k2 al')) ->
   open_simplex B (ir_resample dr gamma data k1 k2)).
Proof.
  intros lgam dr B gamma data k1 k2 Hg Hd.
  set (al := fun b => gamma b + lsum (map (fun d => IZR (ir_ss d k1 k2 b)) data)).
  assert (Eal : ir_request gamma data k1 k2 = fun b => gamma b + (0 + pool (fun d => IZR (ir_ss d k1 k2 b)) data)) by reflexivity.
  exists (ir_request gamma data k1 k2).
  assert (Ea : forall b, ir_request gamma data k1 k2 b = al b).
  { intros b. rewrite Eal. unfold al. now rewrite pool_lsum, Rplus_0_l. }
  assert (Hal : forall b, (b < B)%nat -> 0 < ir_request gamma data k1 k2 b).
  { intros b Hb. rewrite Ea. unfold al.
    assert (0 <= lsum (map (fun d => IZR (ir_ss d k1 k2 b)) data)); [|specialize (Hg b Hb); lra].
    apply lsum_map_nonneg. intros d Hin. apply IZR_le.
    destruct (C15_statistics_meaning d k2) as (_ & H & _). rewrite H. apply Zsum_nonneg. intros; now apply Hd. }
  split; [reflexivity|]. split; [exact Hal|]. split.
  - exists (lgam (Rsum B (ir_request gamma data k1 k2)) - Rsum B (fun b => lgam (ir_request gamma data k1 k2 b))
            - (lgam (Rsum B gamma) - Rsum B (fun b => lgam (gamma b)))).
    intros x [Hx Hs]. unfold dirichlet_lpdf.
    assert (E : lsum (map (fun d => basis_loglik d k1 k2 x) data)
                = Rsum B (fun b => lsum (map (fun d => IZR (ir_ss d k1 k2 b)) data) * ln (x b))).
    { rewrite (lsum_map_ext _ (fun d => Rsum B (fun b => IZR (ir_ss d k1 k2 b) * ln (x b)))).
      - rewrite lsum_Rsum_swap. apply Rsum_ext; intros b _. now rewrite lsum_map_scal_r.
      - intros d Hin. rewrite basis_loglik_ss. now rewrite (proj2 (Hd d Hin)). }
    rewrite E.
    assert (E2 : Rsum B (fun b => (ir_request gamma data k1 k2 b - 1) * ln (x b))
       = Rsum B (fun b => (gamma b - 1) * ln (x b)) + Rsum B (fun b => lsum (map (fun d => IZR (ir_ss d k1 k2 b)) data) * ln (x b))).
    { rewrite <- Rsum_plus. apply Rsum_ext; intros b _. rewrite Ea. unfold al. ring. }
    rewrite E2. ring.
  - intros Hc. apply (Hc _ Hal).
Qed.
Print Assumptions C22_impulse_posterior.
Example C22_nonvacuous :
  nonneg_Z ex_child /\ open_simplex 1 (fun _ => 1) /\ basis_loglik ex_child 0 1 (fun _ => 1/2) = ln (1/2).
Proof.
  split; [apply C21_nonvacuous|]. split; [split; [intros; lra|cbn; lra]|].
  rewrite basis_loglik_ss. cbn. unfold ir_ss. cbn. lra.
Qed.

(* ------------------------------------------------------------------ *)
(** ** C23 *)

(** The posterior over all data sets of the continuous-time background rate. *)
Definition ct_posterior (lgam : R -> R) (alpha beta : R) (data : list ct_stat) (k : nat) (x : R) : R :=
  gamma_lpdf lgam alpha beta x + lsum (map (fun d => pois_loglik (cs_bkgd d k) (cs_T d) x) data).

(** With one data set (or none) the update is the posterior. *)
Theorem C23_single_data_set_partial :
  forall lgam alpha beta data k, (length data <= 1)%nat -> 0 < beta ->
  (forall d, In d data -> 0 <= cs_T d) ->
  let '(a, s) := ct_bias_request alpha beta data k in
  same_law (fun x => 0 < x) (fun x => gamma_lpdf lgam a (/ s) x) (ct_posterior lgam alpha beta data k).
Proof.
  intros lgam alpha beta [|d [|? ?]] k Hl Hb Hd; [| |cbn in Hl; lia]; cbn.
  - exists 0. intros x Hx. unfold ct_posterior. cbn. rewrite !Rplus_0_r.
    replace (/ (1 / beta)) with beta by (field; lra). reflexivity.
  - specialize (Hd d (or_introl eq_refl)).
    exists ((alpha + cs_bkgd d k) * ln (beta + cs_T d) - lgam (alpha + cs_bkgd d k) - (alpha * ln beta - lgam alpha)).
    intros x Hx. unfold ct_posterior, gamma_lpdf, pois_loglik. cbn.
    replace (/ (1 / (beta + cs_T d))) with (beta + cs_T d) by (field; lra). ring.
Qed.
Print Assumptions C23_single_data_set_partial.

(** With several data sets only the last one is used: the requested law depends on
    nothing else ... *)
Theorem C23_only_last_data_set :
  forall alpha beta data d k,
  ct_bias_request alpha beta (data ++ [d]) k = ct_bias_request alpha beta [d] k.
Proof. intros. unfold ct_bias_request, ct_bias_ss. rewrite fold_left_app. reflexivity. Qed.
Print Assumptions C23_only_last_data_set.

(** ... and is not the posterior given all of them. *)
Theorem C23_pools_all_data_sets_refuted :
  exists data k, length data = 2%nat /\ (forall d, In d data -> 0 < cs_T d /\ 0 <= cs_bkgd d k) /\
  forall lgam alpha beta, 0 < alpha -> 0 < beta ->
  let '(a, s) := ct_bias_request alpha beta data k in
  ~ same_law (fun x => 0 < x) (fun x => gamma_lpdf lgam a (/ s) x) (ct_posterior lgam alpha beta data k).
Proof.
  exists [{| cs_bkgd := fun _ => 1; cs_T := 1 |}; {| cs_bkgd := fun _ => 0; cs_T := 1 |}], 0%nat.
  split; [reflexivity|]. split; [intros d [<-|[<-|[]]]; cbn; lra|].
  intros lgam alpha beta Ha Hb. cbn. intros [c Hc].
  assert (H1 := Hc 1 ltac:(lra)). assert (H2 := Hc 2 ltac:(lra)).
  unfold ct_posterior, gamma_lpdf, pois_loglik in H1, H2. cbn in H1, H2.
  replace (/ (1 / (beta + 1))) with (beta + 1) in * by (field; lra).
  rewrite ln_1 in H1. assert (ln 2 < 1).
  { rewrite <- (ln_exp 1). apply ln_increasing; [lra|]. pose proof (exp_ineq1 1 ltac:(lra)). lra. }
  nra.
Qed.
Print Assumptions C23_pools_all_data_sets_refuted.

(* ------------------------------------------------------------------ *)
(** ** C24 *)

(** If two positive-half-line functions differ by the constant factor exp M, their
    improper integrals do too. *)
Lemma RInt_gen_const_mult (f g : R -> R) (M : R) :
  (forall w, 0 < w -> f w = M + g w) ->
  is_RInt_gen (fun w => exp (g w)) (at_right 0) (Rbar_locally p_infty) 1 ->
  is_RInt_gen (fun w => exp (f w)) (at_right 0) (Rbar_locally p_infty) (exp M).
Proof.
  intros E HI.
  pose proof (is_RInt_gen_scal (V := R_NormedModule) (Fa := at_right 0) (Fb := Rbar_locally p_infty)
                (fun w => exp (g w)) (exp M) 1 HI) as H.
  change (scal (exp M) 1) with (exp M * 1) in H. rewrite Rmult_1_r in H.
  refine (is_RInt_gen_ext (V := R_NormedModule) (Fa := at_right 0) (Fb := Rbar_locally p_infty) _ _ _ _ H).
  apply (Filter_prod _ _ _ (fun x => 0 < x) (fun y => 0 < y)).
  - exists posreal_one. intros y _ Hy. exact Hy.
  - exists 0. intros y Hy. exact Hy.
  - intros x y Hx Hy w [Hw _]. cbn [fst snd] in Hw. assert (0 < w).
    { eapply Rlt_trans; [|exact Hw]. apply Rmin_glb_lt; assumption. }
    rewrite E, exp_plus by auto. reflexivity.
Qed.

(** Joint log density of a weight w and the attributed events of the pair (k1,k2) in
    the gamma-mixture model, for an absent (A = false) or present edge. *)
Definition mix_joint (lgam : R -> R) (kappa0 nu0 : R) (n : net) (data : list parents) (k1 k2 : nat)
    (A : bool) (w : R) : R :=
  (if A then gamma_lpdf lgam (n_kappa n) (n_V n k1 k2) w else gamma_lpdf lgam kappa0 nu0 w)
  + lsum (map (fun d => pois_loglik (IZR (children d k1 k2)) (IZR (n_events (pa_T d) (pa_S d) k1)) w) data).

Lemma mix_ss_meaning data k1 k2 :
  mix_ss data k1 k2 = (lsum (map (fun d => IZR (children d k1 k2)) data),
                       lsum (map (fun d => IZR (n_events (pa_T d) (pa_S d) k1)) data)).
Proof.
  unfold mix_ss. rewrite !pool_lsum, !Rplus_0_l. f_equal; apply lsum_map_ext; intros d _.
  - now rewrite weight_ss0_children.
  - unfold weight_ss1. now rewrite pa_Ns_sum.
Qed.

Definition mix_ok (kappa0 nu0 : R) (n : net) (data : list parents) (k1 k2 : nat) : Prop :=
  0 < kappa0 /\ 0 < nu0 /\ 0 < n_kappa n /\ 0 < n_V n k1 k2 /\
  (forall d, In d data -> nonneg_Z d /\ (0 <= n_events (pa_T d) (pa_S d) k1)%Z).

(** (i) There are marginal log likelihoods M0, M1 such that for every w the joint
    density factors as exp(M_A) times the gamma density the next weight update draws
    from, given A; (ii) if that density is normalised, exp(M_A) is the integral of
    the joint over w; (iii) the edge is present exactly when u < p e^M1 / (p e^M1 + (1-p) e^M0). *)
Theorem C24_mixture_edge_update :
  forall lgam kappa0 nu0 n (u : mat) (g : gam2) data k1 k2,
  mix_ok kappa0 nu0 n data k1 k2 -> unit_interval (u k1 k2) -> 0 <= n_P n k1 k2 <= 1 ->
  exists M : bool -> R,
  (mix_resample_A lgam kappa0 nu0 n u data k1 k2 = true
     <-> u k1 k2 < edge_posterior (n_P n k1 k2) (M false) (M true)) /\
  forall A : bmat, exists a s,
    mix_W_resample g kappa0 nu0 n A data k1 k2 = Rmax (/ 10 ^ 32) (g k1 k2 a s) /\ 0 < a /\ 0 < s /\
    (forall w, 0 < w ->
       mix_joint lgam kappa0 nu0 n data k1 k2 (A k1 k2) w = M (A k1 k2) + gamma_lpdf lgam a (/ s) w) /\
    (is_RInt_gen (fun w => exp (gamma_lpdf lgam a (/ s) w)) (at_right 0) (Rbar_locally p_infty) 1 ->
     is_RInt_gen (fun w => exp (mix_joint lgam kappa0 nu0 n data k1 k2 (A k1 k2) w))
       (at_right 0) (Rbar_locally p_infty) (exp (M (A k1 k2)))).
Proof.
  intros lgam kappa0 nu0 n u g data k1 k2 (Hk0 & Hn0 & Hk & Hv & Hd) Hu Hp.
  set (c := lsum (map (fun d => IZR (children d k1 k2)) data)).
  set (N := lsum (map (fun d => IZR (n_events (pa_T d) (pa_S d) k1)) data)).
  assert (Hc : 0 <= c) by (apply lsum_map_nonneg; intros d Hin; apply IZR_le, children_nonneg; now apply Hd).
  assert (HN : 0 <= N) by (apply lsum_map_nonneg; intros d Hin; apply IZR_le; now apply Hd).
  exists (fun b : bool => if b then mix_lp1 lgam (n_kappa n) (n_V n k1 k2) c N else mix_lp0 lgam kappa0 nu0 c N).
  split.
  { unfold mix_resample_A. rewrite mix_ss_meaning. fold c N. rewrite accept_edge by auto. apply Rltb_true. }
  intros A.
  set (kp := kappa0 * (1 - b2R (A k1 k2)) + n_kappa n * b2R (A k1 k2)).
  set (vp := nu0 * (1 - b2R (A k1 k2)) + n_V n k1 k2 * b2R (A k1 k2)).
  assert (Hkp : 0 < kp) by (unfold kp; destruct (A k1 k2); cbn; lra).
  assert (Hvp : 0 < vp) by (unfold vp; destruct (A k1 k2); cbn; lra).
  exists (kp + c), (1 / (vp + N)). split.
  { unfold mix_W_resample, mix_W_request. rewrite mix_ss_meaning. reflexivity. }
  split; [lra|]. split; [apply Rdiv_lt_0_compat; lra|].
  assert (EJ : forall w, 0 < w -> mix_joint lgam kappa0 nu0 n data k1 k2 (A k1 k2) w
     = (if A k1 k2 then mix_lp1 lgam (n_kappa n) (n_V n k1 k2) c N else mix_lp0 lgam kappa0 nu0 c N)
       + gamma_lpdf lgam (kp + c) (/ (1 / (vp + N))) w).
  { intros w Hw. replace (/ (1 / (vp + N))) with (vp + N) by (field; lra).
    unfold mix_joint.
    assert (E : lsum (map (fun d => pois_loglik (IZR (children d k1 k2)) (IZR (n_events (pa_T d) (pa_S d) k1)) w) data)
                = c * ln w - N * w).
    { unfold c, N. rewrite <- !lsum_map_scal_r, <- lsum_map_minus. reflexivity. }
    rewrite E. unfold gamma_lpdf, mix_lp0, mix_lp1, kp, vp. destruct (A k1 k2); cbn [b2R].
    - replace (kappa0 * (1 - 1) + n_kappa n * 1) with (n_kappa n) by ring.
      replace (nu0 * (1 - 1) + n_V n k1 k2 * 1) with (n_V n k1 k2) by ring. ring.
    - replace (kappa0 * (1 - 0) + n_kappa n * 0) with kappa0 by ring.
      replace (nu0 * (1 - 0) + n_V n k1 k2 * 0) with nu0 by ring. ring. }
  split; [exact EJ|]. intros HI.
  set (M := if A k1 k2 then mix_lp1 lgam (n_kappa n) (n_V n k1 k2) c N else mix_lp0 lgam kappa0 nu0 c N) in *.
  exact (@RInt_gen_const_mult (mix_joint lgam kappa0 nu0 n data k1 k2 (A k1 k2)) _ M EJ HI).
Qed.
Print Assumptions C24_mixture_edge_update.

(** The whole weight update of the mixture model, on the model object: the new adjacency matrix and the new
    weights, where the weight of each pair is drawn given the NEW edge; nothing else changes. *)
Theorem C24_weight_model_update :
  forall lgam kappa0 nu0 n (u : mat) (g : gam2) m,
  let m' := mix_resample lgam kappa0 nu0 g u n m in
  (forall k1 k2, mix_ok kappa0 nu0 n (dm_data m) k1 k2 -> unit_interval (u k1 k2) -> 0 <= n_P n k1 k2 <= 1 ->
   exists M : bool -> R, exists a s,
   (dm_A m' k1 k2 = true <-> u k1 k2 < edge_posterior (n_P n k1 k2) (M false) (M true)) /\
   dm_W m' k1 k2 = Rmax (/ 10 ^ 32) (g k1 k2 a s) /\ 0 < a /\ 0 < s /\
   (forall w, 0 < w ->
      mix_joint lgam kappa0 nu0 n (dm_data m) k1 k2 (dm_A m' k1 k2) w
      = M (dm_A m' k1 k2) + gamma_lpdf lgam a (/ s) w)) /\
  dm_lam m' = dm_lam m /\ dm_g m' = dm_g m /\ dm_data m' = dm_data m.
Proof.
  intros lgam kappa0 nu0 n u g m m'. split; [|repeat split].
  intros k1 k2 Hok Hu Hp.
  destruct (@C24_mixture_edge_update lgam kappa0 nu0 n u g (dm_data m) k1 k2 Hok Hu Hp) as (M & HA & HW).
  destruct (HW (dm_A m')) as (a & s & E & Ha & Hs & J & _).
  exists M, a, s. split; [exact HA|]. split; [exact E|]. auto.
Qed.
Print Assumptions C24_weight_model_update.

Example C24_nonvacuous :
  mix_ok (1/10) 10 {| n_P := fun _ _ => 1/2; n_V := fun _ _ => 5; n_kappa := 1 |} [ex_child] 0 1 /\
  unit_interval (1/3).
Proof.
  split; [|split; lra]. repeat split; cbn; try lra; [|]; intros; destruct H as [<-|[]].
  - apply C21_nonvacuous.
  - vm_compute. discriminate.
Qed.

(* ------------------------------------------------------------------ *)
(** ** C25 *)

(** Weight exp(lp) of a log probability, 0 for minus infinity. *)
Definition wexp (x : er) : R := match x with Fin a => exp a | _ => 0 end.
Definition log_prob (x : er) : Prop := match x with Fin _ | NInf => True | _ => False end.

Theorem C25_acceptance_rule :
  forall u lp0 lp1, unit_interval u -> log_prob lp0 -> log_prob lp1 -> (lp0 <> NInf \/ lp1 <> NInf) ->
  (accept u lp0 lp1 = true <-> u < wexp lp1 / (wexp lp0 + wexp lp1)).
Proof.
  intros u [a| | |] [b| | |] Hu H0 H1 Hne; try contradiction; cbn [wexp].
  - rewrite accept_fin by auto. apply Rltb_true.
  - rewrite accept_r by auto. pose proof (exp_pos a). destruct Hu.
    split; [discriminate|]. intros HH. replace (0 / (exp a + 0)) with 0 in HH by (field; lra). lra.
  - rewrite accept_l by auto. pose proof (exp_pos b). destruct Hu.
    split; [|reflexivity]. intros _. replace (exp b / (0 + exp b)) with 1 by (field; lra). lra.
  - destruct Hne; congruence.
Qed.
Print Assumptions C25_acceptance_rule.

(** If both hypotheses have probability zero the value is NaN and no edge is drawn. *)
Theorem C25_both_impossible : forall u, accept u NInf NInf = false.
Proof. exact accept_both. Qed.

(** The sweep: every edge (k1,k2) of the new matrix is drawn with its posterior
    probability given the data (full model log likelihood), the weights and the other
    edges - those of the rows above as already updated, those of the rows below as
    before; entries in other columns are irrelevant.  Same for the serial update and for the
    parallel one under any order of the workers. *)
Lemma parallel_serial_col order m n u data k1 k2 :
  dm_mix m = false -> nonneg_params m -> good_data m data ->
  (forall i j, (i < dm_K m)%nat -> (j < dm_K m)%nat -> unit_interval (u i j) /\ 0 <= n_P n i j <= 1) ->
  Permutation order (seq 0 (dm_K m)) -> (k1 < dm_K m)%nat -> (k2 < dm_K m)%nat ->
  resample_A_parallel order m n u data k1 k2 = resample_A_serial m n u data k1 k2.
Proof.
  intros Hm Hn Hd Hu Ho H1 H2. unfold resample_A_serial.
  rewrite (@serial_sweep_col (dm_K m)) by (auto using data_ll_local).
  assert (Hfin : forall b, exists x, col_ll (data_ll m data) k2 b = Fin x) by (intros; now apply data_ll_fin).
  assert (Hext : forall b b' : nat -> bool, (forall i, (i < dm_K m)%nat -> b i = b' i) ->
     col_ll (data_ll m data) k2 b = col_ll (data_ll m data) k2 b').
  { intros b b' Hb. unfold col_ll. apply (data_ll_local Hd); auto. }
  destruct data as [|d0 rest] eqn:Edata.
  - destruct (@plain_column_scan (col_ll (data_ll m []) k2) (fun i => n_P n i k2) (fun i => u i k2) (dm_K m)
      (fun i => dm_A m i k2) Hext) as [_ Hs].
    rewrite (Hs k1 _ H1 (fun i _ => eq_refl)). unfold resample_A_parallel.
    change (col_ll (data_ll m []) k2) with (fun _ : nat -> bool => Fin 0). cbn beta.
    destruct (Hu k1 k2 H1 H2) as [Hu' Hp]. rewrite accept_edge by auto. f_equal.
    unfold edge_posterior. field. rewrite exp_0. lra.
  - rewrite <- Edata in *.
    assert (E : resample_A_parallel order m n u data k1 k2 =
      resample_column (par_ll m data k2) (fun i => n_P n i k2) (fun i => u i k2) (dm_K m) (fun i => dm_A m i k2) k1).
    { assert (E0 : resample_A_parallel order m n u data k1 k2 =
        run_tasks order (fun k2 => resample_column (par_ll m data k2) (fun k1 => n_P n k1 k2) (fun k1 => u k1 k2)
          (dm_K m) (fun k1 => dm_A m k1 k2)) (fun _ _ => false) k2 k1) by (now rewrite Edata).
      rewrite E0, run_tasks_spec.
      replace (existsb (Nat.eqb k2) order) with true; [reflexivity|]. symmetry. apply existsb_exists.
      exists k2. split; [|apply Nat.eqb_refl]. apply (Permutation_in _ (Permutation_sym Ho)).
      apply in_seq. lia. }
    rewrite E. rewrite column_plain.
    + assert (G : forall l l' : (nat -> bool) -> er, (forall b, l b = l' b) -> forall p u' K a i,
         plain_column l p u' K a i = plain_column l' p u' K a i).
      { intros l l' Hl p u' K a. unfold plain_column. generalize (seq 0 K). intros s. revert a.
        induction s as [|k s IH]; intros a i; [reflexivity|]. cbn [fold_left]. rewrite <- IH.
        unfold plain_step at 2 4. now rewrite !Hl. }
      apply G. intros b. now apply par_ll_eq.
    + intros b. rewrite par_ll_eq by auto. apply Hfin.
    + intros k Hk. now apply Hu.
    + intros k Hk. now apply Hu.
    + intros b b' Hb. rewrite !par_ll_eq by auto. apply Hext. auto.
Qed.

Lemma ll_total_split m A : 
  log_likelihood (with_A m A) All = Ok (esum (dm_K m) (fun k => data_ll m (dm_data m) A k)) \/
  exists d, In d (dm_data m) /\ pa_K d <> dm_K m.
Proof.
  rewrite log_likelihood_all. cbn [with_A dm_data].
  destruct (forallb (fun d => Nat.eqb (pa_K d) (dm_K m)) (dm_data m)) eqn:E.
  - left. f_equal. rewrite forallb_forall in E.
    rewrite (@esum_ext (dm_K m) _ (fun k => elsum (map (fun d => ll_single d (params_of (with_A m A)) k) (dm_data m))))
      by (intros; apply data_ll_elsum).
    rewrite <- elsum_esum_swap. apply elsum_map_ext. intros d Hin. unfold pa_ll.
    specialize (E d Hin). apply Nat.eqb_eq in E. now rewrite E.
  - right. assert (H : existsb (fun d => negb (Nat.eqb (pa_K d) (dm_K m))) (dm_data m) = true).
    { clear -E. induction (dm_data m) as [|d l IH]; cbn in *; [discriminate|].
      destruct (Nat.eqb (pa_K d) (dm_K m)); cbn in *; auto. }
    apply existsb_exists in H as (d & H1 & H2). exists d. split; [auto|].
    intros Hc. rewrite Hc, Nat.eqb_refl in H2. discriminate.
Qed.

Theorem C25_edges_from_posterior :
  forall (parallel : bool) order m n u,
  dm_mix m = false -> nonneg_params m -> good_data m (dm_data m) ->
  (forall i j, (i < dm_K m)%nat -> (j < dm_K m)%nat -> unit_interval (u i j) /\ 0 <= n_P n i j <= 1) ->
  Permutation order (seq 0 (dm_K m)) ->
  let A' := if parallel then resample_A_parallel order m n u (dm_data m)
            else resample_A_serial m n u (dm_data m) in
  forall k1 k2 (M : bmat), (k1 < dm_K m)%nat -> (k2 < dm_K m)%nat ->
  (forall i, (i < dm_K m)%nat -> M i k2 = if Nat.ltb i k1 then A' i k2 else dm_A m i k2) ->
  exists L0 L1,
    log_likelihood (with_A m (upd2 M k1 k2 false)) All = Ok (Fin L0) /\
    log_likelihood (with_A m (upd2 M k1 k2 true)) All = Ok (Fin L1) /\
    (A' k1 k2 = true <-> u k1 k2 < edge_posterior (n_P n k1 k2) L0 L1).
Proof.
  intros parallel order m n u Hm Hn Hd Hu Ho A' k1 k2 M H1 H2 HM.
  assert (EA : forall i, (i < dm_K m)%nat -> A' i k2 = resample_A_serial m n u (dm_data m) i k2).
  { intros i Hi. unfold A'. destruct parallel; [now apply parallel_serial_col|reflexivity]. }
  set (ll := data_ll m (dm_data m)).
  assert (Hloc : col_local (dm_K m) ll) by (now apply data_ll_local).
  assert (Hfin : forall A k, (k < dm_K m)%nat -> exists x, ll A k = Fin x) by (intros; now apply data_ll_fin).
  assert (Htot : forall A, log_likelihood (with_A m A) All = Ok (esum (dm_K m) (fun k => ll A k))).
  { intros A. destruct (ll_total_split m A) as [E|(d & Hin & Hne)]; [exact E|].
    exfalso. destruct (Hd d Hin) as (E & _). contradiction. }
  (* finite values *)
  assert (Hv : forall A, exists f : nat -> R, forall k, (k < dm_K m)%nat -> ll A k = Fin (f k)).
  { intros A. exists (fun k => fval (ll A k)). intros k Hk. destruct (Hfin A k Hk) as (x & E). rewrite E. reflexivity. }
  destruct (Hv (upd2 M k1 k2 false)) as (f0 & Hf0). destruct (Hv (upd2 M k1 k2 true)) as (f1 & Hf1).
  exists (Rsum (dm_K m) f0), (Rsum (dm_K m) f1).
  split; [rewrite Htot; f_equal; now apply esum_fin|]. split; [rewrite Htot; f_equal; now apply esum_fin|].
  (* other columns agree *)
  assert (Hoth : forall k, (k < dm_K m)%nat -> k <> k2 -> f0 k = f1 k).
  { intros k Hk Hne. assert (E : ll (upd2 M k1 k2 false) k = ll (upd2 M k1 k2 true) k).
    { apply Hloc; auto. intros i _. unfold upd2. destruct (Nat.eqb_spec k k2); [contradiction|]. now rewrite !andb_false_r. }
    rewrite Hf0, Hf1 in E by auto. congruence. }
  set (c := Rsum (dm_K m) (fun k => if Nat.eqb k k2 then 0 else f0 k)).
  assert (E0 : Rsum (dm_K m) f0 = f0 k2 + c).
  { unfold c. rewrite (Rsum_ext f0 (fun k => (if Nat.eqb k k2 then f0 k else 0) + (if Nat.eqb k k2 then 0 else f0 k))).
    - rewrite Rsum_plus. f_equal. rewrite (Rsum_ind (dm_K m) k2 f0). destruct (Nat.ltb_spec k2 (dm_K m)); [reflexivity|lia].
    - intros k _. destruct (Nat.eqb k k2); lra. }
  assert (E1 : Rsum (dm_K m) f1 = f1 k2 + c).
  { unfold c. rewrite (Rsum_ext f1 (fun k => (if Nat.eqb k k2 then f1 k else 0) + (if Nat.eqb k k2 then 0 else f0 k))).
    - rewrite Rsum_plus. f_equal. rewrite (Rsum_ind (dm_K m) k2 f1). destruct (Nat.ltb_spec k2 (dm_K m)); [reflexivity|lia].
    - intros k Hk. destruct (Nat.eqb_spec k k2); [lra|]. rewrite Hoth by auto. lra. }
  rewrite E0, E1, edge_posterior_shift. rewrite EA by auto. unfold resample_A_serial. fold ll.
  rewrite (@serial_sweep_col (dm_K m)) by auto.
  destruct (@plain_column_scan (col_ll ll k2) (fun i => n_P n i k2) (fun i => u i k2) (dm_K m) (fun i => dm_A m i k2)) as [_ Hs].
  { intros b b' Hb. apply Hloc; auto. }
  rewrite (Hs k1 (fun i => M i k2) H1).
  - assert (EL : forall b, col_ll ll k2 (upd (fun i => M i k2) k1 b) = ll (upd2 M k1 k2 b) k2).
    { intros b. unfold col_ll. apply Hloc; auto. intros i _. symmetry. apply upd2_col. }
    rewrite !EL, Hf0, Hf1 by auto. destruct (Hu k1 k2 H1 H2). rewrite accept_edge by auto. apply Rltb_true.
  - intros i Hi. rewrite HM by auto. destruct (Nat.ltb i k1); [|reflexivity].
    rewrite EA by auto. unfold resample_A_serial. fold ll. now rewrite (@serial_sweep_col (dm_K m)).
Qed.
Print Assumptions C25_edges_from_posterior.

(** The example model of Props_Discrete, holding one data set. *)
Definition ex_m_data : dmodel := with_data ex_m [ex_child].
Lemma ex_m_data_ok : dm_mix ex_m_data = false /\ nonneg_params ex_m_data /\ good_data ex_m_data (dm_data ex_m_data).
Proof.
  split; [reflexivity|]. split; [exact ex_nonneg|]. intros d [<-|[]]. cbn. split; [auto|]. split; [auto|]. split; [auto|].
  intros t k b _ _ _. cbn. destruct (_ && _)%bool; lra.
Qed.
Definition ex_net : net := {| n_P := fun _ _ => 1/2; n_V := fun _ _ => 5; n_kappa := 1 |}.
Example C25_nonvacuous :
  dm_mix ex_m_data = false /\ nonneg_params ex_m_data /\ good_data ex_m_data (dm_data ex_m_data) /\
  (forall i j, (i < 2)%nat -> (j < 2)%nat -> unit_interval (1/4) /\ 0 <= n_P ex_net i j <= 1) /\
  Permutation [1; 0]%nat (seq 0 (dm_K ex_m_data)).
Proof.
  destruct ex_m_data_ok as (H1 & H2 & H3). split; [auto|]. split; [auto|]. split; [auto|]. split.
  - intros. cbn. split; [split|]; lra.
  - cbn. apply perm_swap.
Qed.

(* ------------------------------------------------------------------ *)
(** ** C26 *)

Theorem C26_serial_parallel_agree :
  forall order m n u data,
  dm_mix m = false -> nonneg_params m -> good_data m data ->
  (forall i j, (i < dm_K m)%nat -> (j < dm_K m)%nat -> unit_interval (u i j) /\ 0 <= n_P n i j <= 1) ->
  Permutation order (seq 0 (dm_K m)) ->
  forall k1 k2, (k1 < dm_K m)%nat -> (k2 < dm_K m)%nat ->
  resample_A_parallel order m n u data k1 k2 = resample_A_serial m n u data k1 k2.
Proof. intros. now apply parallel_serial_col. Qed.
Print Assumptions C26_serial_parallel_agree.

(** With no data an edge is present exactly when u < P, in both updates. *)
Theorem C26_no_data_prior :
  forall order m n u, dm_mix m = false -> nonneg_params m ->
  (forall i j, (i < dm_K m)%nat -> (j < dm_K m)%nat -> unit_interval (u i j) /\ 0 <= n_P n i j <= 1) ->
  Permutation order (seq 0 (dm_K m)) ->
  forall k1 k2, (k1 < dm_K m)%nat -> (k2 < dm_K m)%nat ->
  (resample_A_parallel order m n u [] k1 k2 = true <-> u k1 k2 < n_P n k1 k2) /\
  (resample_A_serial m n u [] k1 k2 = true <-> u k1 k2 < n_P n k1 k2).
Proof.
  intros order m n u Hm Hn Hu Ho k1 k2 H1 H2.
  rewrite <- (@parallel_serial_col order m n u []); auto.
  - cbn. rewrite Rltb_true. tauto.
  - intros d [].
Qed.
Print Assumptions C26_no_data_prior.

(* ------------------------------------------------------------------ *)
(** ** C28 *)

Theorem C28_deterministic_edges :
  forall order m n u data lgam kappa0 nu0 k1 k2,
  nonneg_params m -> good_data m data ->
  (forall i j, (i < dm_K m)%nat -> (j < dm_K m)%nat -> unit_interval (u i j) /\ 0 <= n_P n i j <= 1) ->
  Permutation order (seq 0 (dm_K m)) -> (k1 < dm_K m)%nat -> (k2 < dm_K m)%nat ->
  let edges := (if dm_mix m then [mix_resample_A lgam kappa0 nu0 n u data]
                else [resample_A_serial m n u data; resample_A_parallel order m n u data]) in
  (n_P n k1 k2 = 0 -> forall A', In A' edges -> A' k1 k2 = false) /\
  (n_P n k1 k2 = 1 -> forall A', In A' edges -> A' k1 k2 = true).
Proof.
  intros order m n u data lgam kappa0 nu0 k1 k2 Hn Hd Hu Ho H1 H2 edges.
  assert (Hmix : forall b, n_P n k1 k2 = b2R b -> mix_resample_A lgam kappa0 nu0 n u data k1 k2 = b).
  { intros b Hb. unfold mix_resample_A. rewrite mix_ss_meaning. destruct (Hu k1 k2 H1 H2) as [Hu' Hp].
    rewrite accept_edge by auto. unfold edge_posterior. rewrite Hb.
    match goal with |- Rltb _ (_ * exp ?a / (_ + _ * exp ?b')) = _ => pose proof (exp_pos a); pose proof (exp_pos b') end.
    destruct Hu'. destruct b; cbn [b2R].
    - apply Rltb_true. match goal with |- _ < ?x => replace x with 1; [lra|field; lra] end.
    - apply Rltb_false. match goal with |- ?x <= _ => replace x with 0; [lra|field; lra] end. }
  assert (Hser : dm_mix m = false -> forall b, n_P n k1 k2 = b2R b -> resample_A_serial m n u data k1 k2 = b).
  { intros Hm b Hb. unfold resample_A_serial.
    rewrite (@serial_sweep_col (dm_K m)) by (auto using data_ll_local).
    destruct (@plain_column_scan (col_ll (data_ll m data) k2) (fun i => n_P n i k2) (fun i => u i k2) (dm_K m) (fun i => dm_A m i k2)) as [_ Hs].
    { intros c c' Hc. apply (data_ll_local Hd); auto. }
    rewrite (Hs k1 _ H1 (fun i _ => eq_refl)).
    destruct (@data_ll_fin m data (fun i _ => upd (fun i => if Nat.ltb i k1 then
       plain_column (col_ll (data_ll m data) k2) (fun i => n_P n i k2) (fun i => u i k2) (dm_K m) (fun i => dm_A m i k2) i
       else dm_A m i k2) k1 false i) k2 Hn Hd H2) as (l0 & E0).
    destruct (@data_ll_fin m data (fun i _ => upd (fun i => if Nat.ltb i k1 then
       plain_column (col_ll (data_ll m data) k2) (fun i => n_P n i k2) (fun i => u i k2) (dm_K m) (fun i => dm_A m i k2) i
       else dm_A m i k2) k1 true i) k2 Hn Hd H2) as (l1 & E1).
    unfold col_ll at 1 3. rewrite E0, E1. destruct (Hu k1 k2 H1 H2) as [Hu' Hp]. rewrite accept_edge by auto.
    unfold edge_posterior. rewrite Hb. pose proof (exp_pos l0). pose proof (exp_pos l1). destruct Hu'.
    destruct b; cbn [b2R].
    - apply Rltb_true. match goal with |- _ < ?x => replace x with 1; [lra|field; lra] end.
    - apply Rltb_false. match goal with |- ?x <= _ => replace x with 0; [lra|field; lra] end. }
  assert (G : forall b, n_P n k1 k2 = b2R b -> forall A', In A' edges -> A' k1 k2 = b).
  { intros b Hb A' Hin. unfold edges in Hin. destruct (dm_mix m) eqn:Hm.
    - destruct Hin as [<-|[]]. auto.
    - destruct Hin as [<-|[<-|[]]]; [auto|]. rewrite parallel_serial_col by auto. auto. }
  split; intros HP; [apply (G false)|apply (G true)]; exact HP.
Qed.
Print Assumptions C28_deterministic_edges.
