(** * Props_Joint: property C90, every Gibbs update is a conditional of one and the same joint density. *)
From Coq Require Import Permutation.
From Verif Require Import Prelude ExtReal Arrays Spec_Basis Spec_Discrete Spec_Parents Spec_Gibbs Spec_Network Spec_Joint
  M_Basis M_Parents M_Discrete M_Gibbs M_Dist M_Network M_Sweep M_Prior L_Discrete L_Parents L_Gibbs L_Network L_Sweep L_Joint
  Props_Discrete Props_Parents Props_Gibbs Props_Network Props_Prior.
Set Implicit Arguments.
Open Scope R_scope.

(** ** The joint density *)
(** Prior of all parameters.  Every ordered pair has a weight; without an edge it is Gamma(kappa0, nu0) in the mixture
    model, and Gamma(kappa, V) (and irrelevant to the data) in the spike-and-slab model. *)
Definition param_lp (lgam : R -> R) (st : gibbs) : R :=
  let m := gi_m st in let h := gi_h st in let n := net_view (gi_net st) in let K := dm_K m in
  let slab := fun i j => gamma_lpdf lgam (n_kappa n) (n_V n i j) in
  bias_lp lgam K (h_alpha h) (h_beta h) (dm_lam m) + impulse_lp lgam K (dm_B m) (h_gamma h) (dm_g m)
  + edges_ll K (possible (net_allow (gi_net st))) (n_P n) (dm_A m)
  + all_weights_ll K slab (if dm_mix m then fun _ _ => gamma_lpdf lgam (h_kappa0 h) (h_nu0 h) else slab) (dm_A m) (dm_W m)
  + network_lp lgam (gi_net st).
(** Parameters, data and attributions. *)
Definition complete_joint (lgam : R -> R) (st : gibbs) : R :=
  let m := gi_m st in
  lsum (map (fun d => complete_ll (dm_K m) (dm_B m) (attr_of d) (dm_lam m) (net_weight m) (dm_g m)) (dm_data m)) + param_lp lgam st.
(** Parameters and data, the attributions summed out; [ll] is the log likelihood of the data. *)
Definition data_joint (lgam : R -> R) (st : gibbs) (ll : R) : R := ll + param_lp lgam st.

(** Attributions of positive density: what a parent update leaves behind (see [C90_attributable]). *)
Definition attributable (m : dmodel) (data : list parents) : Prop :=
  forall d, In d data -> pa_K d = dm_K m /\ pa_B d = dm_B m /\ 0 < pa_dt d /\ nonneg_Z d /\
    (forall k, (k < dm_K m)%nat -> (0 <= n_events (pa_T d) (pa_S d) k)%Z) /\
    forall k1 k2, (k1 < dm_K m)%nat -> (k2 < dm_K m)%nat ->
      at_pos d k1 k2 /\ (dm_mix m = false -> dm_A m k1 k2 = false -> children d k1 k2 = 0%Z).
Definition params_pos (m : dmodel) : Prop :=
  (forall k, (k < dm_K m)%nat -> 0 < dm_lam m k) /\
  forall i j, (i < dm_K m)%nat -> (j < dm_K m)%nat -> 0 < dm_W m i j /\ forall b, (b < dm_B m)%nat -> 0 < dm_g m i j b.

Lemma choice_lt {X} (x0 : X) K (P : nat -> X -> Prop) : (forall k, (k < K)%nat -> exists x, P k x) -> exists f, forall k, (k < K)%nat -> P k (f k).
Proof.
  induction K as [|K IH]; intros H; [exists (fun _ => x0); intros; lia|].
  destruct IH as [f Hf]; [intros; apply H; lia|]. destruct (H K ltac:(lia)) as [x Hx].
  exists (upd f K x). intros k Hk. unfold upd. destruct (Nat.eqb_spec k K) as [->|]; [exact Hx|apply Hf; lia].
Qed.
Lemma choice_lt2 {X} (x0 : X) K (P : nat -> nat -> X -> Prop) :
  (forall i j, (i < K)%nat -> (j < K)%nat -> exists x, P i j x) -> exists f, forall i j, (i < K)%nat -> (j < K)%nat -> P i j (f i j).
Proof.
  intros H. destruct (@choice_lt (nat -> X) (fun _ => x0) K (fun i f => forall j, (j < K)%nat -> P i j (f j))) as [f Hf].
  - intros i Hi. apply (choice_lt x0). auto.
  - exists f. auto.
Qed.

(* ------------------------------------------------------------------ *)
(** ** C90 *)

(** Background rates: the vector drawn is requested, coordinate by coordinate, with gamma parameters a, s whose density is
    the conditional of the joint given everything else. *)
Theorem C90_background : forall lgam (g : gam1) st,
  0 < h_alpha (gi_h st) -> 0 < h_beta (gi_h st) -> attributable (gi_m st) (dm_data (gi_m st)) ->
  exists a s : vec,
  (forall k, (k < dm_K (gi_m st))%nat ->
     bias_resample g (h_alpha (gi_h st)) (h_beta (gi_h st)) (dm_data (gi_m st)) k = g k (a k) (s k) /\ 0 < a k /\ 0 < s k) /\
  same_law (fun x => forall k, (k < dm_K (gi_m st))%nat -> 0 < x k)
    (fun x => Rsum (dm_K (gi_m st)) (fun k => gamma_lpdf lgam (a k) (/ s k) (x k)))
    (fun x => complete_joint lgam (with_model st (with_lam (gi_m st) x))).
Proof.
  intros lgam g st Ha Hb HA. set (m := gi_m st) in *. set (h := gi_h st) in *. set (K := dm_K m).
  destruct (@choice_lt (R * R) (0, 0) K (fun k x => bias_resample g (h_alpha h) (h_beta h) (dm_data m) k = g k (fst x) (snd x) /\ 0 < fst x /\ 0 < snd x /\
    same_law (fun x => 0 < x) (fun y => gamma_lpdf lgam (fst x) (/ snd x) y)
     (fun y => gamma_lpdf lgam (h_alpha h) (h_beta h) y
      + lsum (map (fun d => Rsum (pa_T d) (fun t => pois_loglik (IZR (attributed d t k 0)) (pa_dt d) y)) (dm_data m))))) as [f Hf].
  { intros k Hk. destruct (@C20_background_posterior lgam g (h_alpha h) (h_beta h) (dm_data m) k Ha Hb) as (a & s & H).
    - intros d Hd. split; apply (HA d Hd).
    - exists (a, s). exact H. }
  exists (fun k => fst (f k)), (fun k => snd (f k)). split.
  { intros k Hk. destruct (Hf k Hk) as (H1 & H2 & H3 & _). auto. }
  eapply same_law_trans.
  { apply (@same_law_sum R vec K (fun _ x => 0 < x) (fun k y => gamma_lpdf lgam (fst (f k)) (/ snd (f k)) y)
      (fun k y => gamma_lpdf lgam (h_alpha h) (h_beta h) y
        + lsum (map (fun d => Rsum (pa_T d) (fun t => pois_loglik (IZR (attributed d t k 0)) (pa_dt d) y)) (dm_data m))) (fun k x => x k)).
    intros k Hk. apply (Hf k Hk). }
  apply same_law_sym.
  (* the joint, as a function of the rates *)
  eapply same_law_trans with (g := fun x => Rsum K (fun k => gamma_lpdf lgam (h_alpha h) (h_beta h) (x k))
     + lsum (map (fun d => Rsum K (fun k => bkgd_ll (attr_of d) k (x k))) (dm_data m))).
  { eapply same_law_shift with (c := lsum (map (fun d => Rsum K (fun k1 => Rsum K (fun k2 => pair_ll (attr_of d) (dm_B m) k1 k2 (net_weight m k1 k2) (dm_g m k1 k2)))) (dm_data m))
      + (param_lp lgam st - bias_lp lgam K (h_alpha h) (h_beta h) (dm_lam m))).
    intros x _. unfold complete_joint, param_lp, bias_lp. cbn [with_model gi_m gi_h gi_net with_lam dm_K dm_B dm_lam dm_g dm_data dm_A dm_W dm_mix].
    fold m h K.
    rewrite (lsum_map_ext (fun d => complete_ll K (dm_B m) (attr_of d) x (net_weight (with_lam m x)) (dm_g m))
      (fun d => Rsum K (fun k => bkgd_ll (attr_of d) k (x k)) + Rsum K (fun k1 => Rsum K (fun k2 => pair_ll (attr_of d) (dm_B m) k1 k2 (net_weight m k1 k2) (dm_g m k1 k2))))).
    2:{ intros d _. apply complete_ll_split. }
    rewrite lsum_map_plus. ring. }
  eapply same_law_trans with (g := fun x => Rsum K (fun k => gamma_lpdf lgam (h_alpha h) (h_beta h) (x k)) +
     lsum (map (fun d => Rsum K (fun k => Rsum (pa_T d) (fun t => pois_loglik (IZR (attributed d t k 0)) (pa_dt d) (x k)))) (dm_data m))).
  { apply same_law_plus; [apply same_law_eq; reflexivity|]. apply (@same_law_lsum vec parents). intros d Hd.
    apply (@same_law_sum R vec K (fun _ x => 0 < x) (fun k x => bkgd_ll (attr_of d) k x)
      (fun k x => Rsum (pa_T d) (fun t => pois_loglik (IZR (attributed d t k 0)) (pa_dt d) x)) (fun k x => x k)). intros k Hk. apply bkgd_ll_law. apply (HA d Hd). }
  apply same_law_eq. intros x _. rewrite lsum_Rsum_swap, <- Rsum_plus. reflexivity.
Qed.

(** Impulse responses: the whole K x K x B array. *)
Theorem C90_impulses : forall lgam (dr : dir2) st,
  (forall b, (b < dm_B (gi_m st))%nat -> 0 < h_gamma (gi_h st) b) -> attributable (gi_m st) (dm_data (gi_m st)) ->
  (forall i j, (i < dm_K (gi_m st))%nat -> (j < dm_K (gi_m st))%nat -> 0 < dm_W (gi_m st) i j) ->
  exists al : ten,
  (forall i j, (i < dm_K (gi_m st))%nat -> (j < dm_K (gi_m st))%nat ->
     (forall b, ir_resample dr (h_gamma (gi_h st)) (dm_data (gi_m st)) i j b = dr i j (al i j) b) /\
     (forall b, (b < dm_B (gi_m st))%nat -> 0 < al i j b)) /\
  same_law (fun x : ten => forall i j, (i < dm_K (gi_m st))%nat -> (j < dm_K (gi_m st))%nat -> open_simplex (dm_B (gi_m st)) (x i j))
    (fun x => Rsum (dm_K (gi_m st)) (fun i => Rsum (dm_K (gi_m st)) (fun j => dirichlet_lpdf lgam (dm_B (gi_m st)) (al i j) (x i j))))
    (fun x => complete_joint lgam (with_model st (with_g (gi_m st) x))).
Proof.
  intros lgam dr st Hg HA HW. set (m := gi_m st) in *. set (h := gi_h st) in *. set (K := dm_K m) in *. set (B := dm_B m) in *.
  destruct (@choice_lt2 vec (fun _ => 0) K (fun i j al => (forall b, ir_resample dr (h_gamma h) (dm_data m) i j b = dr i j al b) /\ (forall b, (b < B)%nat -> 0 < al b) /\
    same_law (open_simplex B) (dirichlet_lpdf lgam B al) (fun x => dirichlet_lpdf lgam B (h_gamma h) x + lsum (map (fun d => basis_loglik d i j x) (dm_data m))))) as [al Hal].
  { intros i j Hi Hj. destruct (@C22_impulse_posterior lgam dr B (h_gamma h) (dm_data m) i j Hg) as (al & H1 & H2 & H3 & _).
    - intros d Hd. destruct (HA d Hd) as (_ & HB & _ & Hn & _). auto.
    - exists al. auto. }
  exists al. split.
  { intros i j Hi Hj. destruct (Hal i j Hi Hj) as (H1 & H2 & _). auto. }
  eapply same_law_trans.
  { apply (@same_law_sum2 vec ten K (fun _ _ => open_simplex B) (fun i j x => dirichlet_lpdf lgam B (al i j) x)
      (fun i j x => dirichlet_lpdf lgam B (h_gamma h) x + lsum (map (fun d => basis_loglik d i j x) (dm_data m))) (fun i j x => x i j)). intros i j Hi Hj. apply (Hal i j Hi Hj). }
  apply same_law_sym.
  eapply same_law_trans with (g := fun x : ten => Rsum K (fun i => Rsum K (fun j => dirichlet_lpdf lgam B (h_gamma h) (x i j)))
     + lsum (map (fun d => Rsum K (fun i => Rsum K (fun j => pair_ll (attr_of d) B i j (net_weight m i j) (x i j)))) (dm_data m))).
  { eapply same_law_shift with (c := lsum (map (fun d => Rsum K (fun k => bkgd_ll (attr_of d) k (dm_lam m k))) (dm_data m))
      + (param_lp lgam st - impulse_lp lgam K B (h_gamma h) (dm_g m))).
    intros x _. unfold complete_joint, param_lp, impulse_lp. cbn [with_model gi_m gi_h gi_net with_g dm_K dm_B dm_lam dm_g dm_data dm_A dm_W dm_mix].
    fold m h K B.
    rewrite (lsum_map_ext (fun d => complete_ll K B (attr_of d) (dm_lam m) (net_weight (with_g m x)) x)
      (fun d => Rsum K (fun k => bkgd_ll (attr_of d) k (dm_lam m k)) + Rsum K (fun k1 => Rsum K (fun k2 => pair_ll (attr_of d) B k1 k2 (net_weight m k1 k2) (x k1 k2))))).
    2:{ intros d _. apply complete_ll_split. }
    rewrite lsum_map_plus. ring. }
  eapply same_law_trans with (g := fun x : ten => Rsum K (fun i => Rsum K (fun j => dirichlet_lpdf lgam B (h_gamma h) (x i j))) +
     lsum (map (fun d => Rsum K (fun i => Rsum K (fun j => basis_loglik d i j (x i j)))) (dm_data m))).
  { apply same_law_plus; [apply same_law_eq; reflexivity|]. apply (@same_law_lsum ten parents). intros d Hd.
    apply (@same_law_sum2 vec ten K (fun _ _ => open_simplex B) (fun i j x => pair_ll (attr_of d) B i j (net_weight m i j) x) (fun i j x => basis_loglik d i j x) (fun i j x => x i j)).
    intros i j Hi Hj. destruct (HA d Hd) as (_ & HB & Hdt & Hn & _ & HP). destruct (HP i j Hi Hj) as [HF Hch].
    eapply same_law_weaken; [|fold B in HB; rewrite <- HB; apply pair_ll_g; auto].
    - intros x [Hx _]. now rewrite HB.
    - unfold net_weight, edge_weight. destruct (dm_mix m) eqn:Em; [right; now apply HW|]. destruct (dm_A m i j) eqn:EA; [right; now apply HW|left; now apply Hch]. }
  apply same_law_eq. intros x _. rewrite lsum_Rsum_swap, <- Rsum_plus. apply Rsum_ext. intros i _. rewrite lsum_Rsum_swap, <- Rsum_plus. reflexivity.
Qed.

(** Spike-and-slab weights: the whole matrix, absent edges included. *)
Theorem C90_weights : forall lgam (g : gam2) st, dm_mix (gi_m st) = false ->
  let m := gi_m st in let n := net_view (gi_net st) in
  0 < n_kappa n -> (forall i j, (i < dm_K m)%nat -> (j < dm_K m)%nat -> 0 < n_V n i j) ->
  attributable m (dm_data m) -> params_pos m ->
  exists a s : mat,
  (forall i j, (i < dm_K m)%nat -> (j < dm_K m)%nat ->
     ss_W_resample g n (dm_A m) (dm_data m) i j = g i j (a i j) (s i j) /\ 0 < a i j /\ 0 < s i j /\
     (dm_A m i j = false -> a i j = n_kappa n /\ / s i j = n_V n i j)) /\
  same_law (fun x : mat => forall i j, (i < dm_K m)%nat -> (j < dm_K m)%nat -> 0 < x i j)
    (fun x => Rsum (dm_K m) (fun i => Rsum (dm_K m) (fun j => gamma_lpdf lgam (a i j) (/ s i j) (x i j))))
    (fun x => complete_joint lgam (with_model st (with_W m x))).
Proof.
  intros lgam g st Hmix m n Hk HV HA HP. set (K := dm_K m) in *. set (B := dm_B m) in *.
  set (tgt := fun i j w => gamma_lpdf lgam (n_kappa n) (n_V n i j) w
      + if dm_A m i j then lsum (map (fun d => pois_loglik (IZR (children d i j)) (IZR (n_events (pa_T d) (pa_S d) i)) w) (dm_data m)) else 0).
  destruct (@choice_lt2 (R * R) (0, 0) K (fun i j x => (ss_W_resample g n (dm_A m) (dm_data m) i j = g i j (fst x) (snd x) /\ 0 < fst x /\ 0 < snd x /\
     (dm_A m i j = false -> fst x = n_kappa n /\ / snd x = n_V n i j)) /\
     same_law (fun w => 0 < w) (fun w => gamma_lpdf lgam (fst x) (/ snd x) w) (tgt i j))) as [f Hf].
  { intros i j Hi Hj. destruct (@C21_weight_posterior lgam g n (dm_A m) (dm_data m) i j Hk (HV i j Hi Hj)) as (a & s & H1 & H2 & H3 & H4 & H5).
    - intros d Hd. destruct (HA d Hd) as (_ & _ & _ & Hn & He & _). auto.
    - intros E d Hd. destruct (HA d Hd) as (_ & _ & _ & _ & _ & H). apply (H i j Hi Hj); auto.
    - exists (a, s). cbn [fst snd]. auto 10. }
  exists (fun i j => fst (f i j)), (fun i j => snd (f i j)). split; [intros i j Hi Hj; apply (Hf i j Hi Hj)|].
  eapply same_law_trans.
  { apply (@same_law_sum2 R mat K (fun _ _ w => 0 < w) (fun i j w => gamma_lpdf lgam (fst (f i j)) (/ snd (f i j)) w) tgt (fun i j x => x i j)).
    intros i j Hi Hj. apply (Hf i j Hi Hj). }
  apply same_law_sym.
  set (ew := fun i j (w : R) => if dm_A m i j then w else 0).
  eapply same_law_trans with (g := fun x : mat => Rsum K (fun i => Rsum K (fun j => gamma_lpdf lgam (n_kappa n) (n_V n i j) (x i j)))
     + lsum (map (fun d => Rsum K (fun i => Rsum K (fun j => pair_ll (attr_of d) B i j (ew i j (x i j)) (dm_g m i j)))) (dm_data m))).
  { eapply same_law_shift with (c := lsum (map (fun d => Rsum K (fun k => bkgd_ll (attr_of d) k (dm_lam m k))) (dm_data m))
      + (param_lp lgam st - Rsum K (fun i => Rsum K (fun j => gamma_lpdf lgam (n_kappa n) (n_V n i j) (dm_W m i j))))).
    intros x _. unfold complete_joint, param_lp, all_weights_ll. cbn [with_model gi_m gi_h gi_net with_W dm_K dm_B dm_lam dm_g dm_data dm_A dm_W dm_mix].
    fold m n K B. fold m in Hmix. rewrite !Hmix.
    rewrite (lsum_map_ext (fun d => complete_ll K B (attr_of d) (dm_lam m) (net_weight (with_W m x)) (dm_g m))
      (fun d => Rsum K (fun k => bkgd_ll (attr_of d) k (dm_lam m k)) + Rsum K (fun k1 => Rsum K (fun k2 => pair_ll (attr_of d) B k1 k2 (ew k1 k2 (x k1 k2)) (dm_g m k1 k2))))).
    2:{ intros d _. rewrite complete_ll_split. unfold net_weight. cbn [with_W dm_mix dm_A dm_W]. rewrite Hmix. reflexivity. }
    rewrite lsum_map_plus.
    assert (E : forall y : mat, Rsum K (fun i => Rsum K (fun j => if dm_A m i j then gamma_lpdf lgam (n_kappa n) (n_V n i j) (y i j) else gamma_lpdf lgam (n_kappa n) (n_V n i j) (y i j)))
       = Rsum K (fun i => Rsum K (fun j => gamma_lpdf lgam (n_kappa n) (n_V n i j) (y i j)))).
    { intros y. apply Rsum2_ext. intros i j _ _. now destruct (dm_A m i j). }
    rewrite !E. ring. }
  set (pl := fun d i j w => if dm_A m i j then pois_loglik (IZR (children d i j)) (IZR (n_events (pa_T d) (pa_S d) i)) w else 0).
  eapply same_law_trans with (g := fun x : mat => Rsum K (fun i => Rsum K (fun j => gamma_lpdf lgam (n_kappa n) (n_V n i j) (x i j)))
     + lsum (map (fun d => Rsum K (fun i => Rsum K (fun j => pl d i j (x i j)))) (dm_data m))).
  { apply same_law_plus; [apply same_law_eq; reflexivity|]. apply (@same_law_lsum mat parents). intros d Hd.
    apply (@same_law_sum2 R mat K (fun _ _ w => 0 < w) (fun i j w => pair_ll (attr_of d) B i j (ew i j w) (dm_g m i j)) (pl d) (fun i j x => x i j)).
    intros i j Hi Hj. destruct (HA d Hd) as (_ & HB & Hdt & Hn & _ & HPd). destruct (HPd i j Hi Hj) as [HF _]. unfold ew, pl.
    destruct (dm_A m i j) eqn:EA.
    - fold B in HB. rewrite <- HB. apply pair_ll_w; auto. intros b Hb. rewrite HB in Hb. destruct HP as [_ HP]. now apply HP.
    - exists (pair_ll (attr_of d) B i j 0 (dm_g m i j)). intros w _. ring. }
  apply same_law_eq. intros x _. rewrite lsum_Rsum_swap, <- Rsum_plus. apply Rsum_ext. intros i Hi. rewrite lsum_Rsum_swap, <- Rsum_plus.
  apply Rsum_ext. intros j Hj. unfold tgt, pl. destruct (dm_A m i j); [reflexivity|]. f_equal.
  clear. generalize (dm_data m) as l. induction l as [|d l IH]; cbn [map lsum]; [reflexivity|]. rewrite IH. ring.
Qed.

(** Parents of one data set: however the counts are attributed by the sampler, complete-data likelihood = likelihood
    with attributions summed out + log probability of the requested multinomials, up to a constant of the counts alone. *)
Theorem C90_parents : forall use_gsl d, fits d -> 0 < pa_dt d ->
  exists c0, forall q, pa_nonneg d (q_lam q) (q_W q) (q_g q) ->
  exists L (pr : nat -> nat -> vec), pa_ll d q = Fin L /\
  forall mult, multinomial_contract (1 + pa_K d * pa_B d) mult ->
  exists d', pa_resample use_gsl mult d q = Ok d' /\
   (forall k r, (k < pa_K d)%nat -> (r < pa_Tk d k)%nat ->
      prob_vec (1 + pa_K d * pa_B d) (pr k r) /\
      forall c, (c < 1 + pa_K d * pa_B d)%nat -> attributed d' (pa_row d k r) k c = mult k r (pa_S d (pa_row d k r) k) (pr k r) c) /\
   complete_ll (pa_K d) (pa_B d) (attr_of d') (q_lam q) (q_W q) (q_g q)
   = L + Rsum (pa_K d) (fun k => Rsum (pa_Tk d k) (fun r =>
       multinomial_lpmf (1 + pa_K d * pa_B d) (pa_S d (pa_row d k r) k) (pr k r) (mult k r (pa_S d (pa_row d k r) k) (pr k r)))) + c0.
Proof.
  intros use_gsl d Hf Hdt. set (M := (1 + pa_K d * pa_B d)%nat).
  exists (Rsum (pa_K d) (fun k => Rsum (pa_Tk d k) (fun r => IZR (pa_S d (pa_row d k r) k) * ln (pa_dt d) - lfact (pa_S d (pa_row d k r) k)))).
  intros q Hn.
  set (req := fun k r => snd (if use_gsl then request_gsl d q k r else request_python d q k r)).
  exists (Rsum (pa_K d) (fun k => - q_lam q k * INR (pa_T d) * pa_dt d
    - Rsum (pa_K d) (fun k1 => q_W q k1 k * Rsum (pa_T d) (fun t => IZR (pa_S d t k1)))
    + Rsum (pa_T d) (fun t => IZR (pa_S d t k) * ln (hawkes_rate (pa_K d) (pa_B d) (q_lam q) (q_W q) (q_g q) (pa_F d) t k)))), req.
  split.
  { unfold pa_ll. apply esum_fin. intros k Hk. apply ll_single_fin; auto. intros t Ht Hs.
    destruct (@pa_row_surj d k t Ht Hs) as (r & Hr & <-). now apply (@row_rate_pos d q k r). }
  intros mult Hm. destruct (@resample_ok use_gsl mult d q Hn Hf) as (d' & E). exists d'. split; [exact E|].
  destruct (@resample_row use_gsl mult d q d' Hn Hf Hm E) as (Ep & HZ).
  assert (Hpr : forall k r, (k < pa_K d)%nat -> (r < pa_Tk d k)%nat -> prob_vec M (req k r)).
  { intros k r Hk Hr. unfold req. destruct use_gsl; now apply request_prob. }
  assert (Hrq : forall k r c, req k r c = snd (request_python d q k r) c).
  { intros k r c. unfold req. destruct use_gsl; [apply request_gsl_eq|reflexivity]. }
  assert (Hmu : forall k r, (k < pa_K d)%nat -> (r < pa_Tk d k)%nat -> multinomial_outcome M (pa_S d (pa_row d k r) k) (req k r) (mult k r (pa_S d (pa_row d k r) k) (req k r))).
  { intros k r Hk Hr. apply Hm; [|now apply Hpr]. destruct (@pa_row_in d k r Hr) as [Ht _]. apply (Hf _ _ Ht Hk). }
  assert (HZm : forall k r c, (k < pa_K d)%nat -> (r < pa_Tk d k)%nat -> (c < M)%nat -> pa_Z d' k r c = mult k r (pa_S d (pa_row d k r) k) (req k r) c).
  { intros k r c Hk Hr Hc. destruct (@fits_Ss d k r Hf Hk Hr) as [Es _].
    assert (Eu : pa_Z d' k r c = u32 (mult k r (pa_Ss d k r) (req k r) c)).
    { unfold pa_resample, resample_Z_gsl, resample_Z_python in E. unfold req. destruct use_gsl.
      - destruct (negb _) in E; [discriminate|]. injection E as <-. reflexivity.
      - destruct (negb _) in E; [discriminate|]. destruct (negb _) in E; [discriminate|]. injection E as <-. reflexivity. }
    rewrite Eu, Es. apply u32_small. destruct (Hmu k r Hk Hr) as (H0 & H1 & _). split; [auto|].
    destruct (@pa_row_in d k r Hr) as [Ht _].
    apply Z.le_lt_trans with (pa_S d (pa_row d k r) k); [|apply (Hf _ _ Ht Hk)].
    rewrite <- H1 at 2. apply (@Zsum_term_le M (mult k r (pa_S d (pa_row d k r) k) (req k r))); auto. }
  assert (Hat : forall k r c, (r < pa_Tk d k)%nat -> attributed d' (pa_row d k r) k c = pa_Z d' k r c).
  { intros k r c Hr. rewrite Ep. apply (@attributed_row (set_Z d (pa_Z d')) k r c Hr). }
  split.
  { intros k r Hk Hr. split; [now apply Hpr|]. intros c Hc. rewrite Hat by auto. now apply HZm. }
  assert (Ed : pa_K d = pa_K d' /\ pa_B d = pa_B d' /\ pa_T d = pa_T d' /\ pa_S d = pa_S d' /\ pa_dt d = pa_dt d' /\ pa_F d = pa_F d') by (rewrite Ep; auto 10).
  destruct Ed as (EK & EB & ET & ES & Edt & EF).
  rewrite EK, EB at 1. rewrite complete_ll_cols. rewrite <- EK, <- EB, <- ET, <- ES, <- Edt. fold M.
  rewrite <- !Rsum_plus. apply Rsum_ext. intros k Hk.
  match goal with |- ?a - ?w + ?x = ?a - ?w' + ?y + ?z + ?u => assert (E1 : w = w'); [|enough (x = y + z + u) by lra] end.
  { apply Rsum_ext. intros k1 _. f_equal. unfold n_events. now rewrite IZR_Zsum. }
  rewrite <- (@sparse_Rsum d k (fun t => IZR (pa_S d t k) * _)) by (intros t _ ->; ring).
  rewrite <- (@sparse_Rsum d k).
  2:{ intros t Ht Hs. apply Rsum_0. intros c _. rewrite (@attributed_none d' t k c), lfact_0; [ring|now rewrite <- ET|now rewrite <- ES]. }
  rewrite <- !Rsum_plus. apply Rsum_ext. intros r Hr.
  assert (Hnv : forall c, (c < M)%nat -> 0 <= pvec_python d q k r c) by (intros; now apply pvec_nonneg).
  pose proof (@multinomial_row M (pa_S d (pa_row d k r) k) (pvec_python d q k r) (pa_Z d' k r) (pa_dt d) Hdt Hnv) as R1.
  assert (Es : Rsum M (pvec_python d q k r) = row_rate d q k r) by apply pvec_sum.
  rewrite !Es in R1. specialize (R1 (@row_rate_pos d q k r Hn Hk Hr) (HZ k r Hk Hr)).
  transitivity (Rsum M (fun c => IZR (pa_Z d' k r c) * ln (pvec_python d q k r c * pa_dt d) - lfact (pa_Z d' k r c))).
  { apply Rsum_ext. intros c _. rewrite Hat by auto. rewrite pvec_cause. unfold cause_rate. now rewrite <- EB, <- EF. }
  rewrite R1. change (row_rate d q k r) with (hawkes_rate (pa_K d) (pa_B d) (q_lam q) (q_W q) (q_g q) (pa_F d) (pa_row d k r) k).
  match goal with |- ?a + ?b + ?c = ?b + ?a' + ?c => enough (a = a') by lra end.
  unfold multinomial_lpmf. f_equal. apply Rsum_ext. intros c Hc. rewrite HZm by auto. rewrite Hrq. reflexivity.
Qed.
Print Assumptions C90_parents.

Lemma Rsum2_upd2 {X} K (F : nat -> nat -> X -> R) (M : nat -> nat -> X) k1 k2 a : (k1 < K)%nat -> (k2 < K)%nat ->
  Rsum K (fun i => Rsum K (fun j => F i j (upd2 M k1 k2 a i j)))
  = Rsum K (fun i => Rsum K (fun j => F i j (M i j))) + (F k1 k2 a - F k1 k2 (M k1 k2)).
Proof.
  intros H1 H2.
  transitivity (Rsum K (fun i => Rsum K (fun j => F i j (M i j) + (if (i =? k1)%nat then (if (j =? k2)%nat then F k1 k2 a - F k1 k2 (M k1 k2) else 0) else 0)))).
  - apply Rsum2_ext. intros i j _ _. unfold upd2. destruct (Nat.eqb_spec i k1) as [->|]; destruct (Nat.eqb_spec j k2) as [->|]; cbn [andb]; ring.
  - rewrite (@Rsum_ext K _ (fun i => Rsum K (fun j => F i j (M i j)) + (if (i =? k1)%nat then F k1 k2 a - F k1 k2 (M k1 k2) else 0))).
    + rewrite Rsum_plus. f_equal. rewrite (Rsum_ind K k1 (fun _ => F k1 k2 a - F k1 k2 (M k1 k2))). destruct (Nat.ltb_spec k1 K); [reflexivity|lia].
    + intros i _. rewrite Rsum_plus. f_equal. destruct (i =? k1)%nat; [|apply Rsum_zero].
      rewrite (Rsum_ind K k2 (fun _ => F k1 k2 a - F k1 k2 (M k1 k2))). destruct (Nat.ltb_spec k2 K); [reflexivity|lia].
Qed.

(** Spike-and-slab edges, attributions summed out: edge (k1, k2) is updated given the matrix M in which the edges before
    it in its column are new and the others old; it is drawn from its conditional under the joint. *)
Theorem C90_edges : forall lgam (parallel : bool) order st (u : mat),
  let m := gi_m st in let n := net_view (gi_net st) in
  dm_mix m = false -> nonneg_params m -> good_data m (dm_data m) ->
  (forall i j, (i < dm_K m)%nat -> (j < dm_K m)%nat -> unit_interval (u i j) /\ 0 <= n_P n i j <= 1) ->
  Permutation order (seq 0 (dm_K m)) ->
  let A' := if parallel then resample_A_parallel order m n u (dm_data m) else resample_A_serial m n u (dm_data m) in
  forall k1 k2 (M : bmat), (k1 < dm_K m)%nat -> (k2 < dm_K m)%nat ->
  (forall i, (i < dm_K m)%nat -> M i k2 = if Nat.ltb i k1 then A' i k2 else dm_A m i k2) ->
  possible (net_allow (gi_net st)) k1 k2 = true -> 0 < n_P n k1 k2 < 1 ->
  exists L : bool -> R,
  (forall a, log_likelihood (with_A m (upd2 M k1 k2 a)) All = Ok (Fin (L a))) /\
  let J := fun a => data_joint lgam (with_model st (with_A m (upd2 M k1 k2 a))) (L a) in
  (A' k1 k2 = true <-> u k1 k2 < exp (J true) / (exp (J false) + exp (J true))).
Proof.
  intros lgam parallel order st u m n Hmix Hn Hg Hu Ho A' k1 k2 M Hk1 Hk2 HM Hpos HP.
  destruct (@C25_edges_from_posterior parallel order m n u Hmix Hn Hg Hu Ho k1 k2 M Hk1 Hk2 HM) as (L0 & L1 & E0 & E1 & EA).
  exists (fun a : bool => if a then L1 else L0). split; [intros []; auto|]. cbv zeta. cbv beta.
  fold A' in EA. rewrite EA.
  set (J := fun a : bool => data_joint lgam (with_model st (with_A m (upd2 M k1 k2 a))) (if a then L1 else L0)).
  change (u k1 k2 < edge_posterior (n_P n k1 k2) L0 L1 <-> u k1 k2 < exp (J true) / (exp (J false) + exp (J true))).
  assert (EJ : exists c, forall a, J a = (if a then L1 else L0) + bern_ll (n_P n k1 k2) a + c).
  { exists (param_lp lgam (with_model st (with_A m M)) - bern_ll (n_P n k1 k2) (M k1 k2)). intros a. unfold J, data_joint.
    enough (param_lp lgam (with_model st (with_A m (upd2 M k1 k2 a))) = param_lp lgam (with_model st (with_A m M)) + (bern_ll (n_P n k1 k2) a - bern_ll (n_P n k1 k2) (M k1 k2))) by lra.
    unfold param_lp. cbn [with_model gi_m gi_h gi_net with_A dm_K dm_B dm_lam dm_g dm_data dm_A dm_W dm_mix]. fold m n. rewrite Hmix.
    assert (Ew : forall A, all_weights_ll (dm_K m) (fun i j => gamma_lpdf lgam (n_kappa n) (n_V n i j)) (fun i j => gamma_lpdf lgam (n_kappa n) (n_V n i j)) A (dm_W m)
       = Rsum (dm_K m) (fun i => Rsum (dm_K m) (fun j => gamma_lpdf lgam (n_kappa n) (n_V n i j) (dm_W m i j)))).
    { intros A. unfold all_weights_ll. apply Rsum2_ext. intros i j _ _. now destruct (A i j). }
    rewrite !Ew. unfold edges_ll.
    rewrite (@Rsum2_upd2 bool (dm_K m) (fun i j x => if possible (net_allow (gi_net st)) i j then bern_ll (n_P n i j) x else 0) M k1 k2 a Hk1 Hk2).
    cbv beta. rewrite Hpos. ring. }
  destruct EJ as [c EJ]. rewrite (EJ true), (EJ false). cbn [bern_ll]. rewrite !exp_plus, !exp_ln by lra. unfold edge_posterior.
  assert (Hc := exp_pos c). pose proof (exp_pos L0) as H0. pose proof (exp_pos L1) as H1.
  replace (exp L1 * n_P n k1 k2 * exp c / (exp L0 * (1 - n_P n k1 k2) * exp c + exp L1 * n_P n k1 k2 * exp c))
    with (n_P n k1 k2 * exp L1 / (n_P n k1 k2 * exp L1 + (1 - n_P n k1 k2) * exp L0)); [reflexivity|].
  assert (0 < n_P n k1 k2 * exp L1) by (apply Rmult_lt_0_compat; lra). assert (0 < (1 - n_P n k1 k2) * exp L0) by (apply Rmult_lt_0_compat; lra).
  field. split; nra.
Qed.
Print Assumptions C90_edges.

(** Mixture model: adjacency with the weights integrated out, then the weights given the adjacency; together a draw of
    both from the joint (weights are clipped at 1e-32 afterwards). *)
Theorem C90_mixture : forall lgam (g : gam2) st (u : mat), dm_mix (gi_m st) = true ->
  let m := gi_m st in let n := net_view (gi_net st) in let h := gi_h st in
  0 < h_kappa0 h -> 0 < h_nu0 h -> 0 < n_kappa n ->
  (forall i j, (i < dm_K m)%nat -> (j < dm_K m)%nat -> 0 < n_V n i j /\ unit_interval (u i j) /\ 0 <= n_P n i j <= 1) ->
  attributable m (dm_data m) -> params_pos m ->
  exists (M : nat -> nat -> bool -> R) (c0 : R), 
  (forall i j, (i < dm_K m)%nat -> (j < dm_K m)%nat ->
    (mix_resample_A lgam (h_kappa0 h) (h_nu0 h) n u (dm_data m) i j = true <-> u i j < edge_posterior (n_P n i j) (M i j false) (M i j true))) /\
  forall A : bmat, exists a s : mat,
  (forall i j, (i < dm_K m)%nat -> (j < dm_K m)%nat ->
    mix_W_resample g (h_kappa0 h) (h_nu0 h) n A (dm_data m) i j = Rmax (/ 10 ^ 32) (g i j (a i j) (s i j)) /\ 0 < a i j /\ 0 < s i j) /\
  forall W : mat, (forall i j, (i < dm_K m)%nat -> (j < dm_K m)%nat -> 0 < W i j) ->
   complete_joint lgam (with_model st (with_W (with_A m A) W))
   = Rsum (dm_K m) (fun i => Rsum (dm_K m) (fun j => (if possible (net_allow (gi_net st)) i j then bern_ll (n_P n i j) (A i j) else 0) + M i j (A i j)))
     + Rsum (dm_K m) (fun i => Rsum (dm_K m) (fun j => gamma_lpdf lgam (a i j) (/ s i j) (W i j))) + c0.
Proof.
  intros lgam g st u Hmix m n h Hk0 Hn0 Hk HV HA HP. fold m in Hmix. set (K := dm_K m) in *. set (B := dm_B m) in *.
  assert (Hok : forall i j, (i < K)%nat -> (j < K)%nat -> mix_ok (h_kappa0 h) (h_nu0 h) n (dm_data m) i j).
  { intros i j Hi Hj. destruct (HV i j Hi Hj) as (H1 & _ & _). repeat split; auto.
    all: destruct (HA d H) as (_ & _ & _ & Hn & He & _); auto. }
  destruct (@choice_lt2 (bool -> R) (fun _ => 0) K (fun i j M =>
    (mix_resample_A lgam (h_kappa0 h) (h_nu0 h) n u (dm_data m) i j = true <-> u i j < edge_posterior (n_P n i j) (M false) (M true)) /\
    forall A : bmat, exists a s, mix_W_resample g (h_kappa0 h) (h_nu0 h) n A (dm_data m) i j = Rmax (/ 10 ^ 32) (g i j a s) /\ 0 < a /\ 0 < s /\
    (forall w, 0 < w -> mix_joint lgam (h_kappa0 h) (h_nu0 h) n (dm_data m) i j (A i j) w = M (A i j) + gamma_lpdf lgam a (/ s) w))) as [M HM].
  { intros i j Hi Hj. destruct (HV i j Hi Hj) as (_ & H2 & H3).
    destruct (@C24_mixture_edge_update lgam (h_kappa0 h) (h_nu0 h) n u g (dm_data m) i j (Hok i j Hi Hj) H2 H3) as (M & H4 & H5).
    exists M. split; [exact H4|]. intros A. destruct (H5 A) as (a & s & H6 & H7 & H8 & H9 & _). exists a, s. auto. }
  (* the likelihood of each data set as a function of W *)
  assert (HL : exists c1, forall W : mat, (forall i j, (i < K)%nat -> (j < K)%nat -> 0 < W i j) ->
     lsum (map (fun d => complete_ll K B (attr_of d) (dm_lam m) W (dm_g m)) (dm_data m))
     = Rsum K (fun i => Rsum K (fun j => lsum (map (fun d => pois_loglik (IZR (children d i j)) (IZR (n_events (pa_T d) (pa_S d) i)) (W i j)) (dm_data m)))) + c1).
  { assert (S1 : same_law (fun W : mat => forall i j, (i < K)%nat -> (j < K)%nat -> 0 < W i j)
       (fun W => lsum (map (fun d => complete_ll K B (attr_of d) (dm_lam m) W (dm_g m)) (dm_data m)))
       (fun W => lsum (map (fun d => Rsum K (fun i => Rsum K (fun j => pois_loglik (IZR (children d i j)) (IZR (n_events (pa_T d) (pa_S d) i)) (W i j)))) (dm_data m)))).
    { apply (@same_law_lsum mat parents). intros d Hd. destruct (HA d Hd) as (_ & HB & Hdt & Hn & _ & HPd).
      destruct (@same_law_sum2 R mat K (fun _ _ w => 0 < w) (fun i j w => pair_ll (attr_of d) B i j w (dm_g m i j))
        (fun i j w => pois_loglik (IZR (children d i j)) (IZR (n_events (pa_T d) (pa_S d) i)) w) (fun i j x => x i j)) as [c Hc].
      - intros i j Hi Hj. fold B in HB. rewrite <- HB. apply pair_ll_w; auto; [apply (HPd i j Hi Hj)|]. intros b Hb. rewrite HB in Hb. destruct HP as [_ HP]. now apply HP.
      - exists (Rsum K (fun k => bkgd_ll (attr_of d) k (dm_lam m k)) + c). intros W HW. rewrite complete_ll_split. rewrite (Hc W HW). ring. }
    destruct S1 as [c1 Hc1]. exists c1. intros W HW. rewrite (Hc1 W HW). f_equal.
    rewrite lsum_Rsum_swap. apply Rsum_ext. intros i _. apply lsum_Rsum_swap. }
  destruct HL as [c1 HL].
  exists M, (c1 + bias_lp lgam K (h_alpha h) (h_beta h) (dm_lam m) + impulse_lp lgam K B (h_gamma h) (dm_g m) + network_lp lgam (gi_net st)).
  split; [intros i j Hi Hj; apply (HM i j Hi Hj)|]. intros A.
  destruct (@choice_lt2 (R * R) (0, 0) K (fun i j x => mix_W_resample g (h_kappa0 h) (h_nu0 h) n A (dm_data m) i j = Rmax (/ 10 ^ 32) (g i j (fst x) (snd x)) /\ 0 < fst x /\ 0 < snd x /\
    (forall w, 0 < w -> mix_joint lgam (h_kappa0 h) (h_nu0 h) n (dm_data m) i j (A i j) w = M i j (A i j) + gamma_lpdf lgam (fst x) (/ snd x) w))) as [f Hf].
  { intros i j Hi Hj. destruct (proj2 (HM i j Hi Hj) A) as (a & s & H). exists (a, s). exact H. }
  exists (fun i j => fst (f i j)), (fun i j => snd (f i j)). split.
  { intros i j Hi Hj. destruct (Hf i j Hi Hj) as (H1 & H2 & H3 & _). auto. }
  intros W HW. unfold complete_joint, param_lp. cbn [with_model gi_m gi_h gi_net with_W with_A dm_K dm_B dm_lam dm_g dm_data dm_A dm_W dm_mix].
  fold m n h K B.
  assert (Enw : net_weight (with_W (with_A m A) W) = W) by (unfold net_weight; cbn [with_W with_A dm_mix dm_W]; now rewrite Hmix).
  rewrite Enw, HL by auto. rewrite Hmix. unfold edges_ll, all_weights_ll.
  assert (EM : Rsum K (fun i => Rsum K (fun j => if A i j then gamma_lpdf lgam (n_kappa n) (n_V n i j) (W i j) else gamma_lpdf lgam (h_kappa0 h) (h_nu0 h) (W i j)))
     + Rsum K (fun i => Rsum K (fun j => lsum (map (fun d => pois_loglik (IZR (children d i j)) (IZR (n_events (pa_T d) (pa_S d) i)) (W i j)) (dm_data m))))
     = Rsum K (fun i => Rsum K (fun j => M i j (A i j))) + Rsum K (fun i => Rsum K (fun j => gamma_lpdf lgam (fst (f i j)) (/ snd (f i j)) (W i j)))).
  { rewrite <- !Rsum_plus. apply Rsum_ext. intros i Hi. rewrite <- !Rsum_plus. apply Rsum_ext. intros j Hj.
    destruct (Hf i j Hi Hj) as (_ & _ & _ & H). rewrite <- (H (W i j) (HW i j Hi Hj)). reflexivity. }
  rewrite (@Rsum_ext K (fun i => Rsum K (fun j => (if possible (net_allow (gi_net st)) i j then bern_ll (n_P n i j) (A i j) else 0) + M i j (A i j)))
     (fun i => Rsum K (fun j => if possible (net_allow (gi_net st)) i j then bern_ll (n_P n i j) (A i j) else 0) + Rsum K (fun j => M i j (A i j)))) by (intros; apply Rsum_plus).
  rewrite Rsum_plus. lra.
Qed.
Print Assumptions C90_mixture.

(** ** Network parameters *)
(** Slab weights of absent edges integrated out (their densities integrate to 1); only in the spike-and-slab model do
    they depend on the network, and there they are redrawn right after it (M_Sweep). *)
Definition absent_lp (lgam : R -> R) (st : gibbs) : R :=
  let m := gi_m st in let n := net_view (gi_net st) in
  Rsum (dm_K m) (fun i => Rsum (dm_K m) (fun j => if dm_A m i j then 0 else gamma_lpdf lgam (n_kappa n) (n_V n i j) (dm_W m i j))).
Definition network_joint (lgam : R -> R) (st : gibbs) : R :=
  if dm_mix (gi_m st) then complete_joint lgam st else complete_joint lgam st - absent_lp lgam st.
Definition with_net (st : gibbs) (no : netobj) : gibbs := {| gi_m := gi_m st; gi_net := no; gi_h := gi_h st |}.
Definition legal_edges (st : gibbs) : Prop := net_allow (gi_net st) = false -> no_self_edges (dm_K (gi_m st)) (dm_A (gi_m st)).

Lemma network_joint_split lgam st : exists c, forall no,
  let n := net_view no in let m := gi_m st in
  network_joint lgam (with_net st no)
  = edges_ll (dm_K m) (possible (net_allow no)) (n_P n) (dm_A m)
    + Rsum (dm_K m) (fun i => Rsum (dm_K m) (fun j => if dm_A m i j then gamma_lpdf lgam (n_kappa n) (n_V n i j) (dm_W m i j) else 0))
    + network_lp lgam no + c.
Proof.
  set (m := gi_m st). set (h := gi_h st). set (K := dm_K m).
  exists (lsum (map (fun d => complete_ll K (dm_B m) (attr_of d) (dm_lam m) (net_weight m) (dm_g m)) (dm_data m))
    + bias_lp lgam K (h_alpha h) (h_beta h) (dm_lam m) + impulse_lp lgam K (dm_B m) (h_gamma h) (dm_g m)
    + (if dm_mix m then Rsum K (fun i => Rsum K (fun j => if dm_A m i j then 0 else gamma_lpdf lgam (h_kappa0 h) (h_nu0 h) (dm_W m i j))) else 0)).
  intros no n. unfold network_joint, complete_joint, param_lp, absent_lp. cbn [with_net gi_m gi_h gi_net]. fold m h K n.
  assert (Eg : forall F G : nat -> nat -> R, Rsum K (fun i => Rsum K (fun j => if dm_A m i j then F i j else G i j))
     = Rsum K (fun i => Rsum K (fun j => if dm_A m i j then F i j else 0)) + Rsum K (fun i => Rsum K (fun j => if dm_A m i j then 0 else G i j))).
  { intros F G. rewrite <- Rsum2_plus. apply Rsum2_ext. intros i j _ _. destruct (dm_A m i j); ring. }
  unfold all_weights_ll. destruct (dm_mix m).
  - rewrite (Eg (fun i j => gamma_lpdf lgam (n_kappa n) (n_V n i j) (dm_W m i j)) (fun i j => gamma_lpdf lgam (h_kappa0 h) (h_nu0 h) (dm_W m i j))). ring.
  - rewrite (Eg (fun i j => gamma_lpdf lgam (n_kappa n) (n_V n i j) (dm_W m i j)) (fun i j => gamma_lpdf lgam (n_kappa n) (n_V n i j) (dm_W m i j))). ring.
Qed.

Lemma block_split K C (c : nat -> nat) (F : nat -> nat -> R) : (forall k, (k < K)%nat -> (c k < C)%nat) ->
  Rsum K (fun i => Rsum K (fun j => F i j))
  = Rsum C (fun a => Rsum C (fun b => Rsum K (fun i => Rsum K (fun j => if in_block c a b i j then F i j else 0)))).
Proof.
  intros Hc. symmetry.
  transitivity (Rsum C (fun a => Rsum K (fun i => Rsum K (fun j => if (c i =? a)%nat then F i j else 0)))).
  - apply Rsum_ext. intros a _. rewrite Rsum_swap. apply Rsum_ext. intros i _. rewrite Rsum_swap. apply Rsum_ext. intros j Hj.
    unfold in_block. destruct (c i =? a)%nat; cbn [andb]; [|apply Rsum_zero].
    rewrite (@Rsum_ext C _ (fun b => if (b =? c j)%nat then F i j else 0)) by (intros b _; now rewrite Nat.eqb_sym).
    rewrite (Rsum_ind C (c j) (fun _ => F i j)). destruct (Nat.ltb_spec (c j) C) as [|H]; [reflexivity|]. specialize (Hc j Hj). lia.
  - rewrite Rsum_swap. apply Rsum_ext. intros i Hi. rewrite Rsum_swap. apply Rsum_ext. intros j _.
    rewrite (@Rsum_ext C _ (fun a => if (a =? c i)%nat then F i j else 0)) by (intros a _; now rewrite Nat.eqb_sym).
    rewrite (Rsum_ind C (c i) (fun _ => F i j)). destruct (Nat.ltb_spec (c i) C) as [|H]; [reflexivity|]. specialize (Hc i Hi). lia.
Qed.

(** What the network update of a block model stores (labels are updated between scales and block weights). *)
Lemma sbm_resample_steps (lgam : R -> R) (fp : bool) d A W s : sb_fixed s = false ->
  let s1 := if fp then s else sb_set s (sb_m s) (sb_c s) (fun a b => gd_beta d a b (fst (p_request s A a b)) (snd (p_request s A a b))) (sb_v s) in
  let s2 := sb_set s1 (sb_m s1) (sb_c s1) (sb_p s1) (fun a b => gd_gamma d a b (fst (v_request s1 A W a b)) (snd (v_request s1 A W a b))) in
  let s3 := sb_set s2 (sb_m s2) (resample_c lgam (gd_pick d) s2 A W) (sb_p s2) (sb_v s2) in
  sbm_resample lgam fp d A W s = sb_set s3 (gd_dir d (m_request s3)) (sb_c s3) (sb_p s3) (sb_v s3).
Proof. intros H. unfold sbm_resample. rewrite H. destruct fp; reflexivity. Qed.

(** Connection probabilities. *)
Lemma network_joint_p lgam st fp s : gi_net st = NetSbm fp s -> sb_K s = dm_K (gi_m st) -> labels_ok s ->
  same_law (fun x : mat => True)
    (fun x => network_joint lgam (with_net st (NetSbm fp (sb_set s (sb_m s) (sb_c s) x (sb_v s)))))
    (fun x : mat => Rsum (sb_C s) (fun a => Rsum (sb_C s) (fun b => p_joint lgam (sb_K s) (sb_allow s) (sb_c s) (sb_tau1 s) (sb_tau0 s) (dm_A (gi_m st)) a b (x a b)))).
Proof.
  intros En EK Hl. set (m := gi_m st) in *. set (A := dm_A m). set (C := sb_C s).
  destruct (network_joint_split lgam st) as [c Hc].
  eapply same_law_shift with (c := Rsum (dm_K m) (fun i => Rsum (dm_K m) (fun j => if A i j then gamma_lpdf lgam (sb_kappa s) (sbm_V s i j) (dm_W m i j) else 0))
      + (dirichlet_lpdf lgam C (sb_pi s) (sb_m s) + Rsum C (fun a => Rsum C (fun b => gamma_lpdf lgam (sb_alpha s) (sb_beta s) (sb_v s a b))) + Rsum (sb_K s) (fun k => ln (sb_m s (sb_c s k)))) + c).
    intros x _. rewrite Hc. cbn [net_view net_allow net_of_sbm n_P n_V n_kappa network_lp sb_set sb_allow sb_K sb_C sb_pi sb_m sb_c sb_p sb_v sb_tau0 sb_tau1 sb_alpha sb_beta sb_kappa].
    fold m A C. unfold sbm_lp, p_joint. rewrite Rsum2_plus. unfold edges_ll.
    rewrite <- EK.
    rewrite (@block_split (sb_K s) C (sb_c s) (fun i j => if possible (sb_allow s) i j then bern_ll (sbm_P (sb_set s (sb_m s) (sb_c s) x (sb_v s)) i j) (A i j) else 0) Hl).
    change (sbm_V (sb_set s (sb_m s) (sb_c s) x (sb_v s))) with (sbm_V s).
    rewrite (@Rsum_ext C (fun a => Rsum C (fun b => Rsum (sb_K s) (fun i => Rsum (sb_K s) (fun j => if in_block (sb_c s) a b i j then
        if possible (sb_allow s) i j then bern_ll (sbm_P (sb_set s (sb_m s) (sb_c s) x (sb_v s)) i j) (A i j) else 0 else 0))))
      (fun a => Rsum C (fun b => Rsum (sb_K s) (fun i => Rsum (sb_K s) (fun j => if (possible (sb_allow s) i j && in_block (sb_c s) a b i j)%bool then bern_ll (x a b) (A i j) else 0))))).
    + ring.
    + intros a _. apply Rsum_ext. intros b _. apply Rsum2_ext. intros i j _ _.
      unfold in_block. destruct (Nat.eqb_spec (sb_c s i) a) as [Ea|]; cbn [andb]; [|now rewrite andb_false_r].
      destruct (Nat.eqb_spec (sb_c s j) b) as [Eb|]; [|now rewrite andb_false_r]. rewrite andb_true_r.
      destruct (possible (sb_allow s) i j) eqn:Ep; [|reflexivity].
      rewrite (proj1 (C29_P_V_tables (sb_set s (sb_m s) (sb_c s) x (sb_v s)) i j)). cbn [sb_set sb_allow sb_p sb_c]. now rewrite Ep, Ea, Eb.
Qed.
(** Self-connections allowed: the conditional of the joint. *)
Theorem C90_probabilities_partial : forall lgam st fp s, gi_net st = NetSbm fp s ->
  sb_K s = dm_K (gi_m st) -> labels_ok s -> sb_allow s = true ->
  same_law (fun x : mat => forall a b, (a < sb_C s)%nat -> (b < sb_C s)%nat -> 0 < x a b < 1)
    (fun x => Rsum (sb_C s) (fun a => Rsum (sb_C s) (fun b =>
       beta_lpdf lgam (fst (p_request s (dm_A (gi_m st)) a b)) (snd (p_request s (dm_A (gi_m st)) a b)) (x a b))))
    (fun x => network_joint lgam (with_net st (NetSbm fp (sb_set s (sb_m s) (sb_c s) x (sb_v s))))).
Proof.
  intros lgam st fp s En EK Hl Hal. set (m := gi_m st) in *. set (A := dm_A m). set (C := sb_C s). apply same_law_sym.
  eapply same_law_trans; [eapply same_law_weaken; [intros; exact I|apply (@network_joint_p lgam st fp s En EK Hl)]|]. fold m A C.
  apply (@same_law_sum2 R mat C (fun _ _ x => 0 < x < 1) (fun a b => p_joint lgam (sb_K s) (sb_allow s) (sb_c s) (sb_tau1 s) (sb_tau0 s) A a b)
      (fun a b x => beta_lpdf lgam (fst (p_request s A a b)) (snd (p_request s A a b)) x) (fun a b x => x a b)).
  intros a b _ _. now apply C30_probabilities_partial.
Qed.
Print Assumptions C90_probabilities_partial.
(** Disallowed: in no state is it (the diagonal counts as observed absences, C30). *)
Theorem C90_probabilities_refuted : forall lgam st fp s, gi_net st = NetSbm fp s ->
  sb_K s = dm_K (gi_m st) -> (0 < sb_K s)%nat -> labels_ok s -> sb_allow s = false -> legal_edges st ->
  ~ same_law (fun x : mat => forall a b, (a < sb_C s)%nat -> (b < sb_C s)%nat -> 0 < x a b < 1)
    (fun x => Rsum (sb_C s) (fun a => Rsum (sb_C s) (fun b =>
       beta_lpdf lgam (fst (p_request s (dm_A (gi_m st)) a b)) (snd (p_request s (dm_A (gi_m st)) a b)) (x a b))))
    (fun x => network_joint lgam (with_net st (NetSbm fp (sb_set s (sb_m s) (sb_c s) x (sb_v s))))).
Proof.
  intros lgam st fp s En EK HK Hl Hal Hle HS. set (m := gi_m st) in *. set (A := dm_A m) in *. set (C := sb_C s) in *.
  assert (Hs : no_self_edges (sb_K s) A) by (unfold legal_edges in Hle; rewrite En in Hle; cbn [net_allow] in Hle; rewrite EK; apply Hle; exact Hal).
  pose proof (Hl 0%nat HK) as Hc0. set (c0 := sb_c s 0) in *.
  apply (@C30_counts_forbidden_pairs_refuted lgam s A 0%nat HK Hal Hs). cbv zeta. fold c0.
  assert (S2 := same_law_trans HS (@same_law_weaken mat (fun _ => True) (fun x : mat => forall a b, (a < C)%nat -> (b < C)%nat -> 0 < x a b < 1) _ _ (fun x _ => I) (@network_joint_p lgam st fp s En EK Hl))).
  fold m A C in S2. destruct S2 as [c Hc].
  set (pj := fun a b => p_joint lgam (sb_K s) (sb_allow s) (sb_c s) (sb_tau1 s) (sb_tau0 s) A a b) in *.
  set (bl := fun a b => beta_lpdf lgam (fst (p_request s A a b)) (snd (p_request s A a b))).
  apply same_law_sym. exists (bl c0 c0 (1/2) - pj c0 c0 (1/2)). intros x Hx.
  set (M := fun _ _ : nat => 1/2).
  assert (H0 : forall y : mat, (forall a b, (a < C)%nat -> (b < C)%nat -> 0 < y a b < 1) ->
     Rsum C (fun a => Rsum C (fun b => bl a b (y a b))) = Rsum C (fun a => Rsum C (fun b => pj a b (y a b))) + c) by (intros y Hy; apply (Hc y Hy)).
  assert (H1 := H0 M ltac:(intros; unfold M; lra)).
  assert (H2 := H0 (upd2 M c0 c0 x) ltac:(intros a b _ _; unfold upd2, M; destruct (_ && _)%bool; lra)).
  rewrite (@Rsum2_upd2 R C bl M c0 c0 x Hc0 Hc0), (@Rsum2_upd2 R C pj M c0 c0 x Hc0 Hc0) in H2.
  unfold M in *. change (beta_lpdf lgam (fst (p_request s A c0 c0)) (snd (p_request s A c0 c0)) x) with (bl c0 c0 x). change (p_joint lgam (sb_K s) (sb_allow s) (sb_c s) (sb_tau1 s) (sb_tau0 s) A c0 c0 x) with (pj c0 c0 x). lra.
Qed.
Print Assumptions C90_probabilities_refuted.

(** Weight scales of the blocks. *)
Theorem C90_scales : forall lgam st fp s, gi_net st = NetSbm fp s ->
  sb_K s = dm_K (gi_m st) -> labels_ok s -> legal_edges st ->
  exists a b : mat,
  (forall c1 c2, v_request s (dm_A (gi_m st)) (dm_W (gi_m st)) c1 c2 = (a c1 c2, 1 / b c1 c2)) /\
  same_law (fun x : mat => forall a b, (a < sb_C s)%nat -> (b < sb_C s)%nat -> 0 < x a b)
    (fun x => Rsum (sb_C s) (fun c1 => Rsum (sb_C s) (fun c2 => gamma_lpdf lgam (a c1 c2) (b c1 c2) (x c1 c2))))
    (fun x => network_joint lgam (with_net st (NetSbm fp (sb_set s (sb_m s) (sb_c s) (sb_p s) x)))).
Proof.
  intros lgam st fp s En EK Hl Hle. set (m := gi_m st) in *. set (A := dm_A m). set (W := dm_W m). set (C := sb_C s).
  exists (fun c1 c2 => fst (v_request s A W c1 c2)), (fun c1 c2 => / snd (v_request s A W c1 c2)). split.
  { intros c1 c2. unfold v_request. cbn [fst snd]. f_equal. unfold Rdiv. rewrite !Rmult_1_l. symmetry. apply Rinv_inv. }
  destruct (network_joint_split lgam st) as [c Hc]. apply same_law_sym.
  assert (Hs : sb_allow s = false -> no_self_edges (sb_K s) A) by (unfold legal_edges in Hle; rewrite En in Hle; cbn [net_allow] in Hle; rewrite EK; exact Hle).
  eapply same_law_trans with (g := fun x : mat => Rsum C (fun a => Rsum C (fun b => v_joint lgam (sb_K s) (sb_allow s) (sb_c s) (sb_kappa s) (sb_alpha s) (sb_beta s) A W a b (x a b)))).
  - eapply same_law_shift with (c := edges_ll (dm_K m) (possible (sb_allow s)) (sbm_P s) A
      + (dirichlet_lpdf lgam C (sb_pi s) (sb_m s) + Rsum C (fun a => Rsum C (fun b => beta_lpdf lgam (sb_tau1 s) (sb_tau0 s) (sb_p s a b))) + Rsum (sb_K s) (fun k => ln (sb_m s (sb_c s k)))) + c).
    intros x _. rewrite Hc. cbn [net_view net_allow net_of_sbm n_P n_V n_kappa network_lp sb_set sb_allow sb_K sb_C sb_pi sb_m sb_c sb_p sb_v sb_tau0 sb_tau1 sb_alpha sb_beta sb_kappa].
    fold m A W C. unfold sbm_lp, v_joint. rewrite Rsum2_plus. unfold weights_ll.
    change (sbm_P (sb_set s (sb_m s) (sb_c s) (sb_p s) x)) with (sbm_P s).
    rewrite <- EK.
    rewrite (@block_split (sb_K s) C (sb_c s) (fun i j => if A i j then gamma_lpdf lgam (sb_kappa s) (sbm_V (sb_set s (sb_m s) (sb_c s) (sb_p s) x) i j) (W i j) else 0) Hl).
    rewrite (@Rsum_ext C (fun a => Rsum C (fun b => Rsum (sb_K s) (fun i => Rsum (sb_K s) (fun j => if in_block (sb_c s) a b i j then
        if A i j then gamma_lpdf lgam (sb_kappa s) (sbm_V (sb_set s (sb_m s) (sb_c s) (sb_p s) x) i j) (W i j) else 0 else 0))))
      (fun a => Rsum C (fun b => Rsum (sb_K s) (fun i => Rsum (sb_K s) (fun j => if (possible (sb_allow s) i j && in_block (sb_c s) a b i j && A i j)%bool then gamma_lpdf lgam (sb_kappa s) (x a b) (W i j) else 0))))).
    + ring.
    + intros a _. apply Rsum_ext. intros b _. apply Rsum2_ext. intros i j Hi Hj.
      unfold in_block. destruct (Nat.eqb_spec (sb_c s i) a) as [Ea|]; cbn [andb]; [|now rewrite andb_false_r].
      destruct (Nat.eqb_spec (sb_c s j) b) as [Eb|]; [|now rewrite andb_false_r]. rewrite andb_true_r.
      rewrite (proj1 (proj2 (C29_P_V_tables (sb_set s (sb_m s) (sb_c s) (sb_p s) x) i j))). cbn [sb_set sb_v sb_c]. rewrite Ea, Eb.
      destruct (A i j) eqn:EA; [|now rewrite andb_false_r]. rewrite andb_true_r.
      destruct (possible (sb_allow s) i j) eqn:Ep; [reflexivity|]. exfalso. unfold possible in Ep. apply orb_false_iff in Ep as [E1 E2].
      apply negb_false_iff, Nat.eqb_eq in E2. subst j. specialize (Hs E1 i Hi). congruence.
  - apply (@same_law_sum2 R mat C (fun _ _ x => 0 < x) (fun a b => v_joint lgam (sb_K s) (sb_allow s) (sb_c s) (sb_kappa s) (sb_alpha s) (sb_beta s) A W a b)
      (fun a b x => gamma_lpdf lgam (fst (v_request s A W a b)) (/ snd (v_request s A W a b)) x) (fun a b x => x a b)).
    intros a b _ _. destruct (@C30_scales lgam s A W a b Hs) as (a' & b' & E & H). rewrite E. cbn [fst snd].
    replace (/ (1 / b')) with b'; [exact H|]. unfold Rdiv. rewrite Rmult_1_l. symmetry. apply Rinv_inv.
Qed.
Print Assumptions C90_scales.

(** Block weights. *)
Theorem C90_block_weights : forall lgam st fp s, gi_net st = NetSbm fp s -> labels_ok s ->
  same_law (open_simplex (sb_C s)) (fun x => dirichlet_lpdf lgam (sb_C s) (m_request s) x)
    (fun x => network_joint lgam (with_net st (NetSbm fp (sb_set s x (sb_c s) (sb_p s) (sb_v s))))).
Proof.
  intros lgam st fp s En Hl. set (C := sb_C s). destruct (network_joint_split lgam st) as [c Hc]. apply same_law_sym.
  eapply same_law_trans with (g := fun x => dirichlet_lpdf lgam C (sb_pi s) x + Rsum (sb_K s) (fun k => ln (x (sb_c s k)))).
  - eapply same_law_shift. intros x _. rewrite Hc.
    cbn [net_view net_allow net_of_sbm n_P n_V n_kappa network_lp sb_set sb_allow sb_K sb_C sb_pi sb_m sb_c sb_p sb_v sb_tau0 sb_tau1 sb_alpha sb_beta sb_kappa].
    unfold sbm_lp. fold C.
    change (sbm_P (sb_set s x (sb_c s) (sb_p s) (sb_v s))) with (sbm_P s). change (sbm_V (sb_set s x (sb_c s) (sb_p s) (sb_v s))) with (sbm_V s).
    match goal with |- ?e + ?w + (?d + ?b + ?g + ?l) + ?k = _ => instantiate (1 := e + w + b + g + k) end. ring.
  - eapply same_law_shift. intros x Hx. unfold dirichlet_lpdf, m_request.
    assert (E : Rsum (sb_K s) (fun k => ln (x (sb_c s k))) = Rsum C (fun b => Rsum (sb_K s) (fun k => if (sb_c s k =? b)%nat then 1 else 0) * ln (x b))).
    { rewrite (@Rsum_ext C _ (fun b => Rsum (sb_K s) (fun k => (if (sb_c s k =? b)%nat then ln (x b) else 0)))).
      - rewrite Rsum_swap. apply Rsum_ext. intros k Hk.
        rewrite (@Rsum_ext C _ (fun b => if (b =? sb_c s k)%nat then ln (x b) else 0)) by (intros b _; now rewrite Nat.eqb_sym).
        rewrite (Rsum_ind C (sb_c s k) (fun b => ln (x b))). destruct (Nat.ltb_spec (sb_c s k) C) as [|H]; [reflexivity|]. specialize (Hl k Hk). unfold C in H. lia.
      - intros b _. rewrite <- Rsum_scal_r. apply Rsum_ext. intros k _. destruct (sb_c s k =? b)%nat; ring. }
    rewrite E.
    rewrite (@Rsum_ext C (fun b => (sb_pi s b + Rsum (sb_K s) (fun k => if (sb_c s k =? b)%nat then 1 else 0) - 1) * ln (x b))
       (fun b => (sb_pi s b - 1) * ln (x b) + Rsum (sb_K s) (fun k => if (sb_c s k =? b)%nat then 1 else 0) * ln (x b))) by (intros; ring).
    rewrite !Rsum_plus.
    match goal with |- ?a - ?b + ?u + ?v = ?a' - ?b' + (?u + ?v) + _ => instantiate (1 := a - b - (a' - b')) end. ring.
Qed.
Print Assumptions C90_block_weights.

(** The single scale of an Erdos-Renyi network with a gamma prior. *)
Theorem C90_erdos_renyi : forall lgam g st n al be, gi_net st = NetEr n -> e_K n = dm_K (gi_m st) -> legal_edges st ->
  e_alpha n = Some al -> e_beta n = Some be -> 0 < al -> 0 < be ->
  exists a b, er_resample g (dm_A (gi_m st)) (dm_W (gi_m st)) n = er_with_v n (g a (1 / b)) /\
  same_law (fun x => 0 < x) (fun x => gamma_lpdf lgam a b x) (fun x => network_joint lgam (with_net st (NetEr (er_with_v n x)))).
Proof.
  intros lgam g st n al be En EK Hle Ea Eb Ha Hb. set (m := gi_m st) in *. set (A := dm_A m). set (W := dm_W m).
  unfold er_resample. rewrite Ea, Eb. replace (truthy (Some al) && truthy (Some be))%bool with true.
  2:{ symmetry. unfold truthy. apply andb_true_iff. split; apply negb_true_iff, Reqb_false; lra. }
  unfold er_v_request. eexists. eexists. split; [reflexivity|].
  destruct (network_joint_split lgam st) as [c Hc]. apply same_law_sym.
  eapply same_law_trans with (g := fun x => gamma_lpdf lgam al be x + Rsum (e_K n) (fun i => Rsum (e_K n) (fun j => if A i j then gamma_lpdf lgam (e_kappa n) x (W i j) else 0))).
  - eapply same_law_shift with (c := edges_ll (e_K n) (possible (e_allow n)) (er_P n) A + c). intros x _. rewrite Hc.
    cbn [net_view net_allow net_of_er n_P n_V n_kappa network_lp er_with_v e_alpha e_beta e_v e_allow e_kappa]. fold m A W. rewrite Ea, Eb.
    change (er_P (er_with_v n x)) with (er_P n). rewrite <- EK.
    assert (Ev : Rsum (e_K n) (fun i => Rsum (e_K n) (fun j => if A i j then gamma_lpdf lgam (e_kappa n) (er_V (er_with_v n x) i j) (W i j) else 0))
       = Rsum (e_K n) (fun i => Rsum (e_K n) (fun j => if A i j then gamma_lpdf lgam (e_kappa n) x (W i j) else 0))).
    { apply Rsum2_ext. intros i j _ _. unfold er_V. cbn [er_with_v e_v]. now rewrite Rmult_1_r. }
    rewrite Ev. ring.
  - eapply same_law_shift with (c := _). intros x Hx. unfold gamma_lpdf.
    rewrite (@Rsum_ext (e_K n) (fun i => Rsum (e_K n) (fun j => if A i j then e_kappa n * ln x - lgam (e_kappa n) + (e_kappa n - 1) * ln (W i j) - x * W i j else 0))
      (fun i => Rsum (e_K n) (fun j => b2R (A i j)) * (e_kappa n * ln x) + (Rsum (e_K n) (fun j => if A i j then - lgam (e_kappa n) + (e_kappa n - 1) * ln (W i j) else 0) - Rsum (e_K n) (fun j => if A i j then W i j else 0) * x))).
    + rewrite Rsum_plus, Rsum_minus, !Rsum_scal_r.
      match goal with |- ?l + (?X * (?k * ?lx) + (?Y - ?Z * x)) = ?r - ?lg + ?r2 - ?r3 + _ =>
        instantiate (1 := al * ln be - lgam al + Y - (r - lg)) end. ring.
    + intros i _. rewrite <- !Rsum_scal_r, <- Rsum_minus, <- Rsum_plus. apply Rsum_ext. intros j _. destruct (A i j); cbn [b2R]; ring.
Qed.
Print Assumptions C90_erdos_renyi.

(** Labels, one node at a time. *)
Lemma network_joint_c lgam st fp s k : gi_net st = NetSbm fp s -> sb_K s = dm_K (gi_m st) -> legal_edges st -> (k < sb_K s)%nat ->
  forall c, same_law (fun _ : nat => True)
    (fun x => network_joint lgam (with_net st (NetSbm fp (sb_set s (sb_m s) (upd c k x) (sb_p s) (sb_v s)))))
    (c_joint lgam (sb_K s) (sb_allow s) c (sb_m s) (sb_p s) (sb_v s) (sb_kappa s) (dm_A (gi_m st)) (dm_W (gi_m st)) k).
Proof.
  intros En EK Hle Hk c. set (m := gi_m st) in *. set (A := dm_A m). set (W := dm_W m). set (C := sb_C s).
  destruct (network_joint_split lgam st) as [c1 Hc].
  assert (Hs : sb_allow s = false -> no_self_edges (sb_K s) A) by (unfold legal_edges in Hle; rewrite En in Hle; cbn [net_allow] in Hle; rewrite EK; exact Hle).
  set (off := fun i j => negb (touches k i j)).
  assert (Esp : forall (P : nat -> nat -> bool) (F : nat -> nat -> R), Rsum (sb_K s) (fun i => Rsum (sb_K s) (fun j => if P i j then F i j else 0))
     = Rsum (sb_K s) (fun i => Rsum (sb_K s) (fun j => if (P i j && touches k i j)%bool then F i j else 0))
       + Rsum (sb_K s) (fun i => Rsum (sb_K s) (fun j => if (P i j && off i j)%bool then F i j else 0))).
  { intros P F. rewrite <- Rsum2_plus. apply Rsum2_ext. intros i j _ _. unfold off. destruct (P i j), (touches k i j); cbn [andb negb]; ring. }
  assert (Hoff : forall x i j, off i j = true -> upd c k x i = c i /\ upd c k x j = c j).
  { intros x i j H. unfold off, touches in H. apply negb_true_iff, orb_false_iff in H as [H1 H2]. unfold upd. now rewrite H1, H2. }
  eapply same_law_shift with (c :=
    edges_ll (sb_K s) (fun i j => possible (sb_allow s) i j && off i j) (fun i j => sb_p s (c i) (c j)) A
    + Rsum (sb_K s) (fun i => Rsum (sb_K s) (fun j => if (A i j && off i j)%bool then gamma_lpdf lgam (sb_kappa s) (sb_v s (c i) (c j)) (W i j) else 0))
    + (dirichlet_lpdf lgam C (sb_pi s) (sb_m s) + Rsum C (fun a => Rsum C (fun b => beta_lpdf lgam (sb_tau1 s) (sb_tau0 s) (sb_p s a b)))
       + Rsum C (fun a => Rsum C (fun b => gamma_lpdf lgam (sb_alpha s) (sb_beta s) (sb_v s a b))) + (Rsum (sb_K s) (fun i => ln (sb_m s (c i))) - ln (sb_m s (c k)))) + c1).
  intros x _. rewrite Hc. set (s' := sb_set s (sb_m s) (upd c k x) (sb_p s) (sb_v s)).
  cbn [net_view net_allow net_of_sbm n_P n_V n_kappa network_lp]. fold m A W. rewrite <- EK. unfold sbm_lp.
  change (sb_K s') with (sb_K s). change (sb_C s') with C. change (sb_pi s') with (sb_pi s). change (sb_m s') with (sb_m s). change (sb_allow s') with (sb_allow s).
  change (sb_c s') with (upd c k x). change (sb_p s') with (sb_p s). change (sb_v s') with (sb_v s). change (sb_kappa s') with (sb_kappa s).
  change (sb_tau1 s') with (sb_tau1 s). change (sb_tau0 s') with (sb_tau0 s). change (sb_alpha s') with (sb_alpha s). change (sb_beta s') with (sb_beta s).
  assert (Em : Rsum (sb_K s) (fun i => ln (sb_m s (upd c k x i))) = ln (sb_m s x) + (Rsum (sb_K s) (fun i => ln (sb_m s (c i))) - ln (sb_m s (c k)))).
  { rewrite (@Rsum_ext (sb_K s) _ (upd (fun i => ln (sb_m s (c i))) k (ln (sb_m s x)))).
    - rewrite Rsum_upd by exact Hk. ring.
    - intros i _. unfold upd. destruct (i =? k)%nat; reflexivity. }
  rewrite Em. unfold c_joint. fold A W.
  assert (E1 : edges_ll (sb_K s) (possible (sb_allow s)) (sbm_P s') A
    = edges_ll (sb_K s) (fun i j => possible (sb_allow s) i j && touches k i j)%bool (fun i j => sb_p s (upd c k x i) (upd c k x j)) A
      + edges_ll (sb_K s) (fun i j => possible (sb_allow s) i j && off i j)%bool (fun i j => sb_p s (c i) (c j)) A).
  { unfold edges_ll. rewrite (Esp (possible (sb_allow s)) (fun i j => bern_ll (sbm_P s' i j) (A i j))).
    assert (EP : forall i j, possible (sb_allow s) i j = true -> sbm_P s' i j = sb_p s (upd c k x i) (upd c k x j)).
    { intros i j H. rewrite (proj1 (C29_P_V_tables s' i j)). change (sb_allow s') with (sb_allow s). now rewrite H. }
    f_equal; apply Rsum2_ext; intros i j _ _; destruct (possible (sb_allow s) i j) eqn:Ep; cbn [andb]; [|reflexivity| |reflexivity].
    - destruct (touches k i j); [|reflexivity]. now rewrite EP.
    - destruct (off i j) eqn:Eo; [|reflexivity]. rewrite EP by auto. destruct (Hoff x i j Eo) as [-> ->]. reflexivity. }
  assert (E2 : Rsum (sb_K s) (fun i => Rsum (sb_K s) (fun j => if A i j then gamma_lpdf lgam (sb_kappa s) (sbm_V s' i j) (W i j) else 0))
    = weights_ll lgam (sb_K s) (fun i j => possible (sb_allow s) i j && touches k i j)%bool (sb_kappa s) (fun i j => sb_v s (upd c k x i) (upd c k x j)) A W
      + Rsum (sb_K s) (fun i => Rsum (sb_K s) (fun j => if (A i j && off i j)%bool then gamma_lpdf lgam (sb_kappa s) (sb_v s (c i) (c j)) (W i j) else 0))).
  { rewrite (Esp A (fun i j => gamma_lpdf lgam (sb_kappa s) (sbm_V s' i j) (W i j))). unfold weights_ll.
    f_equal; apply Rsum2_ext; intros i j Hi Hj; rewrite (proj1 (proj2 (C29_P_V_tables s' i j))); change (sb_c s') with (upd c k x); change (sb_v s') with (sb_v s).
    - destruct (A i j) eqn:EA; [|now rewrite andb_false_r]. rewrite andb_true_r. cbn [andb].
      destruct (possible (sb_allow s) i j) eqn:Ep; [reflexivity|]. exfalso. unfold possible in Ep. apply orb_false_iff in Ep as [P1 P2].
      apply negb_false_iff, Nat.eqb_eq in P2. subst j. specialize (Hs P1 i Hi). congruence.
    - destruct (A i j); cbn [andb]; [|reflexivity]. destruct (off i j) eqn:Eo; [|reflexivity]. destruct (Hoff x i j Eo) as [-> ->]. reflexivity. }
  rewrite E1, E2. ring.
Qed.
(** With the same probability and scale on every diagonal block, a node's label is drawn from its conditional. *)
Theorem C90_labels_partial : forall lgam st fp s k c, gi_net st = NetSbm fp s ->
  sb_K s = dm_K (gi_m st) -> legal_edges st -> (k < sb_K s)%nat -> sbm_pos s -> (forall j, (j < sb_K s)%nat -> (c j < sb_C s)%nat) ->
  pos_edges (sb_K s) (dm_A (gi_m st)) (dm_W (gi_m st)) ->
  (forall a b, (a < sb_C s)%nat -> (b < sb_C s)%nat -> sb_p s a a = sb_p s b b /\ sb_v s a a = sb_v s b b) ->
  same_law (fun x => (x < sb_C s)%nat) (fun x => fval (c_request lgam s (dm_A (gi_m st)) (dm_W (gi_m st)) c k x))
    (fun x => network_joint lgam (with_net st (NetSbm fp (sb_set s (sb_m s) (upd c k x) (sb_p s) (sb_v s))))).
Proof.
  intros lgam st fp s k c En EK Hle Hk Hp Hc He Hd. eapply same_law_trans; [now apply C31_label_posterior_partial|].
  apply same_law_sym. eapply same_law_weaken; [intros; exact I|now apply network_joint_c].
Qed.
Print Assumptions C90_labels_partial.
(** Without, there are states in which it is not. *)
Theorem C90_labels_refuted : forall lgam, exists st fp s k c, gi_net st = NetSbm fp s /\
  sb_K s = dm_K (gi_m st) /\ legal_edges st /\ (k < sb_K s)%nat /\ sbm_pos s /\ (forall j, (j < sb_K s)%nat -> (c j < sb_C s)%nat) /\
  pos_edges (sb_K s) (dm_A (gi_m st)) (dm_W (gi_m st)) /\
  ~ same_law (fun x => (x < sb_C s)%nat) (fun x => fval (c_request lgam s (dm_A (gi_m st)) (dm_W (gi_m st)) c k x))
      (fun x => network_joint lgam (with_net st (NetSbm fp (sb_set s (sb_m s) (upd c k x) (sb_p s) (sb_v s))))).
Proof.
  intros lgam. destruct C31_self_pair_counted_twice_refuted as (s & A & W & c & k & Hp & Hc & He & Hk & Hal & Hno).
  set (m := {| dm_K := sb_K s; dm_B := 1; dm_dt := 1; dm_L := 1; dm_L_int := true; dm_bas := fun _ _ => 1; dm_mix := false; dm_A := A; dm_W := W;
     dm_g := fun _ _ _ => 1; dm_lam := fun _ => 1; dm_data := [] |}).
  set (st := {| gi_m := m; gi_net := NetSbm false s; gi_h := {| h_alpha := 1; h_beta := 1; h_gamma := fun _ => 1; h_kappa0 := 1; h_nu0 := 1; h_parallel := false; h_gsl := false |} |}).
  exists st, false, s, k, c.
  assert (Hle : legal_edges st) by (unfold legal_edges; cbn; congruence).
  split; [reflexivity|]. split; [reflexivity|]. split; [exact Hle|]. do 4 (split; [assumption|]).
  intros HS. apply (Hno lgam). eapply same_law_trans; [exact HS|]. eapply same_law_weaken; [intros; exact I|exact (@network_joint_c lgam st false s k eq_refl eq_refl Hle Hk c)].
Qed.
Print Assumptions C90_labels_refuted.

(** ** Reachability *)
(** The state a parent update leaves is one the theorems above speak about. *)
Theorem C90_attributable : forall use_gsl mult m data data' i,
  (forall d, In d data -> pa_K d = dm_K m /\ pa_B d = dm_B m /\ 0 < pa_dt d /\ fits d /\ pa_nonneg d (dm_lam m) (net_weight m) (dm_g m)) ->
  (forall j, multinomial_contract (1 + dm_K m * dm_B m) (mult j)) ->
  resample_parents use_gsl mult (params_of m) i data = Ok data' -> attributable m data'.
Proof.
  intros use_gsl mult m data. induction data as [|d data IH]; intros data' i Hd Hm E.
  - injection E as <-. intros d [].
  - cbn [resample_parents] in E. destruct (pa_resample use_gsl (mult i) d (params_of m)) as [d'|e] eqn:E1; [|discriminate]. cbn [bindr] in E.
    destruct (resample_parents use_gsl mult (params_of m) (S i) data) as [rest|e] eqn:E2; [|discriminate]. cbn [bindr] in E. injection E as <-.
    intros d0 [<-|Hin]; [|apply (IH rest (S i) (fun x Hx => Hd x (or_intror Hx)) Hm E2 d0 Hin)].
    destruct (Hd d (or_introl eq_refl)) as (EK & EB & Hdt & Hf & Hn).
    assert (Hq : pa_nonneg d (q_lam (params_of m)) (q_W (params_of m)) (q_g (params_of m))).
    { destruct Hn as (H1 & H2 & H3 & H4). split; [exact H1|]. split; [|split; [exact H3|exact H4]].
      intros a b Ha Hb. cbn [params_of q_W]. rewrite W_effective_net. auto. }
    assert (Hmi : multinomial_contract (1 + pa_K d * pa_B d) (mult i)) by (rewrite EK, EB; apply Hm).
    destruct (@pa_resample_reassigned use_gsl (mult i) d (params_of m) Hq Hf Hmi) as (d2 & E3 & (Z' & Ed) & Hnz & _ & _).
    rewrite E1 in E3. injection E3 as <-.
    destruct (@resample_row use_gsl (mult i) d (params_of m) d' Hq Hf Hmi E1) as (_ & Hrow).
    assert (Ed' : pa_T d' = pa_T d /\ pa_K d' = pa_K d /\ pa_B d' = pa_B d /\ pa_dt d' = pa_dt d /\ pa_S d' = pa_S d /\ pa_F d' = pa_F d) by (rewrite Ed; auto 10).
    destruct Ed' as (ET & EK' & EB' & Edt & ES & EF).
    assert (Hz : forall t k1 k2 b, (t < pa_T d)%nat -> (k1 < dm_K m)%nat -> (k2 < dm_K m)%nat -> (b < dm_B m)%nat ->
       pa_F d t k1 b = 0 \/ net_weight m k1 k2 = 0 -> attributed d' t k2 (1 + (k1 * dm_B m + b)) = 0%Z).
    { intros t k1 k2 b Ht Hk1 Hk2 Hb Hv. destruct (Z.eq_dec (pa_S d t k2) 0) as [H0|H0]; [apply attributed_none; [now rewrite ET|now rewrite ES]|].
      rewrite <- EK in Hk1, Hk2. rewrite <- EB in *.
      destruct (@pa_row_surj d k2 t Ht H0) as (r & Hr & <-).
      rewrite Ed. change (pa_row d k2 r) with (pa_row (set_Z d Z') k2 r). rewrite (@attributed_row (set_Z d Z') k2 r) by exact Hr.
      change (pa_Z (set_Z d Z')) with Z'. replace Z' with (pa_Z d') by (rewrite Ed; reflexivity).
      destruct (Hrow k2 r Hk2 Hr) as (_ & _ & H3). apply H3; [assert (k1 * pa_B d + b < pa_K d * pa_B d)%nat by nia; lia|].
      cbn [request_python snd]. unfold normalise. cbn [Nat.add pvec_python]. rewrite div_idx, mod_idx by auto.
      cbn [params_of q_W]. rewrite W_effective_net. unfold pa_Fs. destruct Hv as [-> | ->]; unfold Rdiv; ring. }
    split; [congruence|]. split; [congruence|]. split; [now rewrite Edt|]. split; [exact Hnz|]. split.
    { intros k Hk. rewrite ET, ES. apply Zsum_nonneg. intros t Ht. apply Hf; [exact Ht|now rewrite EK]. }
    intros k1 k2 Hk1 Hk2. split.
    + intros t b Ht Hb Hne. rewrite ET in Ht. rewrite EF. rewrite EB', EB in *. destruct Hn as (_ & _ & _ & HF).
      destruct (HF t k1 b) as [|Hz0]; [auto|now rewrite EK|now rewrite EB|auto|]. exfalso. apply Hne. apply Hz; auto.
    + intros Hmx HA. unfold children. apply Zsum_0. intros t Ht. apply Zsum_0. intros b Hb. rewrite ET in Ht. rewrite EB', EB in *.
      apply Hz; auto. right. unfold net_weight. rewrite Hmx. unfold edge_weight. now rewrite HA.
Qed.
Print Assumptions C90_attributable.

(** A state meeting every hypothesis, with attributed events: two events of process 0, then one of process 1 caused by
    process 0. *)
Definition ex90_m (mix : bool) : dmodel :=
  {| dm_K := 2; dm_B := 1; dm_dt := 1; dm_L := 1; dm_L_int := true; dm_bas := fun _ _ => 1; dm_mix := mix; dm_A := fun i j => (i <? j)%nat;
     dm_W := fun _ _ => 1/2; dm_g := fun _ _ _ => 1; dm_lam := fun _ => 1;
     dm_data := [set_Z ex_p (fun k r c => if (k =? 0)%nat then (if (c =? 0)%nat then 2%Z else 0%Z) else if (c =? 1)%nat then 1%Z else 0%Z)] |}.
Definition ex90_s (allow : bool) : sbm :=
  {| sb_K := 2; sb_C := 2; sb_pi := fun _ => 1; sb_tau0 := 1; sb_tau1 := 2; sb_kappa := 1; sb_alpha := 1; sb_beta := 3;
     sb_allow := allow; sb_m := fun _ => 1/2; sb_c := fun k => k; sb_p := fun _ _ => 1/3; sb_v := fun _ _ => 5; sb_fixed := false |}.
Definition ex90 (mix allow : bool) : gibbs :=
  {| gi_m := ex90_m mix; gi_net := NetSbm false (ex90_s allow);
     gi_h := {| h_alpha := 1; h_beta := 1; h_gamma := fun _ => 1; h_kappa0 := 1; h_nu0 := 2; h_parallel := false; h_gsl := false |} |}.
Example C90_nonvacuous : forall mix allow, let st := ex90 mix allow in
  attributable (gi_m st) (dm_data (gi_m st)) /\ params_pos (gi_m st) /\ legal_edges st /\ nonneg_params (gi_m st) /\ good_data (gi_m st) (dm_data (gi_m st)) /\
  hypers_ok (dm_B (gi_m st)) (gi_h st) /\ net_ok (dm_K (gi_m st)) (gi_net st) /\ labels_ok (ex90_s allow) /\ sbm_pos (ex90_s allow) /\
  children (hd ex_p (dm_data (gi_m st))) 0 1 = 1%Z /\ fits ex_p /\ pa_nonneg ex_p (q_lam ex_q) (q_W ex_q) (q_g ex_q).
Proof.
  intros mix allow st.
  split. { intros d [<-|[]]. cbn [pa_K pa_B pa_dt set_Z ex_p mk_parents gi_m st ex90 ex90_m dm_K dm_B dm_mix dm_A]. do 2 (split; [reflexivity|]). split; [lra|].
    assert (Hnz : nonneg_Z (hd ex_p (dm_data (ex90_m mix)))).
    { intros t k c. unfold attributed. apply Zsum_nonneg. intros r _. destruct (_ =? _)%nat; [|lia]. cbn. destruct k; cbn; [destruct c; cbn; lia|]. destruct c as [|[|c]]; cbn; lia. }
    split; [exact Hnz|]. split; [intros k Hk; destruct k as [|[|k]]; [vm_compute; discriminate|vm_compute; discriminate|lia]|].
    intros k1 k2 H1 H2. destruct k1 as [|[|]]; [| |lia]; (destruct k2 as [|[|]]; [| |lia]); (split;
      [ intros t b Ht Hb Hne; cbn in Ht, Hb; destruct b; [|lia]; destruct t as [|[|]]; [| |lia]; try (exfalso; apply Hne; vm_compute; reflexivity); cbn; lra
      | intros _ HA; try discriminate HA; vm_compute; reflexivity]). }
  split. { split; intros; cbn; lra || (split; [lra|intros; lra]). }
  split. { intros _ k Hk. cbn. apply Nat.ltb_irrefl. }
  split. { split; [intros k _; cbn; lra|]. split; [intros i j _ _; cbn; lra|]. split; intros; cbn; lra. }
  split. { intros d [<-|[]]. do 3 (split; [reflexivity|]). intros t k b _ _ _. cbn. destruct (_ && _)%bool; lra. }
  split. { unfold hypers_ok. cbn. repeat split; intros; lra. }
  assert (HC : forall k, (k < 2)%nat -> (k < 2)%nat) by auto.
  split. { cbn [net_ok gi_net st ex90]. split; [reflexivity|]. split.
    - unfold prior_pos. cbn. repeat split; intros; (lra || lia).
    - split; [exact HC|]. split; [split; [intros; cbn; lra|cbn; lra]|]. intros; cbn; lra. }
  split; [exact HC|]. split. { split; intros; cbn; lra. }
  split; [vm_compute; reflexivity|]. split; [apply ex_p_fits|apply ex_p_nonneg].
Qed.
