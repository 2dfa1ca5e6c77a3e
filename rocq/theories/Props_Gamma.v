(** * Props_Gamma: the variational theorems (C83, C84, C86) with Euler's log-gamma and digamma in place of an arbitrary
    pair meeting the contract of [Spec_Vlb]; no hypothesis about gammaln/psi is left. *)
From Verif Require Import Prelude ExtReal Arrays Spec_Vlb Spec_Gamma M_Parents M_Discrete M_Dist M_Network M_MeanField M_Vlb
  L_Vlb L_Vlb2 L_Vlb3 L_Vlb4 L_Vlb5 L_Vlb6 L_Vlb7 L_Gamma Props_Network Props_MeanField Props_Vlb.
Set Implicit Arguments.
Open Scope R_scope.

(** What the two limits of [Spec_Gamma] are: the contract holds of them; psi is the derivative of gammaln; the functional
    equations; the factorials; and no other convex function satisfies them. *)
Theorem euler_gamma_functions :
  gamma_functions log_gamma digamma /\
  (forall x, 0 < x -> derivable_pt_lim log_gamma x (digamma x)) /\
  (forall x, 0 < x -> log_gamma (x + 1) = log_gamma x + ln x) /\
  (forall x, 0 < x -> digamma (x + 1) = digamma x + / x) /\
  (forall n, log_gamma (INR n + 1) = ln (INR (fact n))) /\
  convex_pos log_gamma /\
  (forall f, convex_pos f -> f 1 = 0 -> (forall x, 0 < x -> f (x + 1) = f x + ln x) -> forall x, 0 < x -> f x = log_gamma x).
Proof.
  split; [exact true_gamma_functions|]. split; [exact log_gamma_derive|]. split; [exact log_gamma_step|]. split; [exact digamma_step|].
  split; [exact log_gamma_fact|]. split; [exact log_gamma_convex|exact bohr_mollerup].
Qed.
Print Assumptions euler_gamma_functions.

Theorem C83_bound_increases_euler_partial : forall m, ascent_ok m ->
  exists m' v v', mf_get_vlb log_gamma digamma m = Ok (Fin v) /\ mf_cd_step log_gamma digamma m = Ok (m', Fin v') /\
    v - slack m <= v' /\ ascent_ok m'.
Proof. intros m. exact (C83_bound_increases_partial true_gamma_functions). Qed.
Theorem C83_histories_monotone_euler_partial : forall n m, ascent_ok m ->
  exists m' v v', cd_run log_gamma digamma n m = Ok m' /\ ascent_ok m' /\
    exact_bound log_gamma digamma m v /\ exact_bound log_gamma digamma m' v' /\ v <= v'.
Proof. exact (C83_histories_monotone_partial true_gamma_functions). Qed.
Print Assumptions C83_bound_increases_euler_partial.
Print Assumptions C83_histories_monotone_euler_partial.

Theorem C84_bias_maximises_euler_partial : forall m b', bound_ok m -> (forall d, In d (mm_data m) -> pa_dt d = 1) ->
  bias_mf (mh_alpha (mm_h m)) (mh_beta (mm_h m)) (mm_data m) (mm_bias m) = Ok b' ->
  forall b, (forall k, (k < mh_K (mm_h m))%nat -> 0 < mb_alpha b k /\ 0 < mb_beta b k) ->
  vlb_le (mf_get_vlb log_gamma digamma (with_bias m b)) (mf_get_vlb log_gamma digamma (with_bias m b')).
Proof. exact (C84_bias_maximises_partial true_gamma_functions). Qed.
Theorem C84_impulses_maximise_euler : forall m, bound_ok m -> (0 < mh_B (mm_h m))%nat ->
  forall g, (forall k1 k2 b, (k1 < mh_K (mm_h m))%nat -> (k2 < mh_K (mm_h m))%nat -> (b < mh_B (mm_h m))%nat -> 0 < g k1 k2 b) ->
  vlb_le (mf_get_vlb log_gamma digamma (with_ir m g)) (mf_get_vlb log_gamma digamma (with_ir m (ir_mf (mh_gamma (mm_h m)) (mm_data m) (mm_gamma m)))).
Proof. exact (C84_impulses_maximise true_gamma_functions). Qed.
Theorem C84_weights_maximise_euler : forall m n w', bound_ok m -> mfnet_view digamma (mm_net m) = Ok n ->
  weights_mf log_gamma (mh_kappa0 (mm_h m)) (mh_nu0 (mm_h m)) n (mm_data m) (mm_w m) = Ok w' ->
  forall w, w_ok (mh_K (mm_h m)) w ->
  vlb_le (mf_get_vlb log_gamma digamma (with_w m w)) (mf_get_vlb log_gamma digamma (with_w m w')).
Proof. exact (C84_weights_maximise true_gamma_functions). Qed.
Theorem C84_block_model_maximises_euler : forall m s f, bound_ok m -> mm_net m = MfSbm false s f ->
  let put tau0 tau1 al be pi := {| mf_pi := pi; mf_m := mf_m f; mf_tau0 := tau0; mf_tau1 := tau1; mf_alpha := al; mf_beta := be |} in
  let w := wstats_of digamma (mm_w m) in
  let pos (M : mat) := forall a b, (a < sb_C s)%nat -> (b < sb_C s)%nat -> 0 < M a b in
  (forall tau0 tau1, pos tau0 -> pos tau1 ->
     vlb_le (mf_get_vlb log_gamma digamma (with_net m (MfSbm false s (put tau0 tau1 (mf_alpha f) (mf_beta f) (mf_pi f)))))
            (mf_get_vlb log_gamma digamma (with_net m (MfSbm false s (mf_update_p s f w 1))))) /\
  (forall al be, pos al -> pos be ->
     vlb_le (mf_get_vlb log_gamma digamma (with_net m (MfSbm false s (put (mf_tau0 f) (mf_tau1 f) al be (mf_pi f)))))
            (mf_get_vlb log_gamma digamma (with_net m (MfSbm false s (mf_update_v s f w 1))))) /\
  (forall pi, (forall a, (a < sb_C s)%nat -> 0 < pi a) ->
     vlb_le (mf_get_vlb log_gamma digamma (with_net m (MfSbm false s (put (mf_tau0 f) (mf_tau1 f) (mf_alpha f) (mf_beta f) pi))))
            (mf_get_vlb log_gamma digamma (with_net m (MfSbm false s (mf_update_m s f 1))))).
Proof. exact (C84_block_model_maximises true_gamma_functions). Qed.
Theorem C84_erdos_renyi_maximises_euler : forall m e e', bound_ok m -> mm_net m = MfEr e ->
  er_meanfieldupdate e (wstats_of digamma (mm_w m)) 1 = Ok e' ->
  forall x y, 0 < x -> 0 < y ->
  vlb_le (mf_get_vlb log_gamma digamma (with_net m (MfEr (er_with_mf e (x, y))))) (mf_get_vlb log_gamma digamma (with_net m (MfEr e'))).
Proof. exact (C84_erdos_renyi_maximises true_gamma_functions). Qed.
Print Assumptions C84_weights_maximise_euler.
Print Assumptions C84_block_model_maximises_euler.

Theorem C86_bias_share_euler : forall K alpha beta b, 0 < alpha -> 0 < beta ->
  (forall k, (k < K)%nat -> 0 < mb_alpha b k /\ 0 < mb_beta b k) ->
  bias_vlb log_gamma digamma K alpha beta b = Rsum K (fun k => gamma_neg_kl log_gamma digamma alpha beta (mb_alpha b k) (mb_beta b k)) /\
  bias_vlb log_gamma digamma K alpha beta b <= 0.
Proof. intros K alpha beta b. exact (@C86_bias_share log_gamma digamma K alpha beta b true_gamma_functions). Qed.
Theorem C86_erdos_renyi_share_euler : forall e a b ma mb,
  e_alpha e = Some a -> e_beta e = Some b -> e_mf e = Some (ma, mb) -> 0 < a -> 0 < b -> 0 < ma -> 0 < mb ->
  er_get_vlb log_gamma digamma e = Ok (gamma_neg_kl log_gamma digamma a b ma mb) /\ gamma_neg_kl log_gamma digamma a b ma mb <= 0.
Proof. intros e a b ma mb. exact (@C86_erdos_renyi_share log_gamma digamma e a b ma mb true_gamma_functions). Qed.
Print Assumptions C86_bias_share_euler.
Print Assumptions C86_erdos_renyi_share_euler.
(** A case of C86_impulse_share_refuted with Euler's functions: B = 3 and a flat prior, Gamma(3) = 2. *)
Example C86_impulse_share_refuted_euler : forall psi mg,
  ir_vlb log_gamma psi 2 3 (fun _ => 1) mg <> Rsum 2 (fun k1 => Rsum 2 (fun k2 => dirichlet_neg_kl log_gamma psi 3 (fun _ => 1) (mg k1 k2))).
Proof.
  intros psi mg. apply C86_impulse_share_refuted; [auto|]. cbn [Rsum]. rewrite !log_gamma_1.
  replace (0 + 1 + 1 + 1) with (INR 2 + 1) by (cbn; ring). rewrite log_gamma_fact. replace (INR (fact 2)) with 2 by (cbn; ring).
  assert (0 < ln 2) by (rewrite <- ln_1; apply ln_increasing; lra). lra.
Qed.
Example C83_euler_nonvacuous : ascent_ok (ex_vlb (MfEr (ex_er true))).
Proof. exact (proj2 C83_nonvacuous). Qed.
