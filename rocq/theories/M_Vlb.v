(** * M_Vlb: the variational lower bound of the gamma-mixture network model
    (bias.py 108-130, impulses.py 124-142, weights.py 371-410, parents.py 407-425 with parent_updates.pyx 64-119,
    models.py 1306-1335).

    As elsewhere [lgam] and [psi] stand for scipy's gammaln and psi; variational shapes and rates are read as reals
    (they are positive: C38), extended reals appear where the code multiplies or adds infinities. *)
From Verif Require Import Prelude ExtReal Arrays M_Basis M_Parents M_Discrete M_Gibbs M_Dist M_Network M_MeanField.
Set Implicit Arguments.
Open Scope R_scope.

(** bias.py 108-130, [GammaBias.get_vlb]. *)
Definition bias_vlb (lgam psi : R -> R) (K : nat) (alpha beta : R) (b : mfbias) : R :=
  Rsum K (fun k => gamma_negentropy_with lgam alpha (expected_log_lambda0 psi b k) (expected_lambda0 b k) beta (ln beta))
  - Rsum K (fun k => gamma_negentropy lgam psi (mb_alpha b k) (mb_beta b k)).

(** impulses.py 124-142, [DirichletImpulseResponses.get_vlb]: the prior has shape (1,1,B), so its normalising
    constant is added once, while E_ln_g has K*K rows (flattened as k1*K+k2). *)
Definition flat3 (K : nat) (g : ten) : mat := fun r b => g (r / K)%nat (r mod K)%nat b.
Definition ir_vlb (lgam psi : R -> R) (K B : nat) (gamma : vec) (mg : ten) : R :=
  dirichlet_negentropy_with lgam 1 (K * K) B (fun _ => gamma) (flat3 K (expected_log_g psi B mg))
  - dirichlet_negentropy lgam psi (K * K) B (flat3 K mg).

(** weights.py 371-410, [GammaMixtureWeights.get_vlb].  Bernoulli(self.mf_p) asserts 0 <= p <= 1 (a NaN fails). *)
Definition e2sum (K : nat) (f : nat -> nat -> er) : er := esum K (fun i => esum K (fun j => f i j)).
Definition p_in_01 (x : er) : bool := match x with Fin p => Rleb 0 p && Rleb p 1 | _ => false end.
Definition weights_vlb (lgam psi : R -> R) (K : nat) (kappa0 nu0 : R) (n : netexp) (w : mfw) : result er :=
  let E_A := w_p w in
  let E_notA i j := esub (Fin 1) (w_p w i j) in
  let lnW a := expected_log_W_given_A psi w a in
  let W a := expected_W_given_A w a in
  let v := Fin 0 in
  let v := eadd v (e2sum K (fun i j => bernoulli_negentropy_with (E_A i j) (E_notA i j) (ne_lnp n i j) (ne_lnnotp n i j))) in  (* 385 *)
  let v := eadd v (e2sum K (fun i j => emul (E_A i j)
             (Fin (gamma_negentropy_with lgam (ne_kappa n) (lnW 1 i j) (W 1 i j) (ne_v n i j) (ne_lnv n i j))))) in            (* 394 *)
  let v := eadd v (e2sum K (fun i j => emul (E_notA i j)
             (Fin (gamma_negentropy_with lgam kappa0 (lnW 0 i j) (W 0 i j) nu0 (ln nu0))))) in                                  (* 402 *)
  do _ <- guard (forall_lt K (fun i => forall_lt K (fun j => p_in_01 (w_p w i j)))) AssertionError ;;                          (* 406 *)
  let v := esub v (e2sum K (fun i j => bernoulli_negentropy (fval (w_p w i j)))) in
  let v := esub v (e2sum K (fun i j => emul (E_A i j) (Fin (gamma_negentropy lgam psi (w_kappa1 w i j) (w_v1 w i j))))) in      (* 409 *)
  let v := esub v (e2sum K (fun i j => emul (E_notA i j) (Fin (gamma_negentropy lgam psi (w_kappa0 w i j) (w_v0 w i j))))) in   (* 410 *)
  Ok v.

(** parents.py 407-425 with parent_updates.pyx 64-119, [mf_vlb]: E_log_W may hold minus infinity. *)
Definition eps32 : R := / 10 ^ 32.
Definition cy_vlb_er_k (p : parents) (ln_lam lam : vec) (ln_W : nat -> nat -> er) (W : mat) (ln_g : ten) (k2 : nat) : er :=
  eadd (Fin (- INR (pa_T p) * lam k2 + Rsum (pa_K p) (fun k1 => - IZR (pa_Ns p k1) * W k1 k2)))
    (esum (pa_Tk p k2) (fun r =>
       eadd (Fin (pa_EZ p k2 r 0%nat * ln_lam k2 + - pa_EZ p k2 r 0%nat * ln (pa_EZ p k2 r 0%nat / IZR (pa_Ss p k2 r) + eps32)))
         (esum (pa_K p) (fun k1 => esum (pa_B p) (fun b =>
            let c := (1 + (k1 * pa_B p + b))%nat in
            eadd (emul (Fin (pa_EZ p k2 r c)) (eadd (eadd (Fin (ln (pa_Fs p k2 r k1 b + eps32))) (ln_W k1 k2)) (Fin (ln_g k1 k2 b))))
                 (Fin (- pa_EZ p k2 r c * ln (pa_EZ p k2 r c / IZR (pa_Ss p k2 r) + eps32)))))))).
Definition data_vlb (psi : R -> R) (m : mfmodel) (p : parents) : er :=
  esum (pa_K p) (fun k => cy_vlb_er_k p (expected_log_lambda0 psi (mm_bias m)) (expected_lambda0 (mm_bias m))
     (expected_log_W psi (mfnet_allow (mm_net m)) (mm_w m)) (expected_W (mfnet_allow (mm_net m)) (mm_w m))
     (expected_log_g psi (mh_B (mm_h m)) (mm_gamma m)) k).

(** network.get_vlb() as the model adds it to a float: network.py 671-717, 850-860 (None, TypeError), 1026-1034. *)
Definition mfnet_vlb (lgam psi : R -> R) (no : mfnet) : result R :=
  match no with
  | MfSbm false s f => Ok (sbm_vlb lgam psi s f true true true true)
  | MfSbm true s f => do v <- fsbm_vlb lgam psi s f true false true true ;;
                      match v with PyNone => Raise TypeError | PyFloat x => Ok x end
  | MfEr n => er_get_vlb lgam psi n
  end.
(** models.py 1324-1335, [get_vlb]. *)
Definition mf_get_vlb (lgam psi : R -> R) (m : mfmodel) : result er :=
  let h := mm_h m in
  let v := fold_left (fun v d => eadd v (data_vlb psi m d)) (mm_data m) (Fin 0) in
  let v := eadd v (Fin (bias_vlb lgam psi (mh_K h) (mh_alpha h) (mh_beta h) (mm_bias m))) in
  let v := eadd v (Fin (ir_vlb lgam psi (mh_K h) (mh_B h) (mh_gamma h) (mm_gamma m))) in
  do n <- mfnet_view psi (mm_net m) ;;
  do wv <- weights_vlb lgam psi (mh_K h) (mh_kappa0 h) (mh_nu0 h) n (mm_w m) ;;
  let v := eadd v wv in
  do nv <- mfnet_vlb lgam psi (mm_net m) ;;
  Ok (eadd v (Fin nv)).
(** models.py 1306-1322, [meanfield_coordinate_descent_step]: the new state and the value returned. *)
Definition mf_cd_step (lgam psi : R -> R) (m : mfmodel) : result (mfmodel * er) :=
  do m' <- mf_batch_step lgam psi m ;; do v <- mf_get_vlb lgam psi m' ;; Ok (m', v).
