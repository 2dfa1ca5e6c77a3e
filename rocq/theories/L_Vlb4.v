(** * L_Vlb4: the network blocks of the bound. *)
From Coq Require Import FunctionalExtensionality.
From Verif Require Import Prelude ExtReal Arrays Spec_Vlb M_Basis M_Parents M_Discrete M_Gibbs M_Dist M_Network M_MeanField M_Vlb
  L_Basis L_Discrete L_Parents L_Gibbs L_Network L_Vlb L_Vlb2 L_Vlb3 Props_Discrete Props_Parents Props_Gibbs Props_Network Props_MeanField.
Set Implicit Arguments.
Open Scope R_scope.

Section N.
Variables lgam psi : R -> R.
Hypothesis GF : gamma_functions lgam psi.

Lemma edge_v_split kappa0 nu0 lnp lnnotp kappa v lnv p k0 v0 k1 v1 :
  edge_v lgam psi kappa0 nu0 lnp lnnotp kappa v lnv p k0 v0 k1 v1
  = (p * lnp + (1 - p) * lnnotp) + p * (kappa * lnv - v * (k1 / v1)) + edge_v lgam psi kappa0 nu0 0 0 kappa 0 0 p k0 v0 k1 v1.
Proof. unfold edge_v, gamma_negentropy_with. ring. Qed.
Definition wv_rest (K : nat) (kappa0 nu0 kappa : R) (w : mfw) : R :=
  Rsum K (fun i => Rsum K (fun j => edge_v lgam psi kappa0 nu0 0 0 kappa 0 0 (w_A w i j) (w_kappa0 w i j) (w_v0 w i j) (w_kappa1 w i j) (w_v1 w i j))).
Lemma wv_R_split K kappa0 nu0 n w :
  wv_R lgam psi K kappa0 nu0 n w
  = Rsum K (fun i => Rsum K (fun j => w_A w i j * fval (ne_lnp n i j) + (1 - w_A w i j) * fval (ne_lnnotp n i j)))
  + Rsum K (fun i => Rsum K (fun j => w_A w i j * (ne_kappa n * ne_lnv n i j - ne_v n i j * expected_W_given_A w 1 i j)))
  + wv_rest K kappa0 nu0 (ne_kappa n) w.
Proof.
  unfold wv_R, wv_rest. rewrite <- !Rsum2_plus. apply Rsum2_ext. intros i j Hi Hj. rewrite edge_v_split, EW1. reflexivity.
Qed.

(* ---------------- Erdos-Renyi ---------------- *)
Lemma er_block K kappa (A W : mat) a b ma mb : 0 < mb ->
  Rsum K (fun i => Rsum K (fun j => A i j * (kappa * (psi ma - ln mb) - ma / mb * W i j)))
  + (gamma_negentropy_with lgam a (psi ma - ln mb) (ma / mb) b (ln b) - gamma_negentropy lgam psi ma mb)
  = gJ lgam psi (a + Rsum K (fun i => Rsum K (fun j => A i j * kappa))) (b + Rsum K (fun i => Rsum K (fun j => A i j * W i j))) ma mb
    + (a * ln b - lgam a).
Proof.
  intros H.
  assert (E : Rsum K (fun i => Rsum K (fun j => A i j * (kappa * (psi ma - ln mb) - ma / mb * W i j)))
    = Rsum K (fun i => Rsum K (fun j => A i j * kappa)) * (psi ma - ln mb) - ma / mb * Rsum K (fun i => Rsum K (fun j => A i j * W i j))).
  { rewrite <- Rsum2_scal_r, (Rmult_comm (ma / mb)), <- Rsum2_scal_r, <- Rsum_minus. apply Rsum_ext; intros i Hi. rewrite <- Rsum_minus.
    apply Rsum_ext; intros j Hj. ring. }
  rewrite E. unfold gJ, gamma_negentropy_with. ring.
Qed.

(* ---------------- stochastic block model ---------------- *)
Lemma block_dual K C (m T X : mat) :
  Rsum K (fun i => Rsum K (fun j => X i j * block_mean C m T i j))
  = Rsum C (fun a => Rsum C (fun b => T a b * Rsum K (fun i => Rsum K (fun j => m i a * m j b * X i j)))).
Proof.
  unfold block_mean.
  transitivity (Rsum K (fun i => Rsum K (fun j => Rsum C (fun a => Rsum C (fun b => T a b * (m i a * m j b * X i j)))))).
  { apply Rsum2_ext. intros i j Hi Hj. rewrite <- Rsum_scal. apply Rsum_ext; intros a Ha. rewrite <- Rsum_scal. apply Rsum_ext; intros b Hb. ring. }
  transitivity (Rsum K (fun i => Rsum C (fun a => Rsum C (fun b => Rsum K (fun j => T a b * (m i a * m j b * X i j)))))).
  { apply Rsum_ext; intros i Hi. rewrite Rsum_swap. apply Rsum_ext; intros a Ha. apply Rsum_swap. }
  rewrite Rsum_swap. apply Rsum_ext; intros a Ha. rewrite Rsum_swap. apply Rsum_ext; intros b Hb.
  rewrite <- Rsum_scal. apply Rsum_ext; intros i Hi. now rewrite Rsum_scal.
Qed.

Lemma Rsum2 (f : nat -> R) : Rsum 2 f = f 0%nat + f 1%nat.
Proof. cbn. ring. Qed.
Lemma beta_row t1 t0 t1' t0' : 
  (t1 - 1) * (psi t1' - psi (t0' + t1')) + (t0 - 1) * (psi t0' - psi (t0' + t1'))
  - (lgam (t1' + t0') - (lgam t1' + lgam t0') + ((t1' - 1) * (psi t1' - psi (t1' + t0')) + (t0' - 1) * (psi t0' - psi (t1' + t0'))))
  = dJ lgam psi 2 (pair_rows (fun _ => t1) (fun _ => t0) 0%nat) (pair_rows (fun _ => t1') (fun _ => t0') 0%nat).
Proof. unfold dJ. rewrite !Rsum2. cbn [pair_rows]. rewrite (Rplus_comm t0' t1'). ring. Qed.

(** Everything in the model's bound that involves the block model's variational parameters. *)
Definition sbm_obj (s : sbm) (f : mfsbm) (w : wstats) : R :=
  Rsum (sb_K s) (fun i => Rsum (sb_K s) (fun j =>
     ws_A w i j * block_mean (sb_C s) (mf_m f) (fun a b => psi (mf_tau1 f a b) - psi (mf_tau0 f a b + mf_tau1 f a b)) i j
     + (1 - ws_A w i j) * block_mean (sb_C s) (mf_m f) (fun a b => psi (mf_tau0 f a b) - psi (mf_tau0 f a b + mf_tau1 f a b)) i j))
  + Rsum (sb_K s) (fun i => Rsum (sb_K s) (fun j =>
     ws_A w i j * (sb_kappa s * block_mean (sb_C s) (mf_m f) (fun a b => psi (mf_alpha f a b) - ln (mf_beta f a b)) i j
                   - block_mean (sb_C s) (mf_m f) (fun a b => mf_alpha f a b / mf_beta f a b) i j * ws_W w i j)))
  + sbm_vlb lgam psi s f true true true true.
Definition sbm_const (s : sbm) (f : mfsbm) : R :=
  - Rsum (sb_K s) (fun k => discrete_negentropy (sb_C s) (mf_m f k) None None)
  + (lgam (sb_tau1 s + sb_tau0 s) - (lgam (sb_tau1 s) + lgam (sb_tau0 s)))
  + INR (sb_C s) * (INR (sb_C s) * (sb_alpha s * ln (sb_beta s) - lgam (sb_alpha s)))
  + (lgam (Rsum (sb_C s) (sb_pi s)) - Rsum (sb_C s) (fun c => lgam (sb_pi s c))).
Lemma sbm_obj_blocks s f w :
  (forall a b, (a < sb_C s)%nat -> (b < sb_C s)%nat -> 0 < mf_beta f a b) ->
  sbm_obj s f w =
    Rsum (sb_C s) (fun a => Rsum (sb_C s) (fun b => dJ lgam psi 2
       (pair_rows (fun _ => tau1_hat s f w a b) (fun _ => tau0_hat s f w a b) 0%nat)
       (pair_rows (fun _ => mf_tau1 f a b) (fun _ => mf_tau0 f a b) 0%nat)))
    + Rsum (sb_C s) (fun a => Rsum (sb_C s) (fun b => gJ lgam psi (alpha_hat s f w a b) (beta_hat s f w a b) (mf_alpha f a b) (mf_beta f a b)))
    + dJ lgam psi (sb_C s) (fun c => sb_pi s c + Rsum (sb_K s) (fun k => mf_m f k c)) (mf_pi f)
    + sbm_const s f.
Proof.
  intros Hb. set (C := sb_C s). set (K := sb_K s). set (m := mf_m f).
  set (T1 := fun a b => psi (mf_tau1 f a b) - psi (mf_tau0 f a b + mf_tau1 f a b)).
  set (T0 := fun a b => psi (mf_tau0 f a b) - psi (mf_tau0 f a b + mf_tau1 f a b)).
  set (L := fun a b => psi (mf_alpha f a b) - ln (mf_beta f a b)). set (V := fun a b => mf_alpha f a b / mf_beta f a b).
  set (Elm := fun c => psi (mf_pi f c) - psi (Rsum C (mf_pi f))).
  assert (E1 : Rsum K (fun i => Rsum K (fun j => ws_A w i j * block_mean C m T1 i j + (1 - ws_A w i j) * block_mean C m T0 i j))
    = Rsum C (fun a => Rsum C (fun b => T1 a b * (tau1_hat s f w a b - sb_tau1 s) + T0 a b * (tau0_hat s f w a b - sb_tau0 s)))).
  { rewrite !Rsum2_plus, (block_dual K C m T1 (ws_A w)), (block_dual K C m T0 (fun i j => 1 - ws_A w i j)). f_equal;
    apply Rsum2_ext; intros a b Ha Hb'; unfold tau1_hat, tau0_hat; fold K m; ring. }
  assert (E2 : Rsum K (fun i => Rsum K (fun j => ws_A w i j * (sb_kappa s * block_mean C m L i j - block_mean C m V i j * ws_W w i j)))
    = Rsum C (fun a => Rsum C (fun b => L a b * (alpha_hat s f w a b - sb_alpha s) - V a b * (beta_hat s f w a b - sb_beta s)))).
  { transitivity (Rsum K (fun i => Rsum K (fun j => (ws_A w i j * sb_kappa s) * block_mean C m L i j))
                  - Rsum K (fun i => Rsum K (fun j => (ws_A w i j * ws_W w i j) * block_mean C m V i j))).
    - rewrite <- Rsum_minus. apply Rsum_ext; intros i Hi. rewrite <- Rsum_minus. apply Rsum_ext; intros j Hj. ring.
    - rewrite (block_dual K C m L (fun i j => ws_A w i j * sb_kappa s)), (block_dual K C m V (fun i j => ws_A w i j * ws_W w i j)).
      rewrite <- Rsum_minus. apply Rsum_ext; intros a Ha. rewrite <- Rsum_minus. apply Rsum_ext; intros b Hb'.
      unfold alpha_hat, beta_hat. fold K m.
      rewrite (@Rsum2_ext K (fun i j => m i a * m j b * ws_A w i j * sb_kappa s) (fun i j => m i a * m j b * (ws_A w i j * sb_kappa s))) by (intros; ring).
      rewrite (@Rsum2_ext K (fun i j => m i a * m j b * ws_A w i j * ws_W w i j) (fun i j => m i a * m j b * (ws_A w i j * ws_W w i j))) by (intros; ring).
      ring. }
  unfold sbm_obj. fold C K m T1 T0 L V. rewrite E1, E2. clear E1 E2. 
  change (sbm_vlb lgam psi s f true true true true) with
   (Rsum K (fun k => discrete_negentropy C (m k) (Some (m k)) (Some (fun c => Fin (Elm c))) - discrete_negentropy C (m k) None None)
    + (beta_negentropy_with lgam 1 (C * C) (fun _ => sb_tau1 s) (fun _ => sb_tau0 s)
         (fun r => T1 (r / C)%nat (r mod C)%nat) (fun r => T0 (r / C)%nat (r mod C)%nat)
       - beta_negentropy lgam psi (C * C) (fun r => mf_tau1 f (r / C)%nat (r mod C)%nat) (fun r => mf_tau0 f (r / C)%nat (r mod C)%nat))
    + Rsum C (fun a => Rsum C (fun b => gamma_negentropy_with lgam (sb_alpha s) (L a b) (V a b) (sb_beta s) (ln (sb_beta s))
            - gamma_negentropy lgam psi (mf_alpha f a b) (mf_beta f a b)))
    + (dirichlet_negentropy_with lgam 1 1 C (fun _ => sb_pi s) (fun _ => Elm) - dirichlet_negentropy lgam psi 1 C (fun _ => mf_pi f))).
  (* labels *)
  assert (E3 : Rsum K (fun k => discrete_negentropy C (m k) (Some (m k)) (Some (fun c => Fin (Elm c))) - discrete_negentropy C (m k) None None)
    = Rsum C (fun c => Rsum K (fun k => m k c) * Elm c) - Rsum K (fun k => discrete_negentropy C (m k) None None)).
  { rewrite Rsum_minus. f_equal. rewrite (@Rsum_ext C _ (fun c => Rsum K (fun k => m k c * Elm c))) by (intros; now rewrite Rsum_scal_r).
    rewrite Rsum_swap. apply Rsum_ext; intros k Hk. unfold discrete_negentropy. rewrite (esum_fin _ (fun c => m k c * Elm c)) by reflexivity. reflexivity. }
  rewrite E3. clear E3.
  (* sparsity *)
  assert (E4 : beta_negentropy_with lgam 1 (C * C) (fun _ => sb_tau1 s) (fun _ => sb_tau0 s)
         (fun r => T1 (r / C)%nat (r mod C)%nat) (fun r => T0 (r / C)%nat (r mod C)%nat)
       - beta_negentropy lgam psi (C * C) (fun r => mf_tau1 f (r / C)%nat (r mod C)%nat) (fun r => mf_tau0 f (r / C)%nat (r mod C)%nat)
    = lgam (sb_tau1 s + sb_tau0 s) - (lgam (sb_tau1 s) + lgam (sb_tau0 s))
      + Rsum C (fun a => Rsum C (fun b => (sb_tau1 s - 1) * T1 a b + (sb_tau0 s - 1) * T0 a b
         - (lgam (mf_tau1 f a b + mf_tau0 f a b) - (lgam (mf_tau1 f a b) + lgam (mf_tau0 f a b))
            + ((mf_tau1 f a b - 1) * (psi (mf_tau1 f a b) - psi (mf_tau1 f a b + mf_tau0 f a b))
               + (mf_tau0 f a b - 1) * (psi (mf_tau0 f a b) - psi (mf_tau1 f a b + mf_tau0 f a b))))))).
  { unfold beta_negentropy_with, beta_negentropy. rewrite dir_neg_rows. unfold dirichlet_negentropy_with.
    cbn [Nat.eqb]. rewrite !Rsum_mul.
    change (Rsum 1 (fun r => lgam (Rsum 2 (pair_rows (fun _ => sb_tau1 s) (fun _ => sb_tau0 s) r)))) with (0 + lgam (0 + sb_tau1 s + sb_tau0 s)).
    change (Rsum 1 (fun r => Rsum 2 (fun b => lgam (pair_rows (fun _ => sb_tau1 s) (fun _ => sb_tau0 s) r b))))
      with (0 + (0 + lgam (sb_tau1 s) + lgam (sb_tau0 s))).
    rewrite !Rplus_0_l. unfold Rminus at 1. rewrite Rplus_assoc. f_equal. rewrite <- Rsum_opp, <- Rsum_plus.
    apply Rsum_ext; intros a Ha. rewrite <- Rsum_opp, <- Rsum_plus. apply Rsum_ext; intros b Hb'.
    rewrite !Rsum2. cbn [pair_rows]. rewrite div_idx, mod_idx by auto. ring. }
  rewrite E4. clear E4.
  (* scales: nothing to do; block probabilities *)
  assert (E5 : dirichlet_negentropy_with lgam 1 1 C (fun _ => sb_pi s) (fun _ => Elm) - dirichlet_negentropy lgam psi 1 C (fun _ => mf_pi f)
    = lgam (Rsum C (sb_pi s)) - Rsum C (fun c => lgam (sb_pi s c))
      + (Rsum C (fun c => (sb_pi s c - 1) * Elm c)
         - (lgam (Rsum C (mf_pi f)) - Rsum C (fun c => lgam (mf_pi f c)) + Rsum C (fun c => (mf_pi f c - 1) * Elm c)))).
  { rewrite dir_neg_rows. unfold dirichlet_negentropy_with. cbn [Nat.eqb Rsum]. unfold Elm. ring. }
  rewrite E5. clear E5. unfold sbm_const. fold C K m.
  set (D := Rsum K (fun k => discrete_negentropy C (m k) None None)).
  (* assemble *)
  assert (A1 : Rsum C (fun a => Rsum C (fun b => T1 a b * (tau1_hat s f w a b - sb_tau1 s) + T0 a b * (tau0_hat s f w a b - sb_tau0 s)))
     + Rsum C (fun a => Rsum C (fun b => (sb_tau1 s - 1) * T1 a b + (sb_tau0 s - 1) * T0 a b
         - (lgam (mf_tau1 f a b + mf_tau0 f a b) - (lgam (mf_tau1 f a b) + lgam (mf_tau0 f a b))
            + ((mf_tau1 f a b - 1) * (psi (mf_tau1 f a b) - psi (mf_tau1 f a b + mf_tau0 f a b))
               + (mf_tau0 f a b - 1) * (psi (mf_tau0 f a b) - psi (mf_tau1 f a b + mf_tau0 f a b))))))
     = Rsum C (fun a => Rsum C (fun b => dJ lgam psi 2
       (pair_rows (fun _ => tau1_hat s f w a b) (fun _ => tau0_hat s f w a b) 0%nat)
       (pair_rows (fun _ => mf_tau1 f a b) (fun _ => mf_tau0 f a b) 0%nat)))).
  { rewrite <- Rsum2_plus. apply Rsum2_ext. intros a b Ha Hb'. rewrite <- beta_row. unfold T1, T0. ring. }
  rewrite <- A1. clear A1.
  assert (A2 : Rsum C (fun a => Rsum C (fun b => gJ lgam psi (alpha_hat s f w a b) (beta_hat s f w a b) (mf_alpha f a b) (mf_beta f a b)))
     = Rsum C (fun a => Rsum C (fun b => L a b * (alpha_hat s f w a b - sb_alpha s) - V a b * (beta_hat s f w a b - sb_beta s)))
       + Rsum C (fun a => Rsum C (fun b => gamma_negentropy_with lgam (sb_alpha s) (L a b) (V a b) (sb_beta s) (ln (sb_beta s))
            - gamma_negentropy lgam psi (mf_alpha f a b) (mf_beta f a b)))
       - INR C * (INR C * (sb_alpha s * ln (sb_beta s) - lgam (sb_alpha s)))).
  { rewrite <- (Rsum_const C (INR C * _)), <- Rsum2_plus, <- Rsum_minus. apply Rsum_ext; intros a Ha.
    rewrite <- (Rsum_const C (sb_alpha s * ln (sb_beta s) - lgam (sb_alpha s))), <- Rsum_minus. apply Rsum_ext; intros b Hb'.
    unfold gJ, gamma_negentropy_with, L, V. ring. }
  rewrite A2. clear A2.
  assert (A3 : dJ lgam psi C (fun c => sb_pi s c + Rsum K (fun k => m k c)) (mf_pi f)
     = Rsum C (fun c => Rsum K (fun k => m k c) * Elm c) + (Rsum C (fun c => (sb_pi s c - 1) * Elm c)
         - (lgam (Rsum C (mf_pi f)) - Rsum C (fun c => lgam (mf_pi f c)) + Rsum C (fun c => (mf_pi f c - 1) * Elm c)))).
  { unfold dJ. fold Elm. rewrite (@Rsum_ext C _ (fun c => Rsum K (fun k => m k c) * Elm c + (sb_pi s c - 1) * Elm c)) by (intros; unfold Elm; ring).
    rewrite Rsum_plus. change (Rsum C (fun b => (mf_pi f b - 1) * (psi (mf_pi f b) - psi (Rsum C (mf_pi f))))) with (Rsum C (fun c => (mf_pi f c - 1) * Elm c)). ring. }
  rewrite A3. unfold L, V. ring.
Qed.

Section Updates.
Variables (s : sbm) (f : mfsbm) (w : wstats).
Hypothesis HP : prior_pos s.
Hypothesis HV : mf_valid s f.
Hypothesis HW : stats_ok (sb_K s) w.

Lemma hats_pos a b : (a < sb_C s)%nat -> (b < sb_C s)%nat ->
  0 < tau1_hat s f w a b /\ 0 < tau0_hat s f w a b /\ 0 < alpha_hat s f w a b /\ 0 < beta_hat s f w a b.
Proof.
  intros Ha Hb. destruct HP as (_ & _ & P1 & P2 & P3 & P4 & P5). destruct HV as (Hm & _).
  assert (N : forall i j, (i < sb_K s)%nat -> (j < sb_K s)%nat -> 0 <= mf_m f i a * mf_m f j b).
  { intros i j Hi Hj. destruct (Hm i Hi) as [M1 _]. destruct (Hm j Hj) as [M2 _]. apply Rmult_le_pos; auto. }
  unfold tau1_hat, tau0_hat, alpha_hat, beta_hat.
  assert (Q : forall X : mat, (forall i j, (i < sb_K s)%nat -> (j < sb_K s)%nat -> 0 <= X i j) ->
     0 <= Rsum (sb_K s) (fun i => Rsum (sb_K s) (fun j => X i j))) by (intros; apply Rsum2_nonneg; auto).
  assert (0 <= Rsum (sb_K s) (fun i => Rsum (sb_K s) (fun j => mf_m f i a * mf_m f j b * ws_A w i j))).
  { apply Rsum2_nonneg. intros i j Hi Hj. destruct (HW Hi Hj). apply Rmult_le_pos; [auto|lra]. }
  assert (0 <= Rsum (sb_K s) (fun i => Rsum (sb_K s) (fun j => mf_m f i a * mf_m f j b * (1 - ws_A w i j)))).
  { apply Rsum2_nonneg. intros i j Hi Hj. destruct (HW Hi Hj). apply Rmult_le_pos; [auto|lra]. }
  assert (0 <= Rsum (sb_K s) (fun i => Rsum (sb_K s) (fun j => mf_m f i a * mf_m f j b * ws_A w i j * sb_kappa s))).
  { apply Rsum2_nonneg. intros i j Hi Hj. destruct (HW Hi Hj). apply Rmult_le_pos; [apply Rmult_le_pos; [auto|lra]|lra]. }
  assert (0 <= Rsum (sb_K s) (fun i => Rsum (sb_K s) (fun j => mf_m f i a * mf_m f j b * ws_A w i j * ws_W w i j))).
  { apply Rsum2_nonneg. intros i j Hi Hj. destruct (HW Hi Hj). apply Rmult_le_pos; [apply Rmult_le_pos; [auto|lra]|lra]. }
  lra.
Qed.
Lemma pair_pos x y : 0 < x -> 0 < y -> forall b, (b < 2)%nat -> 0 < pair_rows (fun _ => x) (fun _ => y) 0%nat b.
Proof. intros Hx Hy [|[|b]] Hb; cbn; auto; lia. Qed.

(** Replacing only the parameters of one block. *)
Lemma sbm_p_max : forall tau0 tau1, (forall a b, (a < sb_C s)%nat -> (b < sb_C s)%nat -> 0 < tau0 a b /\ 0 < tau1 a b) ->
  sbm_obj s {| mf_pi := mf_pi f; mf_m := mf_m f; mf_tau0 := tau0; mf_tau1 := tau1; mf_alpha := mf_alpha f; mf_beta := mf_beta f |} w
  <= sbm_obj s (mf_update_p s f w 1) w.
Proof.
  intros tau0 tau1 Ht. destruct HV as (_ & _ & Hq).
  rewrite !sbm_obj_blocks by (intros a b Ha Hb; cbn; apply Hq; auto).
  change (sbm_const s (mf_update_p s f w 1)) with (sbm_const s f).
  match goal with |- context [sbm_const s ?g] => change (sbm_const s g) with (sbm_const s f) end.
  apply Rplus_le_compat_r. apply Rplus_le_compat_r. apply Rplus_le_compat_r.
  apply Rsum_le; intros a Ha. apply Rsum_le; intros b Hb. cbn [mf_update_p mf_tau0 mf_tau1]. rewrite !mix_step_1.
  destruct (hats_pos Ha Hb) as (H1 & H2 & _). destruct (Ht a b Ha Hb).
  apply (dJ_max GF); [lia|]. intros c Hc. split; apply pair_pos; auto.
Qed.
Lemma sbm_v_max : forall al be, (forall a b, (a < sb_C s)%nat -> (b < sb_C s)%nat -> 0 < al a b /\ 0 < be a b) ->
  sbm_obj s {| mf_pi := mf_pi f; mf_m := mf_m f; mf_tau0 := mf_tau0 f; mf_tau1 := mf_tau1 f; mf_alpha := al; mf_beta := be |} w
  <= sbm_obj s (mf_update_v s f w 1) w.
Proof.
  intros al be Ht.
  rewrite !sbm_obj_blocks.
  2:{ intros a b Ha Hb. cbn. rewrite mix_step_1. now apply hats_pos. }
  2:{ intros a b Ha Hb. cbn. now apply Ht. }
  change (sbm_const s (mf_update_v s f w 1)) with (sbm_const s f).
  match goal with |- context [sbm_const s ?g] => change (sbm_const s g) with (sbm_const s f) end.
  apply Rplus_le_compat_r. apply Rplus_le_compat_r. apply Rplus_le_compat_l.
  apply Rsum_le; intros a Ha. apply Rsum_le; intros b Hb. cbn [mf_update_v mf_alpha mf_beta]. rewrite !mix_step_1.
  destruct (hats_pos Ha Hb) as (_ & _ & H1 & H2). destruct (Ht a b Ha Hb). apply (gJ_max GF); auto.
Qed.
Lemma sbm_m_max : forall pi, (forall a, (a < sb_C s)%nat -> 0 < pi a) ->
  sbm_obj s {| mf_pi := pi; mf_m := mf_m f; mf_tau0 := mf_tau0 f; mf_tau1 := mf_tau1 f; mf_alpha := mf_alpha f; mf_beta := mf_beta f |} w
  <= sbm_obj s (mf_update_m s f 1) w.
Proof.
  intros pi Ht. pose proof HV as (Hm & _ & Hq). pose proof HP as (HC & Hpi & _).
  rewrite !sbm_obj_blocks by (intros a b Ha Hb; cbn; apply Hq; auto).
  change (sbm_const s (mf_update_m s f 1)) with (sbm_const s f).
  match goal with |- context [sbm_const s ?g] => change (sbm_const s g) with (sbm_const s f) end.
  apply Rplus_le_compat_r. apply Rplus_le_compat_l. cbn [mf_update_m mf_pi mf_m].
  set (hat := fun c => sb_pi s c + Rsum (sb_K s) (fun k => mf_m f k c)).
  replace (fun c => mix_step 1 (mf_pi f c) (sb_pi s c + Rsum (sb_K s) (fun k => mf_m f k c))) with hat
    by (apply functional_extensionality; intros; now rewrite mix_step_1).
  apply (dJ_max GF); [lia|]. intros c Hc. split; [|now apply Ht]. unfold hat.
  assert (0 <= Rsum (sb_K s) (fun k => mf_m f k c)); [|specialize (Hpi c Hc); lra].
  apply Rsum_nonneg. intros k Hk. now apply Hm.
Qed.
End Updates.
End N.
