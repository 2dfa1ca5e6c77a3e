(** * Props_Float: C118, rounding never makes the parent sampler fail or change its probabilities noticeably. *)
From Verif Require Import Prelude ExtReal Arrays Spec_Parents Spec_Float M_Parents M_FloatParents L_Discrete L_Parents L_Float.
From Flocq Require Import Core.
From Coq Require Import Permutation Lia.
Set Implicit Arguments.
Open Scope R_scope.

(** Parameters and filtered counts are doubles: background rates positive, the rest non-negative, none above 2^300; at most
    2^64 possible causes. *)
Definition double_in (x : R) : Prop := is64 x /\ 0 <= x <= bpow radix2 300.
Definition double_inputs (p : parents) (q : params) : Prop :=
  (forall k, (k < pa_K p)%nat -> double_in (q_lam q k) /\ 0 < q_lam q k) /\
  (forall k1 k2, (k1 < pa_K p)%nat -> (k2 < pa_K p)%nat -> double_in (q_W q k1 k2)) /\
  (forall k1 k2 b, (k1 < pa_K p)%nat -> (k2 < pa_K p)%nat -> (b < pa_B p)%nat -> double_in (q_g q k1 k2 b)) /\
  (forall t k b, (t < pa_T p)%nat -> (k < pa_K p)%nat -> (b < pa_B p)%nat -> double_in (pa_F p t k b)) /\
  INR (1 + pa_K p * pa_B p) <= bpow radix2 64.
(** ... and those that are not zero are at least 2^-300. *)
Definition not_tiny (x : R) : Prop := x = 0 \/ bpow radix2 (-300) <= x.
Definition ordinary_inputs (p : parents) (q : params) : Prop :=
  (forall k1 k2, (k1 < pa_K p)%nat -> (k2 < pa_K p)%nat -> not_tiny (q_W q k1 k2)) /\
  (forall k1 k2 b, (k1 < pa_K p)%nat -> (k2 < pa_K p)%nat -> (b < pa_B p)%nat -> not_tiny (q_g q k1 k2 b)) /\
  (forall t k b, (t < pa_T p)%nat -> (k < pa_K p)%nat -> (b < pa_B p)%nat -> not_tiny (pa_F p t k b)).
(** NumPy adds every entry of a row once, no value passing through more than 4000 additions (NumPy's pairwise summation
    needs far fewer; any order will do for up to 4001 causes). *)
Definition numpy_order (M : nat) (o : order) : Prop := sums_all M o /\ (depth o <= 4000)%nat.

Lemma depth_entries o : (depth o < length (entries o))%nat.
Proof. induction o as [i|l IHl r IHr]; cbn [depth entries length]; [lia|]. rewrite app_length. lia. Qed.
Lemma any_order M o : (M <= 4001)%nat -> sums_all M o -> numpy_order M o.
Proof.
  intros HM Ho. split; [exact Ho|]. pose proof (depth_entries o) as H. rewrite (Permutation_length Ho), seq_length in H. lia.
Qed.

Lemma b64_bpow_le x e : (-1074 <= e)%Z -> x <= bpow radix2 e -> b64 x <= bpow radix2 e.
Proof. intros He H. rewrite <- (b64_id (is64_bpow He)). now apply b64_le. Qed.
Lemma bpow_le_b64 x e : (-1074 <= e)%Z -> bpow radix2 e <= x -> bpow radix2 e <= b64 x.
Proof. intros He H. rewrite <- (b64_id (is64_bpow He)). now apply b64_le. Qed.

(** A product of three inputs. *)
Lemma product3 x y z : double_in x -> double_in y -> double_in z ->
  fmul (fmul (Fin x) (Fin y)) (Fin z) = Fin (b64 (b64 (x * y) * z)) /\ is64 (b64 (b64 (x * y) * z)) /\
  0 <= b64 (b64 (x * y) * z) <= bpow radix2 900 /\
  (not_tiny x -> not_tiny y -> not_tiny z ->
   x * y * z * (1 - u64) ^ 2 <= b64 (b64 (x * y) * z) <= x * y * z * (1 + u64) ^ 2).
Proof.
  intros (_ & Hx0 & Hx) (_ & Hy0 & Hy) (_ & Hz0 & Hz).
  assert (P1 : 0 <= x * y <= bpow radix2 600).
  { split; [now apply Rmult_le_pos|]. rewrite (bpow_plus radix2 300 300 : bpow radix2 600 = _). now apply Rmult_le_compat. }
  assert (P1' : 0 <= b64 (x * y) <= bpow radix2 600) by (split; [now apply b64_nonneg|now apply b64_bpow_le]).
  assert (P2 : 0 <= b64 (x * y) * z <= bpow radix2 900).
  { split; [apply Rmult_le_pos; lra|]. rewrite (bpow_plus radix2 600 300 : bpow radix2 900 = _). apply Rmult_le_compat; lra. }
  assert (L1 : b64 (x * y) < bpow radix2 1024) by (apply b64_small; [lra|]; apply Rle_trans with (bpow radix2 600); [lra|apply bpow_le; lia]).
  assert (L2 : b64 (b64 (x * y) * z) < bpow radix2 1024) by (apply b64_small; [lra|]; apply Rle_trans with (bpow radix2 900); [lra|apply bpow_le; lia]).
  split; [|split; [apply b64_format|split; [split; [apply b64_nonneg; lra|now apply b64_bpow_le]|]]].
  - unfold fmul at 2. cbn [emul]. rewrite fround_fin by (auto; lra). unfold fmul. cbn [emul]. apply fround_fin; auto; lra.
  - intros Tx Ty Tz. pose proof u64_pos as Hu. pose proof u64_le_1 as Hu1.
    assert (T1 : x * y = 0 \/ bpow radix2 (-600) <= x * y).
    { destruct Tx as [->|Tx]; [left; ring|]. destruct Ty as [->|Ty]; [left; ring|]. right.
      rewrite (bpow_plus radix2 (-300) (-300) : bpow radix2 (-600) = _). apply Rmult_le_compat; auto using bpow_ge_0. }
    destruct (@b64_rel (x * y)) as (e1 & B1 & E1).
    { destruct T1 as [T1|T1]; [now left|right]. rewrite Rabs_pos_eq by lra. apply Rle_trans with (bpow radix2 (-600)); [apply bpow_le; lia|exact T1]. }
    destruct (@b64_rel (b64 (x * y) * z)) as (e2 & B2 & E2).
    { destruct T1 as [T1|T1]; [left; rewrite T1, (b64_id is64_0); ring|]. destruct Tz as [->|Tz]; [left; ring|]. right. rewrite Rabs_pos_eq by lra.
      apply Rle_trans with (bpow radix2 (-900)); [apply bpow_le; lia|]. rewrite (bpow_plus radix2 (-600) (-300) : bpow radix2 (-900) = _).
      apply Rmult_le_compat; auto using bpow_ge_0. apply bpow_le_b64; [lia|auto]. }
    rewrite E2, E1. apply Rabs_le_inv in B1. apply Rabs_le_inv in B2.
    assert (Hxyz : 0 <= x * y * z) by (apply Rmult_le_pos; lra).
    replace (x * y * (1 + e1) * z * (1 + e2)) with (x * y * z * ((1 + e1) * (1 + e2))) by ring.
    split; apply Rmult_le_compat_l; auto; cbn [pow]; rewrite Rmult_1_r; apply Rmult_le_compat; lra.
Qed.

(** The row before normalisation: doubles close to the exact products. *)
Lemma pvec_ok use_gsl p q k r : double_inputs p q -> (k < pa_K p)%nat -> (r < pa_Tk p k)%nat ->
  exists v : vec, (forall c, (c < 1 + pa_K p * pa_B p)%nat ->
      f_pvec use_gsl p q k r c = Fin (v c) /\ is64 (v c) /\ 0 <= v c <= bpow radix2 900 /\
      (ordinary_inputs p q -> pvec_python p q k r c * (1 - u64) ^ 2 <= v c <= pvec_python p q k r c * (1 + u64) ^ 2)) /\
    0 < v 0%nat.
Proof.
  intros (Hl & HW & Hg & HF & _) Hk Hr. destruct (@pa_row_in p k r Hr) as [Ht _]. destruct (Hl k Hk) as [Dl Pl].
  exists (fun c => match c with O => q_lam q k | S i =>
     let k1 := (i / pa_B p)%nat in let b := (i mod pa_B p)%nat in
     if use_gsl then b64 (b64 (q_W q k1 k * q_g q k1 k b) * pa_Fs p k r k1 b)
     else b64 (b64 (pa_Fs p k r k1 b * q_W q k1 k) * q_g q k1 k b) end).
  split; [|exact Pl]. intros c Hc. destruct c as [|i].
  - destruct Dl as (D1 & D2 & D3). split; [unfold f_pvec; destruct use_gsl; reflexivity|]. split; [exact D1|]. split; [split; [exact D2|]; apply Rle_trans with (bpow radix2 300); [auto|apply bpow_le; lia]|].
    intros _. cbn [pvec_python]. pose proof u64_pos. pose proof u64_le_1. assert ((1 - u64) ^ 2 <= 1) by (cbn [pow]; nra). assert (1 <= (1 + u64) ^ 2) by (cbn [pow]; nra). split; nra.
  - destruct (@idx_bound (pa_K p) (pa_B p) i) as [H1 H2]; [lia|]. cbv zeta. unfold f_pvec. cbn [pvec_python].
    set (k1 := (i / pa_B p)%nat) in *. set (b := (i mod pa_B p)%nat) in *.
    assert (DW := HW k1 k H1 Hk). assert (Dg := Hg k1 k b H1 Hk H2). assert (DF := HF (pa_row p k r) k1 b Ht H1 H2).
    change (pa_F p (pa_row p k r) k1 b) with (pa_Fs p k r k1 b) in DF.
    destruct use_gsl.
    + destruct (@product3 (q_W q k1 k) (q_g q k1 k b) (pa_Fs p k r k1 b) DW Dg DF) as (E & F & B & O). split; [exact E|]. split; [exact F|]. split; [exact B|].
      intros (OW & Og & OF). replace (pa_Fs p k r k1 b * q_W q k1 k * q_g q k1 k b) with (q_W q k1 k * q_g q k1 k b * pa_Fs p k r k1 b) by ring.
      apply O; [apply OW|apply Og|apply (OF (pa_row p k r))]; auto.
    + destruct (@product3 (pa_Fs p k r k1 b) (q_W q k1 k) (q_g q k1 k b) DF DW Dg) as (E & F & B & O). split; [exact E|]. split; [exact F|]. split; [exact B|].
      intros (OW & Og & OF). apply O; [apply (OF (pa_row p k r))|apply OW|apply Og]; auto.
Qed.

(** The probabilities computed for a row: finite, within [0,1], those before the last adding up to hardly more than one, and
    within a relative error of 10^-12 of the exact probabilities of C14-C19. *)
Theorem C118_probabilities_accurate : forall use_gsl o p q k r,
  double_inputs p q -> (k < pa_K p)%nat -> (r < pa_Tk p k)%nat -> numpy_order (1 + pa_K p * pa_B p) o ->
  exists w : vec, (forall c, (c < 1 + pa_K p * pa_B p)%nat -> f_probs use_gsl o p q k r c = Fin (w c) /\ 0 <= w c <= 1 /\
     (ordinary_inputs p q ->
      Rabs (w c - snd (request_python p q k r) c) <= / 10 ^ 12 * snd (request_python p q k r) c + bpow radix2 (-1075))) /\
   Rsum (pa_K p * pa_B p) w <= 1 + 9 / 10 * / 10 ^ 12.
Proof.
  intros use_gsl o p q k r HI Hk Hr [Ho Hd]. set (M := (1 + pa_K p * pa_B p)%nat) in *.
  destruct (@pvec_ok use_gsl p q k r HI Hk Hr) as (v & Hv & Hv0). fold M in Hv.
  assert (HM : INR M <= bpow radix2 64) by apply HI.
  assert (Hs : 0 < Rsum M v <= bpow radix2 1022).
  { split.
    - unfold M. cbn [Nat.add]. rewrite Rsum_S_l. match goal with |- 0 < _ + ?x => assert (0 <= x); [|lra] end. apply Rsum_nonneg.
      intros i Hi. destruct (Hv (S i)) as (_ & _ & H & _); [unfold M; lia|]. apply H.
    - apply Rle_trans with (Rsum M (fun _ => bpow radix2 900)).
      + apply Rsum_le. intros c Hc. apply (Hv c Hc).
      + rewrite Rsum_const. apply Rle_trans with (bpow radix2 64 * bpow radix2 900); [apply Rmult_le_compat_r; [apply bpow_ge_0|exact HM]|].
        rewrite <- bpow_plus. apply bpow_le. lia. }
  destruct (@normalised_ok M o v (f_pvec use_gsl p q k r) Ho Hd HM) as (w & Hw & Hsum); [|exact Hs|].
  { intros c Hc. destruct (Hv c Hc) as (E & F & B & _). split; [exact E|]. split; [exact F|apply B]. }
  exists w. split; [|unfold M in Hsum; cbn [Nat.add Nat.sub] in Hsum; rewrite Nat.sub_0_r in Hsum; exact Hsum].
  intros c Hc. destruct (Hw c Hc) as (E & B & A). split; [exact E|]. split; [exact B|]. intros HO.
  cbn [request_python snd]. fold M. unfold normalise. set (pv := pvec_python p q k r) in *.
  assert (Hpv : forall c', (c' < M)%nat -> 0 <= pv c').
  { intros c' Hc'. destruct (Hv c' Hc') as (_ & _ & [B0 _] & O). destruct (O HO) as [_ O2].
    assert (0 < (1 + u64) ^ 2) by (apply pow_lt; pose proof u64_pos; lra). apply (Rmult_le_reg_r ((1 + u64) ^ 2)); [auto|]. lra. }
  pose proof u64_pos as Hu. assert (Hu1 : u64 <= / 10 ^ 15) by (rewrite u64_val; cbn [pow]; lra).
  assert (S1 : Rsum M pv * (1 - u64) ^ 2 <= Rsum M v) by (rewrite <- Rsum_scal_r; apply Rsum_le; intros c' Hc'; now apply Hv).
  assert (S2 : Rsum M v <= Rsum M pv * (1 + u64) ^ 2) by (rewrite <- Rsum_scal_r; apply Rsum_le; intros c' Hc'; now apply Hv).
  destruct (Hv c Hc) as (_ & _ & _ & O). destruct (O HO) as [V1 V2]. specialize (Hpv c Hc).
  set (S := Rsum M pv) in *. set (s := Rsum M v) in *. set (x := pv c) in *. set (y := v c) in *.
  assert (Hu2 : u64 ^ 2 <= u64 * / 10 ^ 15) by (cbn [pow]; rewrite Rmult_1_r; apply Rmult_le_compat_l; lra).
  assert (HS : 0 < S). { assert (0 < (1 + u64) ^ 2) by (apply pow_lt; lra). nra. }
  assert (R1 : y / s <= x / S * (1 + 5 * u64)).
  { unfold Rdiv. apply (Rmult_le_reg_r (s * S)); [apply Rmult_lt_0_compat; lra|].
    replace (y * / s * (s * S)) with (y * S) by (field; lra). replace (x * / S * (1 + 5 * u64) * (s * S)) with (x * s * (1 + 5 * u64)) by (field; lra).
    apply Rle_trans with (x * S * (1 + u64) ^ 2); [replace (x * S * (1 + u64) ^ 2) with (x * (1 + u64) ^ 2 * S) by ring; apply Rmult_le_compat_r; lra|].
    apply Rle_trans with (x * (S * (1 - u64) ^ 2) * (1 + 5 * u64)).
    - replace (x * (S * (1 - u64) ^ 2) * (1 + 5 * u64)) with (x * S * ((1 - u64) ^ 2 * (1 + 5 * u64))) by ring.
      apply Rmult_le_compat_l; [apply Rmult_le_pos; lra|]. cbn [pow] in *. nra.
    - apply Rmult_le_compat_r; [lra|]. apply Rmult_le_compat_l; auto. }
  assert (R2 : x / S * (1 - 5 * u64) <= y / s).
  { unfold Rdiv. apply (Rmult_le_reg_r (s * S)); [apply Rmult_lt_0_compat; lra|].
    replace (y * / s * (s * S)) with (y * S) by (field; lra). replace (x * / S * (1 - 5 * u64) * (s * S)) with (x * s * (1 - 5 * u64)) by (field; lra).
    apply Rle_trans with (x * (S * (1 + u64) ^ 2) * (1 - 5 * u64)).
    - apply Rmult_le_compat_r; [cbn [pow] in *; lra|]. apply Rmult_le_compat_l; auto.
    - apply Rle_trans with (x * (1 - u64) ^ 2 * S); [|apply Rmult_le_compat_r; lra].
      replace (x * (S * (1 + u64) ^ 2) * (1 - 5 * u64)) with (x * S * ((1 + u64) ^ 2 * (1 - 5 * u64))) by ring.
      replace (x * (1 - u64) ^ 2 * S) with (x * S * (1 - u64) ^ 2) by ring.
      apply Rmult_le_compat_l; [apply Rmult_le_pos; lra|]. cbn [pow] in *. nra. }
  assert (Hx : 0 <= x / S) by (apply Rmult_le_pos; [auto|left; now apply Rinv_0_lt_compat]).
  set (a := y / s) in *. set (bb := x / S) in *. apply Rabs_le_inv in A. apply Rabs_le.
  assert (Hb : bb * u64 <= bb * / 10 ^ 15) by (apply Rmult_le_compat_l; auto). cbn [pow] in Hb, A |- *.
  split; lra.
Qed.
Print Assumptions C118_probabilities_accurate.

(** np.random.multinomial accepts every row: resampling succeeds, and each row is drawn with probabilities the generator
    accepts and that are within a relative error of 10^-12 of the exact ones. *)
Theorem C118_never_refused : forall (o : nat -> nat -> order) accepts mult p q,
  lenient accepts -> fits p -> double_inputs p q ->
  (forall k r, (k < pa_K p)%nat -> (r < pa_Tk p k)%nat -> numpy_order (1 + pa_K p * pa_B p) (o k r)) ->
  exists p' (P : nat -> nat -> nat -> er), f_resample_python o accepts mult p q = Ok p' /\
    (forall k r c, (k < pa_K p)%nat -> (r < pa_Tk p k)%nat -> (c < 1 + pa_K p * pa_B p)%nat ->
       pa_Z p' k r c = u32 (mult k r (pa_Ss p k r) (P k r) c) /\ accepts (1 + pa_K p * pa_B p)%nat (P k r) = true /\
       exists w, P k r c = Fin w /\ 0 <= w <= 1 /\
         (ordinary_inputs p q -> Rabs (w - snd (request_python p q k r) c) <= / 10 ^ 12 * snd (request_python p q k r) c + bpow radix2 (-1075))).
Proof.
  intros o accepts mult p q HL Hf HI Ho. unfold f_resample_python.
  assert (E1 : all_rows p (fun k r => Z.ltb 0 (pa_Ss p k r)) = true).
  { apply all_rows_true. intros k r Hk Hr. apply Z.ltb_lt. now apply (@fits_Ss p k r). }
  assert (E2 : all_rows p (fun k r => accepts (1 + pa_K p * pa_B p)%nat (f_probs false (o k r) p q k r)) = true).
  { apply all_rows_true. intros k r Hk Hr. destruct (@C118_probabilities_accurate false (o k r) p q k r HI Hk Hr (Ho k r Hk Hr)) as (w & Hw & Hs).
    apply (HL _ w); [intros c Hc; now apply Hw|intros c Hc; now apply Hw|]. cbn [Nat.add Nat.sub]. rewrite Nat.sub_0_r. exact Hs. }
  rewrite E1, E2. cbn [negb]. eexists. exists (fun k r => f_probs false (o k r) p q k r). split; [reflexivity|].
  intros k r c Hk Hr Hc. split; [reflexivity|]. split; [exact (proj1 (all_rows_true _ _) E2 k r Hk Hr)|].
  destruct (@C118_probabilities_accurate false (o k r) p q k r HI Hk Hr (Ho k r Hk Hr)) as (w & Hw & Hs). exists (w c). now apply Hw.
Qed.
Print Assumptions C118_never_refused.

(** NumPy's check in exact arithmetic is lenient. *)
Definition numpy_check (M : nat) (p : nat -> er) : bool :=
  forallb (fun c => match p c with Fin x => Rleb 0 x && Rleb x 1 | _ => false end) (seq 0 M)
  && Rleb (Rsum (M - 1) (fun c => fval (p c))) (1 + / 10 ^ 12).
Lemma numpy_check_lenient : lenient numpy_check.
Proof.
  intros M v p Hp Hv Hs. unfold numpy_check. apply andb_true_intro. split.
  - apply forallb_forall. intros c Hc. apply in_seq in Hc. rewrite Hp by lia. destruct (Hv c ltac:(lia)) as [H0 H1].
    apply andb_true_intro. split; now apply Rleb_true.
  - apply Rleb_true. rewrite (@Rsum_ext (M - 1) _ v) by (intros c Hc; rewrite Hp by lia; reflexivity).
    assert (0 < / 10 ^ 12) by (apply Rinv_0_lt_compat, pow_lt; lra). lra.
Qed.

(** Two processes with a single edge, two events of the first and one of the second; numbers 0, 1/2, 1, 2. *)
Definition ex_fp : parents :=
  {| pa_T := 3; pa_K := 2; pa_B := 1; pa_dt := 1;
     pa_S := fun t k => if (Nat.eqb t 0 && Nat.eqb k 0)%bool then 2%Z else if (Nat.eqb t 1 && Nat.eqb k 1)%bool then 1%Z else 0%Z;
     pa_F := fun t k _ => if (Nat.eqb t 1 && Nat.eqb k 0)%bool then 2 else 0;
     pa_Z := fun _ _ _ => 0%Z; pa_EZ := fun _ _ _ => 0 |}.
Definition ex_fq : params :=
  {| q_lam := fun _ => 1; q_W := fun k1 k2 => if (Nat.eqb k1 0 && Nat.eqb k2 1)%bool then / 2 else 0; q_g := fun _ _ _ => 1 |}.

Lemma power_in e : (-300 <= e <= 300)%Z -> double_in (bpow radix2 e) /\ not_tiny (bpow radix2 e).
Proof.
  intros He. split; [split; [apply is64_bpow; lia|split; [apply bpow_ge_0|apply bpow_le; lia]]|right; apply bpow_le; lia].
Qed.
Lemma zero_in : double_in 0 /\ not_tiny 0.
Proof. split; [split; [apply is64_0|split; [lra|apply bpow_ge_0]]|now left]. Qed.

Example C118_nonvacuous :
  let o := Plus (Plus (Entry 0) (Entry 1)) (Entry 2) in
  fits ex_fp /\ double_inputs ex_fp ex_fq /\ ordinary_inputs ex_fp ex_fq /\ numpy_order (1 + pa_K ex_fp * pa_B ex_fp) o /\
  lenient numpy_check /\ pa_Tk ex_fp 1 = 1%nat /\ snd (request_python ex_fp ex_fq 1 0) 1%nat = 1 / 2.
Proof.
  pose proof (@power_in 0 ltac:(lia)) as [H1 N1]. pose proof (@power_in 1 ltac:(lia)) as [H2 N2]. pose proof (@power_in (-1) ltac:(lia)) as [H3 N3]. destruct zero_in as [H0 N0].
  change (bpow radix2 0) with 1 in *. change (bpow radix2 1) with 2 in *. change (bpow radix2 (-1)) with (/ 2) in *.
  split; [|split; [|split; [|split; [|split; [apply numpy_check_lenient|split; [reflexivity|]]]]]].
  - intros t k _ _. cbn [ex_fp pa_S]. destruct (_ && _)%bool; [lia|]. destruct (_ && _)%bool; lia.
  - unfold double_inputs. cbn [ex_fp ex_fq pa_K pa_B pa_T pa_F q_lam q_W q_g].
    split; [intros; split; [exact H1|lra]|]. split; [intros; destruct (_ && _)%bool; auto|]. split; [intros; exact H1|].
    split; [intros; destruct (_ && _)%bool; auto|]. apply Rle_trans with (bpow radix2 2); [cbn; lra|apply bpow_le; lia].
  - unfold ordinary_inputs. cbn [ex_fp ex_fq pa_K pa_B pa_T pa_F q_lam q_W q_g].
    split; [intros; destruct (_ && _)%bool; auto|]. split; [intros; exact N1|]. intros; destruct (_ && _)%bool; auto.
  - apply any_order; [cbn; lia|]. unfold sums_all. cbn. apply Permutation_refl.
  - unfold request_python, normalise, pvec_python, pa_Fs, pa_row, pa_ts. cbn. field.
Qed.
