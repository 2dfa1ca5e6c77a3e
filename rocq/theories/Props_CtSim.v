(** * Props_CtSim: C121, the law of simulated continuous-time data against the likelihood. *)
From Coq Require Import Permutation FunctionalExtensionality.
From Verif Require Import Prelude ExtReal Arrays Spec_Gibbs Spec_Continuous Spec_CtJoint Spec_Simulation Spec_CtSim
  M_Basis M_Parents M_Discrete M_Gibbs M_Dist M_Network M_Sweep M_Continuous L_Continuous Props_Continuous Props_Continuous2
  Props_Continuous3 M_CtGenerate Props_CtGenerate Props_CtJoint.
Set Implicit Arguments.
Open Scope R_scope.

(* ---------------- products over lists ---------------- *)
Lemma lprod_app l1 l2 : lprod (l1 ++ l2) = lprod l1 * lprod l2.
Proof. induction l1 as [|x l1 IH]; cbn [lprod app]; [ring|]. rewrite IH. ring. Qed.
Lemma lprod_perm l1 l2 : Permutation l1 l2 -> lprod l1 = lprod l2.
Proof. induction 1; cbn [lprod]; [reflexivity|now rewrite IHPermutation|ring|congruence]. Qed.
Lemma lprod_Rprod {A} (f : A -> R) (l : list A) (d : A) : lprod (map f l) = Rprod (length l) (fun i => f (nth i l d)).
Proof.
  induction l as [|a l IH] using rev_ind; [reflexivity|]. rewrite map_app, lprod_app, app_length, Nat.add_1_r. cbn [length lprod map Rprod].
  rewrite IH. rewrite app_nth2, Nat.sub_diag by lia. cbn [nth]. rewrite Rmult_1_r. f_equal. apply Rprod_ext. intros i Hi. now rewrite app_nth1.
Qed.
Lemma lprod_map_mult {A} (f g : A -> R) l : lprod (map (fun a => f a * g a) l) = lprod (map f l) * lprod (map g l).
Proof. induction l as [|a l IH]; cbn [lprod map]; [ring|]. rewrite IH. ring. Qed.
Lemma Rprod_seq n f : Rprod n f = lprod (map f (seq 0 n)).
Proof. rewrite (@lprod_Rprod _ f (seq 0 n) 0%nat), seq_length. apply Rprod_ext. intros i Hi. now rewrite seq_nth. Qed.
Lemma lprod_const {A} (l : list A) a : lprod (map (fun _ => a) l) = a ^ length l.
Proof. induction l as [|b l IH]; cbn [lprod map length pow]; [reflexivity|now rewrite IH]. Qed.

(* ---------------- one response time ---------------- *)
Lemma response_sigmoid D mu tau x : response_time D mu tau x = D * sigmoid (mu + x / sqrt tau).
Proof. reflexivity. Qed.
Lemma response_range D mu tau x : 0 < D -> 0 < response_time D mu tau x < D.
Proof. intros HD. rewrite response_sigmoid. pose proof (sigmoid_range (mu + x / sqrt tau)). split; nra. Qed.
Lemma response_to_line D mu tau x : 0 < D -> to_line D (response_time D mu tau x) = mu + x / sqrt tau.
Proof.
  intros HD. unfold to_line, response_time. set (y := mu + x / sqrt tau). pose proof (exp_pos (- y)).
  replace (D * (1 / (1 + exp (- y))) / (D - D * (1 / (1 + exp (- y))))) with (/ exp (- y)).
  2:{ assert (E : D - D * (1 / (1 + exp (- y))) = D * exp (- y) / (1 + exp (- y))) by (field; lra). rewrite E. field. repeat split; lra. }
  rewrite <- exp_Ropp, Ropp_involutive. apply ln_exp.
Qed.
(** The density of the delay times the slope of the response is the density of the draw. *)
Lemma response_density D mu tau x : 0 < D -> 0 < tau ->
  delay_pdf D mu tau (response_time D mu tau x) * response_slope D tau (response_time D mu tau x) = normal_pdf 0 1 x.
Proof.
  intros HD Ht. unfold delay_pdf, response_slope. rewrite response_to_line by exact HD. pose proof (response_range mu tau x HD) as [H1 H2].
  set (dt := response_time D mu tau x) in *. pose proof (sqrt_lt_R0 tau Ht) as Hs.
  replace (normal_pdf mu tau (mu + x / sqrt tau) * (D / (dt * (D - dt))) * (dt * (D - dt) / (D * sqrt tau)))
    with (normal_pdf mu tau (mu + x / sqrt tau) / sqrt tau) by (field; repeat split; lra).
  unfold normal_pdf. replace (mu + x / sqrt tau - mu) with (x / sqrt tau) by ring.
  replace (- (tau / 2) * (x / sqrt tau) ^ 2) with (- (1 / 2) * (x - 0) ^ 2).
  - pose proof PI_RGT_0. replace (sqrt (tau / (2 * PI))) with (sqrt tau * sqrt (1 / (2 * PI))); [field; lra|].
    rewrite <- sqrt_mult; [f_equal; field; lra|lra|]. apply Rlt_le, Rdiv_lt_0_compat; lra.
  - replace ((x / sqrt tau) ^ 2) with (x ^ 2 / (sqrt tau * sqrt tau)) by (field; lra). rewrite sqrt_def by lra. field. lra.
Qed.
Theorem C121_slope : forall D mu tau x, 0 < D -> 0 < tau ->
  derivable_pt_lim (response_time D mu tau) x (response_slope D tau (response_time D mu tau x)).
Proof.
  intros D mu tau x HD Ht. pose proof (sqrt_lt_R0 tau Ht) as Hs.
  set (g := fun x => - (mu + x * / sqrt tau)). set (h := fun x => 1 + exp (g x)).
  assert (Hg : derivable_pt_lim g x (- (0 + 1 * / sqrt tau))).
  { unfold g. apply derivable_pt_lim_opp. apply derivable_pt_lim_plus; [apply derivable_pt_lim_const|].
    replace (1 * / sqrt tau) with (1 * / sqrt tau + x * 0) by ring. apply (derivable_pt_lim_mult id (fun _ => / sqrt tau)); [apply derivable_pt_lim_id|apply derivable_pt_lim_const]. }
  assert (Hh : derivable_pt_lim h x (0 + exp (g x) * (- (0 + 1 * / sqrt tau)))).
  { unfold h. apply derivable_pt_lim_plus; [apply derivable_pt_lim_const|]. apply (derivable_pt_lim_comp g exp); [exact Hg|apply derivable_pt_lim_exp]. }
  pose proof (exp_pos (g x)) as He. assert (Hn : h x <> 0) by (unfold h; lra).
  assert (Hd : derivable_pt_lim (fun x => D * (1 / h x)) x (D * ((0 * h x - (0 + exp (g x) * (- (0 + 1 * / sqrt tau))) * 1) / Rsqr (h x)))).
  { apply derivable_pt_lim_scal. apply (derivable_pt_lim_div (fun _ => 1) h); [apply derivable_pt_lim_const|exact Hh|exact Hn]. }
  replace (response_slope D tau (response_time D mu tau x)) with (D * ((0 * h x - (0 + exp (g x) * (- (0 + 1 * / sqrt tau))) * 1) / Rsqr (h x))).
  - exact Hd.
  - change (response_time D mu tau x) with (D * (1 / h x)). unfold response_slope, Rsqr. unfold h in *. set (e := exp (g x)) in *.
    assert (E : D - D * (1 / (1 + e)) = D * e / (1 + e)) by (field; lra). rewrite E. field. repeat split; lra.
Qed.
Print Assumptions C121_slope.

(* ---------------- genealogies ---------------- *)
(** An event with its parent (None: background). *)
Definition born : Type := option ev * ev.
Definition born_rate (m : ctmodel) (x : born) : R :=
  match fst x with
  | None => cm_lam m (snd (snd x))
  | Some p => conn m (snd p) (snd (snd x)) * delay_pdf (cm_dtmax m) (cm_mu m (snd p) (snd (snd x))) (cm_tau m (snd p) (snd (snd x))) (fst (snd x) - fst p)
  end.
Definition born_stretch (m : ctmodel) (T : R) (x : born) : R :=
  match fst x with
  | None => T
  | Some p => response_slope (cm_dtmax m) (cm_tau m (snd p) (snd (snd x))) (fst (snd x) - fst p)
  end.
Definition born_weight m T x := born_rate m x * born_stretch m T x.
Definition out (m : ctmodel) (a : nat) : R := Rsum (cm_K m) (fun b => conn m a b).
Definition outs (m : ctmodel) (es : list ev) : R := lsum (map (fun e => out m (snd e)) es).
(** Density of the draws, siblings unordered. *)
Definition udens (tr : list call) : R := draws_density tr * orderings tr.
Lemma udens_app tr1 tr2 : udens (tr1 ++ tr2) = udens tr1 * udens tr2.
Proof. unfold udens, draws_density, orderings. rewrite !map_app, !lprod_app. ring. Qed.
Lemma udens_nil : udens [] = 1.
Proof. unfold udens, draws_density, orderings. cbn. ring. Qed.
Lemma udens_pois mean n tr : udens (CPois mean n :: tr) = exp (- mean) * mean ^ n * udens tr.
Proof.
  unfold udens, draws_density, orderings. cbn [map lprod call_density]. unfold pmf. field. apply INR_fact_neq_0.
Qed.
Lemma udens_norm n x tr : udens (CNorm n x :: tr) = lprod (map (fun i => normal_pdf 0 1 (x i)) (seq 0 n)) * udens tr.
Proof. unfold udens, draws_density, orderings. cbn [map lprod call_density]. rewrite Rprod_seq. ring. Qed.
Lemma udens_unif n u tr : udens (CUnif n u :: tr) = udens tr.
Proof. unfold udens, draws_density, orderings. cbn [map lprod call_density]. ring. Qed.
Lemma drawn_app tr1 tr2 : drawn (tr1 ++ tr2) = (drawn tr1 + drawn tr2)%nat.
Proof. induction tr1 as [|[]]; cbn [drawn app]; lia. Qed.
Lemma outs_app m l1 l2 : outs m (l1 ++ l2) = outs m l1 + outs m l2.
Proof. unfold outs. now rewrite map_app, lsum_app. Qed.
Lemma outs_map m b (ts : list R) : outs m (map (fun s => (s, b)) ts) = INR (length ts) * out m b.
Proof. unfold outs. rewrite map_map. cbn [snd]. rewrite lsum_map_const. ring. Qed.
Lemma filter_full {A} (p : A -> bool) l : length (filter p l) = length l -> filter p l = l.
Proof.
  assert (L : forall l, (length (filter p l) <= length l)%nat) by (clear; induction l as [|a l IH]; cbn; [lia|]; destruct (p a); cbn; lia).
  induction l as [|a l IH]; cbn; [reflexivity|]. destruct (p a); cbn; intros H; [f_equal; apply IH; lia|]. specialize (L l). lia.
Qed.
Lemma filter_short {A} (p : A -> bool) l : (length (filter p l) <= length l)%nat.
Proof. induction l as [|a l IH]; cbn; [lia|]; destruct (p a); cbn; lia. Qed.

Section Family.
Variables (m : ctmodel) (T : R).
Hypothesis HD : 0 < cm_dtmax m.
Hypothesis HW : forall a b, (a < cm_K m)%nat -> (b < cm_K m)%nat -> 0 <= cm_W m a b.
Hypothesis Htau : forall a b, (a < cm_K m)%nat -> (b < cm_K m)%nat -> 0 < cm_tau m a b.

Lemma kid_count t c b n x : (length (kid_times m T t c b n x) <= n)%nat.
Proof. unfold kid_times. etransitivity; [apply filter_short|]. now rewrite map_length, seq_length. Qed.
Lemma kid_all t c b n x : length (kid_times m T t c b n x) = n ->
  kid_times m T t c b n x = map (fun i => t + response_time (cm_dtmax m) (cm_mu m c b) (cm_tau m c b) (x i)) (seq 0 n).
Proof. intros H. apply filter_full. rewrite map_length, seq_length. exact H. Qed.

(** [family roots acc tr es]: the events es, their draws tr; [acc] is the expected number of children drawn for the roots. *)
Definition family (roots : list ev) (acc : R) (tr : list call) (es : list ev) : Prop :=
  (length es <= drawn tr)%nat /\
  (drawn tr = length es -> exists fam : list born, map snd fam = es /\
     (forall x, In x fam -> exists p, fst x = Some p /\ In p (roots ++ es) /\ child_of m (snd x) p) /\
     udens tr = exp (- (acc + outs m es)) * lprod (map (born_weight m T) fam)).

Lemma kids_weight t c b n x : (c < cm_K m)%nat -> (b < cm_K m)%nat -> length (kid_times m T t c b n x) = n ->
  (conn m c b) ^ n * lprod (map (fun i => normal_pdf 0 1 (x i)) (seq 0 n))
  = lprod (map (born_weight m T) (@map R born (fun s => (Some (t, c), (s, b))) (kid_times m T t c b n x))).
Proof.
  intros Hc Hb H. rewrite (@kid_all t c b n x H). rewrite !map_map.
  rewrite (@map_ext _ _ (fun i => born_weight m T _) (fun i => conn m c b * normal_pdf 0 1 (x i))).
  - rewrite lprod_map_mult, lprod_const, seq_length. reflexivity.
  - intros i. unfold born_weight, born_rate, born_stretch. cbn [fst snd].
    set (dt := response_time _ _ _ _). replace (t + dt - t) with dt by ring.
    rewrite Rmult_assoc. unfold dt. rewrite response_density; auto.
Qed.

Lemma cluster_family :
  (forall f t c tr es, cluster m T f t c tr es -> (c < cm_K m)%nat -> family [(t, c)] (out m c) tr es) /\
  (forall f t c bs tr es, kids m T f t c bs tr es -> (c < cm_K m)%nat -> (forall b, In b bs -> (b < cm_K m)%nat) ->
     family [(t, c)] (lsum (map (fun b => conn m c b) bs)) tr es) /\
  (forall f ts b tr es, clusters m T f ts b tr es -> (b < cm_K m)%nat -> family (map (fun s => (s, b)) ts) (INR (length ts) * out m b) tr es).
Proof.
  apply (@cluster_all m T
    (fun f t c tr es => (c < cm_K m)%nat -> family [(t, c)] (out m c) tr es)
    (fun f t c bs tr es => (c < cm_K m)%nat -> (forall b, In b bs -> (b < cm_K m)%nat) -> family [(t, c)] (lsum (map (fun b => conn m c b) bs)) tr es)
    (fun f ts b tr es => (b < cm_K m)%nat -> family (map (fun s => (s, b)) ts) (INR (length ts) * out m b) tr es)).
  - intros f t c tr es _ IH Hc. specialize (IH Hc). unfold out. rewrite <- lsum_map_seq. apply IH. intros b Hb. apply in_seq in Hb. lia.
  - intros f t c _ _. split; [cbn; lia|]. intros _. exists []. split; [reflexivity|]. split; [intros x []|].
    unfold outs. cbn [map lsum lprod]. rewrite udens_nil, Rplus_0_r, Ropp_0, exp_0. ring.
  - intros f t c b bs tr es H0 _ IH Hc Hb. cbn [map lsum]. rewrite H0, Rplus_0_l. apply IH; [exact Hc|]. intros; apply Hb; now right.
  - intros f t c b bs n x tr1 tr2 es1 es2 Hcn _ IH1 _ IH2 Hc Hb.
    assert (Hbk : (b < cm_K m)%nat) by (apply Hb; now left).
    destruct (IH1 Hbk) as [L1 F1]. destruct (IH2 Hc) as [L2 F2]; [intros; apply Hb; now right|].
    assert (Hpos : 0 < conn m c b).
    { assert (0 <= conn m c b); [|lra]. unfold conn. destruct (cm_A m c b); [apply HW; auto|lra]. }
    pose proof (@kid_count t c b n x) as Lk. set (ks := kid_times m T t c b n x) in *.
    match goal with |- family _ _ _ ?l => assert (EL : @length ev l = (length ks + length es1 + length es2)%nat) by (rewrite !app_length, map_length; lia) end.
    assert (ED : drawn (CPois (conn m c b) n :: CNorm n x :: tr1 ++ tr2) = (n + (drawn tr1 + drawn tr2))%nat) by (cbn [drawn]; now rewrite drawn_app).
    split; [rewrite EL, ED; lia|]. rewrite EL, ED. intros Hd.
    destruct F1 as (fam1 & M1 & P1 & U1); [lia|]. destruct F2 as (fam2 & M2 & P2 & U2); [lia|].
    exists (@map R born (fun s => (Some (t, c), (s, b))) ks ++ fam1 ++ fam2). split; [|split].
    + rewrite !map_app. f_equal; [now rewrite map_map|f_equal; assumption].
    + intros y Hy. apply in_app_or in Hy as [Hy|Hy]; [|apply in_app_or in Hy as [Hy|Hy]].
      * apply in_map_iff in Hy as (s & <- & Hs). exists (t, c). split; [reflexivity|]. split; [now left|].
        destruct (kid_window HD Hs) as [X Y]. split; [exact Y|exact Hpos].
      * destruct (P1 y Hy) as (p & Ep & Hp & Hch). exists p. split; [exact Ep|]. split; [|exact Hch].
        cbn [app]. right. apply in_app_or in Hp as [Hp|Hp]; apply in_or_app; [now left|]. right. apply in_or_app. now left.
      * destruct (P2 y Hy) as (p & Ep & Hp & Hch). exists p. split; [exact Ep|]. split; [|exact Hch].
        cbn [app] in Hp |- *. destruct Hp as [Hp|Hp]; [now left|]. right. apply in_or_app. right. apply in_or_app. now right.
    + rewrite udens_pois, udens_norm, udens_app, U1, U2.
      assert (Ek : length ks = n) by lia. unfold ks in *. rewrite !map_app, !lprod_app, <- (@kids_weight t c b n x Hc Hbk Ek), !outs_app, outs_map.
      cbn [map lsum]. rewrite Ek.
      replace (- (conn m c b + lsum (map (fun b0 => conn m c b0) bs) + (INR n * out m b + (outs m es1 + outs m es2))))
        with (- conn m c b + (- (INR n * out m b + outs m es1) + - (lsum (map (fun b0 => conn m c b0) bs) + outs m es2))) by ring.
      rewrite !exp_plus. ring.
  - intros f b _. split; [cbn; lia|]. intros _. exists []. split; [reflexivity|]. split; [intros x []|].
    unfold outs. cbn [map lsum lprod length INR]. rewrite udens_nil, Rmult_0_l, Rplus_0_r, Ropp_0, exp_0. ring.
  - intros f t ts b tr1 tr2 es1 es2 _ IH1 _ IH2 Hb. destruct (IH1 Hb) as [L1 F1]. destruct (IH2 Hb) as [L2 F2].
    split; [rewrite app_length, drawn_app; lia|]. rewrite app_length, drawn_app. intros Hd.
    destruct F1 as (fam1 & M1 & P1 & U1); [lia|]. destruct F2 as (fam2 & M2 & P2 & U2); [lia|].
    exists (fam1 ++ fam2). split; [rewrite map_app; f_equal; assumption|]. split.
    + intros y Hy. apply in_app_or in Hy as [Hy|Hy].
      * destruct (P1 y Hy) as (p & Ep & Hp & Hch). exists p. split; [exact Ep|]. split; [|exact Hch].
        cbn [map app] in *. destruct Hp as [Hp|Hp]; [now left|]. right. apply in_or_app. right. apply in_or_app. now left.
      * destruct (P2 y Hy) as (p & Ep & Hp & Hch). exists p. split; [exact Ep|]. split; [|exact Hch].
        cbn [map app]. right. apply in_app_or in Hp as [Hp|Hp]; apply in_or_app; [now left|]. right. apply in_or_app. now right.
    + rewrite udens_app, U1, U2, map_app, lprod_app, outs_app. change (length (t :: ts)) with (S (length ts)). rewrite S_INR.
      replace (- ((INR (length ts) + 1) * out m b + (outs m es1 + outs m es2)))
        with (- (out m b + outs m es1) + - (INR (length ts) * out m b + outs m es2)) by ring.
      rewrite exp_plus. ring.
Qed.

Lemma immigrants_family f : forall ks tr es, immigrants m T f ks tr es -> (forall k, In k ks -> (k < cm_K m)%nat) ->
  (length es <= drawn tr)%nat /\
  (drawn tr = length es -> exists fam : list born, map snd fam = es /\
     (forall x, In x fam -> match fst x with None => True | Some p => In p es /\ child_of m (snd x) p end) /\
     udens tr = exp (- (lsum (map (fun k => cm_lam m k * T) ks) + outs m es)) * lprod (map (born_weight m T) fam)).
Proof.
  induction 1 as [|k ks n u tr1 tr2 es1 es2 HC HI IH]; intros Hk.
  - split; [cbn; lia|]. intros _. exists []. split; [reflexivity|]. split; [intros x []|].
    unfold outs. cbn [map lsum lprod]. rewrite udens_nil, Rplus_0_r, Ropp_0, exp_0. ring.
  - destruct (IH (fun k' H => Hk k' (or_intror H))) as [L2 F2].
    destruct cluster_family as (_ & _ & CF). destruct (CF _ _ _ _ _ HC) as [L1 F1]; [apply Hk; now left|].
    rewrite map_map, map_length, seq_length in F1.
    set (bk := map (fun i => (u i * T, k)) (seq 0 n)) in *.
    assert (Lb : @length ev bk = n) by (unfold bk; now rewrite map_length, seq_length).
    match goal with |- (@length _ ?l <= _)%nat /\ _ => assert (EL : @length ev l = (n + length es1 + length es2)%nat) by (rewrite !app_length; change (@length (R * nat) bk) with (@length ev bk); lia) end.
    assert (ED : drawn (CPois (cm_lam m k * T) n :: CUnif n u :: tr1 ++ tr2) = (n + (drawn tr1 + drawn tr2))%nat) by (cbn [drawn]; now rewrite drawn_app).
    split; [rewrite EL, ED; lia|]. rewrite EL, ED. intros Hd.
    destruct F1 as (fam1 & M1 & P1 & U1); [lia|]. destruct F2 as (fam2 & M2 & P2 & U2); [lia|].
    exists (@map ev born (fun e => (None, e)) bk ++ fam1 ++ fam2). split; [|split].
    + rewrite !map_app. f_equal; [rewrite map_map; cbn [snd]; now rewrite map_id|f_equal; assumption].
    + intros y Hy. apply in_app_or in Hy as [Hy|Hy]; [|apply in_app_or in Hy as [Hy|Hy]].
      * apply in_map_iff in Hy as (e & <- & _). exact I.
      * destruct (P1 y Hy) as (p & -> & Hp & Hch). split; [|exact Hch]. apply in_app_or in Hp as [Hp|Hp]; apply in_or_app; [now left|].
        right. apply in_or_app. now left.
      * specialize (P2 y Hy). destruct (fst y); [|exact I]. destruct P2 as [Hp Hch]. split; [|exact Hch]. apply in_or_app. right. apply in_or_app. now right.
    + rewrite udens_pois, udens_unif, udens_app, U1, U2. rewrite !map_app, !lprod_app, !outs_app.
      assert (Eb : outs m bk = INR n * out m k).
      { unfold outs, bk. rewrite map_map. cbn [snd]. rewrite lsum_map_const, seq_length. ring. }
      assert (Ew : lprod (map (born_weight m T) (@map ev born (fun e => (None, e)) bk)) = (cm_lam m k * T) ^ n).
      { unfold bk. rewrite !map_map. rewrite (@map_ext _ _ _ (fun _ => cm_lam m k * T)) by reflexivity. now rewrite lprod_const, seq_length. }
      rewrite Eb, Ew. cbn [map lsum].
      replace (- (cm_lam m k * T + lsum (map (fun k0 => cm_lam m k0 * T) ks) + (INR n * out m k + (outs m es1 + outs m es2))))
        with (- (cm_lam m k * T) + (- (INR n * out m k + outs m es1) + - (lsum (map (fun k0 => cm_lam m k0 * T) ks) + outs m es2))) by ring.
      rewrite !exp_plus. ring.
Qed.
End Family.

(* ---------------- the theorem ---------------- *)
(** The simulated path with causes z. *)
Definition path (S_ : list R) (C_ : list nat) (T : R) (z : nat -> nat) : caused :=
  {| ev_N := length S_; ev_t := fun n => nth n S_ 0; ev_k := fun n => nth n C_ 0%nat; ev_T := T; ev_z := z |}.
Definition delay_of (m : ctmodel) (a b : nat) (dt : R) : R := delay_pdf (cm_dtmax m) (cm_mu m a b) (cm_tau m a b) dt.

Lemma finite_choice (P : nat -> nat -> Prop) N : (forall n, (n < N)%nat -> exists j, P n j) -> exists z, forall n, (n < N)%nat -> P n (z n).
Proof.
  induction N as [|N IH]; intros H; [exists (fun _ => 0%nat); intros; lia|].
  destruct IH as (z & Hz); [intros; apply H; lia|]. destruct (H N) as (j & Hj); [lia|]. exists (upd z N j). intros n Hn. unfold upd.
  destruct (Nat.eqb_spec n N) as [->|]; [exact Hj|apply Hz; lia].
Qed.
Lemma path_expected m S_ C_ T z : length S_ = length C_ -> (forall c, In c C_ -> (c < cm_K m)%nat) ->
  expected_events (cm_K m) (cm_lam m) (conn m) (path S_ C_ T z) = lsum (map (fun k => cm_lam m k * T) (seq 0 (cm_K m))) + outs m (combine S_ C_).
Proof.
  intros HL HC. unfold expected_events. cbn [path ev_T ev_N ev_k]. rewrite Rsum_plus, lsum_map_seq. f_equal.
  rewrite (@Rsum_ext (cm_K m) _ (fun k => Rsum (length S_) (fun n => conn m (nth n C_ 0%nat) k))).
  - rewrite Rsum_swap. unfold outs. rewrite (@lsum_map_nth _ _ _ (0, 0%nat)), combine_length, <- HL, Nat.min_id. apply Rsum_ext. intros n Hn.
    rewrite combine_nth by exact HL. reflexivity.
  - intros k Hk. unfold count. rewrite (@Rsum_ext (cm_K m) _ (fun a => Rsum (length S_) (fun n => conn m a k * (if Nat.eqb (nth n C_ 0%nat) a then 1 else 0)))) by (intros a _; now rewrite Rsum_scal).
    rewrite Rsum_swap. apply Rsum_ext. intros n Hn.
    set (a0 := nth n C_ 0%nat). assert (Ha : (a0 < cm_K m)%nat) by (apply HC, nth_In; lia).
    rewrite (@Rsum_ext (cm_K m) _ (fun a => if Nat.eqb a0 a then conn m a k else 0)) by (intros a _; destruct (Nat.eqb a0 a); ring).
    now rewrite Rsum_pick.
Qed.

Theorem C121_complete_paths_partial :
  forall r argsort m keep T isfloat max_round tr0 S_ C_ tr m',
    (0 < cm_K m)%nat -> 0 < cm_dtmax m -> 0 < T -> (keep = true -> isfloat = true) -> params_ok m ->
    (forall tr n i, (i < n)%nat -> unit_interval (r_unif r tr n i)) -> sorts argsort ->
    ct_generate r argsort m keep T isfloat max_round tr0 = (Ok (S_, C_, tr0 ++ tr), m') ->
    drawn tr = length S_ ->
    exists z : nat -> nat,
      (forall n, (n < length S_)%nat -> (z n <= n)%nat) /\
      (forall n p, (n < length S_)%nat -> z n = S p -> child_of m (nth n S_ 0, nth n C_ 0%nat) (nth p S_ 0, nth p C_ 0%nat)) /\
      draws_density tr * orderings tr
      = caused_density (cm_K m) (cm_lam m) (conn m) (delay_of m) (path S_ C_ T z)
        * Rprod (length S_) (stretch (cm_dtmax m) (cm_tau m) (path S_ C_ T z)).
Proof.
  intros r argsort m keep T isfloat max_round tr0 S_ C_ tr m' HK HD HT Hkf Hp Hu Hs E Hdr. pose proof Hp as (Hlam & HW & Htau).
  pose proof (@C64_generate r argsort m keep T isfloat max_round tr0 HK HD HT Hkf Hp Hu Hs) as G. rewrite E in G. destruct G as [G _].
  destruct G as (tr' & es & off & Etr & _ & Him & Hperm & HL & Hsrt & HinS & HinC & _ & _).
  apply app_inv_head in Etr. subst tr'.
  assert (Les : length es = length S_).
  { transitivity (length (combine S_ C_)); [symmetry; exact (Permutation_length Hperm)|]. rewrite combine_length, <- HL. apply Nat.min_id. }
  destruct (@immigrants_family m T HD HW Htau max_round _ _ _ Him) as [_ F]; [intros k Hk; apply in_seq in Hk; lia|].
  destruct F as (fam & Mf & Pf & Uf); [lia|].
  assert (Hperm2 : Permutation (combine S_ C_) (map snd fam)) by (rewrite Mf; exact Hperm).
  apply Permutation_map_inv in Hperm2 as (fam' & Ef & Pff). set (x0 := (None, (0, 0%nat)) : born).
  assert (Lf : length fam' = length S_) by (rewrite <- (Permutation_length Pff), <- (map_length snd fam), Mf; exact Les).
  assert (Esnd : forall n, snd (nth n fam' x0) = (nth n S_ 0, nth n C_ 0%nat)).
  { intros n. rewrite <- combine_nth by exact HL. rewrite Ef. change (0, 0%nat) with (snd x0). now rewrite map_nth. }
  assert (Hz : forall n, (n < length S_)%nat -> exists j, (j <= n)%nat /\ match fst (nth n fam' x0) with
      | None => j = 0%nat
      | Some p => exists q, j = S q /\ p = (nth q S_ 0, nth q C_ 0%nat) /\ child_of m (nth n S_ 0, nth n C_ 0%nat) p end).
  { intros n Hn. assert (Hin : In (nth n fam' x0) fam) by (apply (Permutation_in _ (Permutation_sym Pff)), nth_In; lia).
    specialize (Pf _ Hin). rewrite Esnd in Pf. destruct (fst (nth n fam' x0)) as [p|]; [|exists 0%nat; split; [lia|reflexivity]].
    destruct Pf as [Hpin Hch]. assert (Hpc : In p (combine S_ C_)).
    { rewrite Ef. rewrite <- Mf in Hpin. apply in_map_iff in Hpin as (y & <- & Hy). apply in_map. exact (Permutation_in _ Pff Hy). }
    apply (In_nth _ _ (0, 0%nat)) in Hpc as (q & Hq & Eq). rewrite combine_nth in Eq by exact HL. rewrite combine_length, <- HL, Nat.min_id in Hq.
    assert (q < n)%nat.
    { destruct (Nat.lt_ge_cases q n) as [|Hge]; [assumption|exfalso]. specialize (Hsrt n q Hge Hq). destruct Hch as [Hw _]. rewrite <- Eq in Hw. cbn [fst] in Hw. lra. }
    exists (S q). split; [lia|]. exists q. auto. }
  apply finite_choice in Hz as (z & Hz). exists z. split; [intros n Hn; apply Hz; exact Hn|]. split.
  { intros n p Hn Ez. destruct (Hz n Hn) as [_ X]. destruct (fst (nth n fam' x0)) as [q|]; [|congruence].
    destruct X as (q' & E1 & -> & Hch). rewrite Ez in E1. injection E1 as <-. exact Hch. }
  fold (udens tr). rewrite Uf. unfold caused_density. rewrite path_expected by auto. rewrite Rmult_assoc.
  replace (outs m (combine S_ C_)) with (outs m es).
  2:{ unfold outs. apply lsum_perm, Permutation_map. rewrite <- Mf, Ef. now apply Permutation_map. }
  f_equal. rewrite (lprod_perm (Permutation_map (born_weight m T) Pff)), (@lprod_Rprod _ _ _ x0).
  change (@length born fam') with (@length (option ev * ev) fam'). rewrite Lf.
  cbn [path ev_N].
  assert (PM : forall n f g, Rprod n f * Rprod n g = Rprod n (fun i => f i * g i)).
  { clear. induction n as [|n IH]; intros f g; cbn [Rprod]; [ring|]. rewrite <- IH. ring. }
  rewrite PM. apply Rprod_ext. intros n Hn. destruct (Hz n Hn) as [_ X].
  unfold born_weight, born_rate, born_stretch, event_rate, stretch, delay_of. cbn [path ev_z ev_k ev_t ev_T]. unfold born in *. rewrite Esnd. cbn [fst snd].
  destruct (fst (nth n fam' x0)) as [p|].
  - destruct X as (q & -> & -> & _). cbn [fst snd]. reflexivity.
  - rewrite X. reflexivity.
Qed.
Print Assumptions C121_complete_paths_partial.

(* ---------------- the density the likelihood sums over ---------------- *)
(** The density scored by the library (C99) is this one when every delay lies in its response window: each child contributes
    the ratio kappa_c of sqrt(2 pi) to the library's literal for it. *)
Theorem C121_scored_density :
  forall m S_ C_ T z,
    (forall n p, (n < length S_)%nat -> z n = S p -> eps <= nth n S_ 0 - nth p S_ 0 <= cm_dtmax m - eps) ->
    caused_density (cm_K m) (cm_lam m) (conn m) (cut_delay m) (path S_ C_ T z)
    = Rprod (length S_) (fun n => match z n with O => 1 | S _ => kappa_c end)
      * caused_density (cm_K m) (cm_lam m) (conn m) (delay_of m) (path S_ C_ T z).
Proof.
  intros m S_ C_ T z Hz. unfold caused_density.
  change (expected_events (cm_K m) (cm_lam m) (conn m) (path S_ C_ T z)) with (expected_events (cm_K m) (cm_lam m) (conn m) (path S_ C_ T z)).
  set (e := exp _). cbn [path ev_N].
  assert (PM : forall n f g, Rprod n (fun i => f i * g i) = Rprod n f * Rprod n g).
  { clear. induction n as [|n IH]; intros f g; cbn [Rprod]; [ring|]. rewrite IH. ring. }
  rewrite (@Rprod_ext _ (event_rate (cm_lam m) (conn m) (cut_delay m) (path S_ C_ T z))
    (fun n => match z n with O => 1 | S _ => kappa_c end * event_rate (cm_lam m) (conn m) (delay_of m) (path S_ C_ T z) n)).
  - rewrite PM. ring.
  - intros n Hn. unfold event_rate. cbn [path ev_z ev_k ev_t]. destruct (z n) as [|p] eqn:Ez; [ring|].
    destruct (Hz n p Hn Ez) as [H1 H2]. unfold cut_delay, delay_of.
    replace (Rleb eps _ && Rleb _ _)%bool with true; [ring|]. symmetry. apply andb_true_intro. split; now apply Rleb_true.
Qed.
Print Assumptions C121_scored_density.

(* ---------------- children after the end ---------------- *)
Lemma sigmoid_mono x y : x <= y -> sigmoid x <= sigmoid y.
Proof.
  intros H. unfold sigmoid. assert (exp (- y) <= exp (- x)).
  { destruct (Req_dec x y) as [->|]; [lra|]. apply Rlt_le, exp_increasing. lra. }
  pose proof (exp_pos (- y)). unfold Rdiv. rewrite !Rmult_1_l. apply Rinv_le_contravar; lra.
Qed.
Lemma sigmoid_line D s : 0 < s < D -> D * sigmoid (to_line D s) = s.
Proof.
  intros H. unfold sigmoid, to_line. rewrite <- ln_Rinv by (apply Rdiv_lt_0_compat; lra). rewrite exp_ln by (apply Rinv_0_lt_compat, Rdiv_lt_0_compat; lra).
  field. repeat split; lra.
Qed.
Lemma sigmoid_strict x y : x < y -> sigmoid x < sigmoid y.
Proof.
  intros H. destruct (sigmoid_mono (Rlt_le _ _ H)) as [|E]; [assumption|exfalso]. unfold sigmoid in E.
  pose proof (exp_pos (- x)). pose proof (exp_pos (- y)). assert (exp (- y) < exp (- x)) by (apply exp_increasing; lra).
  apply (f_equal Rinv) in E. unfold Rdiv in E. rewrite !Rmult_1_l, !Rinv_inv in E. lra.
Qed.
(** None of the n children drawn for an event is recorded exactly when every draw lies beyond a fixed point: whatever their number,
    such draws leave no trace in the data. *)
Theorem C121_late_children :
  forall m T t c b n x, 0 < T - t < cm_dtmax m -> 0 < cm_tau m c b ->
  (kid_times m T t c b n x = [] <->
   forall i, (i < n)%nat -> sqrt (cm_tau m c b) * (to_line (cm_dtmax m) (T - t) - cm_mu m c b) <= x i).
Proof.
  intros m T t c b n x HT Ht. pose proof (sqrt_lt_R0 _ Ht) as Hs. set (D := cm_dtmax m) in *.
  assert (G : forall i, t + D * sigmoid (cm_mu m c b + x i / sqrt (cm_tau m c b)) < T <-> x i < sqrt (cm_tau m c b) * (to_line D (T - t) - cm_mu m c b)).
  { intros i. set (y := cm_mu m c b + x i / sqrt (cm_tau m c b)). pose proof (sigmoid_line HT) as E.
    assert (Ex : x i = sqrt (cm_tau m c b) * (y - cm_mu m c b)) by (unfold y; field; lra). rewrite Ex. split; intros H.
    - apply Rmult_lt_compat_l; [exact Hs|]. destruct (Rlt_le_dec y (to_line D (T - t))) as [|Hle]; [lra|exfalso].
      apply sigmoid_mono in Hle. assert (D * sigmoid (to_line D (T - t)) <= D * sigmoid y) by (apply Rmult_le_compat_l; lra). lra.
    - apply Rmult_lt_reg_l in H; [|exact Hs]. assert (Hlt : y < to_line D (T - t)) by lra. apply sigmoid_strict in Hlt.
      assert (D * sigmoid y < D * sigmoid (to_line D (T - t))) by (apply Rmult_lt_compat_l; lra). lra. }
  unfold kid_times. fold D. split.
  - intros H i Hi. apply Rnot_lt_le. intros Hlt. apply G in Hlt.
    assert (X : In (t + D * sigmoid (cm_mu m c b + x i / sqrt (cm_tau m c b))) []); [|exact X].
    rewrite <- H. apply filter_In. split; [|now apply Rltb_true]. apply in_map_iff. exists i. split; [reflexivity|]. apply in_seq. lia.
  - intros H. destruct (filter _ _) as [|s l] eqn:E; [reflexivity|exfalso].
    assert (X : In s (s :: l)) by now left. rewrite <- E in X. apply filter_In in X as [X1 X2]. apply in_map_iff in X1 as (i & <- & Hi).
    apply in_seq in Hi. apply Rltb_true in X2. apply G in X2. specialize (H i ltac:(lia)). lra.
Qed.
Print Assumptions C121_late_children.

(** One event at 0, end at 1, responses up to 2: any number n of children, all drawn beyond the end, gives the same data, while the
    density of the data under the model is already that of the run without children. *)
Definition late_rng (n : nat) (x : vec) : rng :=
  {| r_pois := fun tr _ => match length tr with 0%nat => 1%nat | _ => n end; r_norm := fun _ _ => x; r_unif := fun _ _ _ => 0 |}.
Definition late_draws (n : nat) (x : vec) : list call := [CPois (1 * 1) 1; CUnif 1 (fun _ => 0); CPois 1 n; CNorm n x].
Lemma argsort_one argsort (s : R) : sorts argsort -> argsort [s] = [0%nat].
Proof. intros H. destruct (H [s]) as [P _]. cbn [length seq] in P. apply Permutation_sym, Permutation_length_1_inv in P. exact P. Qed.
Lemma normal_pdf_pos mu tau x : 0 < tau -> 0 < normal_pdf mu tau x.
Proof. intros H. unfold normal_pdf. pose proof PI_RGT_0. apply Rmult_lt_0_compat; [|apply exp_pos]. apply sqrt_lt_R0, Rdiv_lt_0_compat; lra. Qed.
Lemma pmf_pos mean n : 0 < mean -> 0 < pmf mean n.
Proof. intros H. unfold pmf. apply Rdiv_lt_0_compat; [|apply INR_fact_lt_0]. apply Rmult_lt_0_compat; [apply exp_pos|now apply pow_lt]. Qed.

Theorem C121_late_children_refuted :
  params_ok (ex_ct 1) /\
  (forall argsort n x, sorts argsort -> (forall i, (i < n)%nat -> 0 <= x i) ->
   (forall tr k i, (i < k)%nat -> unit_interval (r_unif (late_rng n x) tr k i)) /\
   ct_generate (late_rng n x) argsort (ex_ct 1) false 1 true 1 [] = (Ok ([0], [0%nat], late_draws n x), ex_ct 1) /\
   drawn (late_draws n x) = S n /\ 0 < draws_density (late_draws n x)) /\
  (forall x, draws_density (late_draws 0 x)
   = over_causes 1 (fun z => caused_density 1 (cm_lam (ex_ct 1)) (conn (ex_ct 1)) (delay_of (ex_ct 1)) (path [0] [0%nat] 1 z))).
Proof.
  split; [apply ex_ct_ok; lra|]. split.
  - intros argsort n x Hs Hx. split; [intros; cbn; unfold unit_interval; lra|]. split; [|split].
    + assert (E0 : Rleb 0 (1 * 1) = true) by (apply Rleb_true; lra). assert (E1 : Rleb 0 1 = true) by (apply Rleb_true; lra).
      assert (E2 : Reqb 1 0 = false) by (apply Reqb_false; lra).
      assert (Ek : child_times (ex_ct 1) 1 (0 * 1) 0 0 n x = []).
      { rewrite child_kid by (cbn; lra). apply C121_late_children; [cbn; lra|cbn; lra|]. intros i Hi. cbn [ex_ct cm_tau cm_mu cm_dtmax].
        specialize (Hx i Hi). unfold to_line. replace ((1 - 0 * 1) / (2 - (1 - 0 * 1))) with 1 by field. rewrite ln_1, sqrt_1. lra. }
      assert (Eg : gen_all (late_rng n x) (ex_ct 1) 1 1 ([], []) = Ok ([(0 * 1, 0%nat)], late_draws n x)).
      { unfold gen_all. cbn [ex_ct cm_K seq iter_r cm_lam]. unfold ask_pois at 1. rewrite E0.
        cbn [guard bindr late_rng r_pois length app ask_unif r_unif seq map iter_r gen_helper ex_ct cm_K cm_W cm_A negb]. rewrite E2. cbn [orb].
        unfold ask_pois, guard. rewrite E1. cbn [bindr r_pois length ask_norm r_norm app].
        cbn [late_rng r_norm r_pois r_unif length app].
        unfold child_times in Ek. cbn [ex_ct cm_dtmax cm_mu cm_tau] in Ek. unfold child_times. cbn [ex_ct cm_dtmax cm_mu cm_tau]. rewrite Ek. reflexivity. }
      unfold ct_generate. rewrite Eg. cbn [ex_ct cm_K Nat.eqb map fst snd]. rewrite argsort_one by exact Hs. cbn [map nth]. rewrite Rmult_0_l. reflexivity.
    + cbn. lia.
    + unfold draws_density, late_draws. cbn [map lprod call_density].
      apply Rmult_lt_0_compat; [apply pmf_pos; lra|]. apply Rmult_lt_0_compat; [lra|]. apply Rmult_lt_0_compat; [apply pmf_pos; lra|].
      apply Rmult_lt_0_compat; [|lra]. apply Rprod_pos. intros. apply normal_pdf_pos. lra.
  - intros x. unfold draws_density, late_draws. cbn [map lprod call_density Rprod over_causes Rsum].
    unfold caused_density, expected_events, event_rate, pmf, count, conn. cbn [path ev_N ev_T ev_k ev_t ev_z length Rsum Rprod upd Nat.eqb nth ex_ct cm_A cm_W cm_lam pow fact INR].
    replace (- (0 + (1 * 1 + (0 + 1 * (0 + 1))))) with (- (1 * 1) + - (1)) by ring. rewrite exp_plus. replace (INR (1 * 1)) with 1 by reflexivity. field.
Qed.
Print Assumptions C121_late_children_refuted.

(** Non-vacuity of [C121_complete_paths_partial]: a background event with one recorded child; both draws are in the output. *)
Example C121_nonvacuous : forall argsort, sorts argsort ->
  params_ok (ex_ct 1) /\ (forall tr n i, (i < n)%nat -> unit_interval (r_unif ex_rng tr n i)) /\
  exists S_ C_ tr m', ct_generate ex_rng argsort (ex_ct 1) false 3 true 3 [] = (Ok (S_, C_, [] ++ tr), m') /\ drawn tr = length S_ /\ length S_ = 2%nat.
Proof.
  intros argsort Hs. split; [apply ex_ct_ok; lra|]. split; [intros; cbn; unfold unit_interval; lra|].
  assert (Eg : exists e1 e2 tr, gen_all ex_rng (ex_ct 1) 3 3 ([], []) = Ok ([e1; e2], tr) /\ drawn tr = 2%nat).
  { assert (E0 : Rleb 0 (1 * 3) = true) by (apply Rleb_true; lra).
    assert (E1 : Rleb 0 1 = true) by (apply Rleb_true; lra).
    assert (E2 : Reqb 1 0 = false) by (apply Reqb_false; lra).
    assert (E3 : Rltb (0 * 3 + 2 * logistic 1 (0 + sqrt (1 / 1) * 0)) 3 = true).
    { apply Rltb_true. unfold logistic. rewrite Rmult_0_r, Rplus_0_r, Ropp_0, exp_0. lra. }
    do 3 eexists. unfold gen_all, ask_pois, ask_unif, ask_norm, guard, child_times.
    repeat (cbn -[Rleb Reqb Rltb Rmult Rplus Rdiv drawn]; unfold ask_pois, guard, child_times; try rewrite E0; try rewrite E1; try rewrite E2; try rewrite E3).
    split; reflexivity. }
  destruct Eg as (e1 & e2 & tr & Eg & Hd). unfold ct_generate. rewrite Eg. cbn [ex_ct cm_K Nat.eqb].
  do 4 eexists. split; [reflexivity|]. rewrite map_length. destruct (Hs (map fst [e1; e2])) as [P _]. apply Permutation_length in P.
  rewrite seq_length, map_length in P. cbn [length] in P. split; [rewrite Hd; symmetry; exact P|exact P].
Qed.
