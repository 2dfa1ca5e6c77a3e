(** * Props_CtGenerate: C64, simulation from the continuous-time model. *)
From Coq Require Import Permutation FunctionalExtensionality.
From Verif Require Import Prelude ExtReal Arrays Spec_Gibbs Spec_Continuous M_Basis M_Parents M_Discrete M_Gibbs M_Dist M_Network M_Sweep
  L_Gibbs L_Sweep Props_Gibbs Props_Network Props_Sweep M_Continuous L_Continuous Props_Continuous Props_Continuous2 Props_Continuous3
  M_CtGenerate.
Set Implicit Arguments.
Open Scope R_scope.

(* ---------------- specification ---------------- *)
Definition sigmoid (y : R) : R := 1 / (1 + exp (- y)).
(** Event b may be a child of event a: it follows within the response window, along an edge of positive weight. *)
Definition child_of (m : ctmodel) (b a : ev) : Prop := 0 < fst b - fst a < cm_dtmax m /\ 0 < conn m (snd a) (snd b).
(** Times of the children, in process b, of an event of process c at time t, from n standard normal draws x: delays
    dt_max * sigmoid(Normal(mu, 1/tau)), those before T. *)
Definition kid_times (m : ctmodel) (T t : R) (c b n : nat) (x : vec) : list R :=
  filter (fun s => Rltb s T) (map (fun i => t + cm_dtmax m * sigmoid (cm_mu m c b + x i / sqrt (cm_tau m c b))) (seq 0 n)).

(** The cluster representation of the process.  [cluster f t c tr es]: es are the descendants of an event at t in process c, of fewer
    than f generations, explained by the draws tr: for every process b connected from c, one Poisson(weight) number of
    children, their normals, and the clusters of the children kept. *)
Inductive cluster (m : ctmodel) (T : R) : nat -> R -> nat -> list call -> list ev -> Prop :=
| Cl f t c tr es : kids m T f t c (seq 0 (cm_K m)) tr es -> cluster m T (S f) t c tr es
with kids (m : ctmodel) (T : R) : nat -> R -> nat -> list nat -> list call -> list ev -> Prop :=
| K_nil f t c : kids m T f t c [] [] []
| K_none f t c b bs tr es : conn m c b = 0 -> kids m T f t c bs tr es -> kids m T f t c (b :: bs) tr es
| K_some f t c b bs n x tr1 tr2 es1 es2 : conn m c b <> 0 ->
    clusters m T f (kid_times m T t c b n x) b tr1 es1 -> kids m T f t c bs tr2 es2 ->
    kids m T f t c (b :: bs) (CPois (conn m c b) n :: CNorm n x :: tr1 ++ tr2) (map (fun s => (s, b)) (kid_times m T t c b n x) ++ es1 ++ es2)
with clusters (m : ctmodel) (T : R) : nat -> list R -> nat -> list call -> list ev -> Prop :=
| C_nil f b : clusters m T f [] b [] []
| C_cons f t ts b tr1 tr2 es1 es2 : cluster m T f t b tr1 es1 -> clusters m T f ts b tr2 es2 ->
    clusters m T f (t :: ts) b (tr1 ++ tr2) (es1 ++ es2).
(** Immigrants: for each process a Poisson(lambda0 T) number of uniform times on (0, T), each with its cluster. *)
Inductive immigrants (m : ctmodel) (T : R) (f : nat) : list nat -> list call -> list ev -> Prop :=
| I_nil : immigrants m T f [] [] []
| I_cons k ks n u tr1 tr2 es1 es2 :
    clusters m T f (map (fun i => u i * T) (seq 0 n)) k tr1 es1 -> immigrants m T f ks tr2 es2 ->
    immigrants m T f (k :: ks) (CPois (cm_lam m k * T) n :: CUnif n u :: tr1 ++ tr2) (map (fun i => (u i * T, k)) (seq 0 n) ++ es1 ++ es2).
Scheme cluster_mind := Minimality for cluster Sort Prop
with kids_mind := Minimality for kids Sort Prop
with clusters_mind := Minimality for clusters Sort Prop.
Combined Scheme cluster_all from cluster_mind, kids_mind, clusters_mind.

(** The answers recorded are those of the generator. *)
Definition answered (r : rng) (tr0 tr : list call) : Prop :=
  forall pre c post, tr = pre ++ c :: post ->
    match c with
    | CPois mean n => n = r_pois r (tr0 ++ pre) mean
    | CNorm n x => x = r_norm r (tr0 ++ pre) n
    | CUnif n u => u = r_unif r (tr0 ++ pre) n
    end.
(** The background events: the draws of rand, one call per process. *)
Fixpoint background (T : R) (k : nat) (tr : list call) : list ev :=
  match tr with
  | [] => []
  | CUnif n u :: tr' => map (fun i => (u i * T, k)) (seq 0 n) ++ background T (S k) tr'
  | _ :: tr' => background T k tr'
  end.
(** A line of descent below event e. *)
Fixpoint descent (m : ctmodel) (e : ev) (l : list ev) : Prop :=
  match l with [] => True | e' :: l' => child_of m e' e /\ descent m e' l' end.

(* ---------------- lemmas ---------------- *)
Lemma iter_r_app {A S} (body : A -> S -> result S) l1 l2 st : iter_r body (l1 ++ l2) st = do st' <- iter_r body l1 st ;; iter_r body l2 st'.
Proof. revert st. induction l1 as [|a l1 IH]; intros st; [reflexivity|]. cbn [iter_r app]. destruct (body a st); cbn [bindr]; [apply IH|reflexivity]. Qed.
Lemma logistic_sigmoid y : logistic 1 y = sigmoid y.
Proof. unfold logistic, sigmoid. f_equal. lra. Qed.
Lemma sqrt_inv_mul tau x : 0 < tau -> sqrt (1 / tau) * x = x / sqrt tau.
Proof.
  intros H. rewrite sqrt_div_alt by lra. rewrite sqrt_1. field. apply Rgt_not_eq, sqrt_lt_R0. exact H.
Qed.
Lemma child_kid m T t c b n x : 0 < cm_tau m c b -> child_times m T t c b n x = kid_times m T t c b n x.
Proof.
  intros H. unfold child_times, kid_times. f_equal. apply map_ext. intros i. rewrite logistic_sigmoid, sqrt_inv_mul by exact H. reflexivity.
Qed.
Lemma conn_test m a b : (Reqb (cm_W m a b) 0 || negb (cm_A m a b))%bool = true <-> conn m a b = 0.
Proof.
  unfold conn. destruct (cm_A m a b); cbn [negb]; rewrite ?orb_false_r, ?orb_true_r; [apply Reqb_true|tauto].
Qed.
Lemma answered_nil r tr0 : answered r tr0 [].
Proof. intros pre c post H. destruct pre; discriminate. Qed.
Lemma answered_app r tr0 tr1 tr2 : answered r tr0 tr1 -> answered r (tr0 ++ tr1) tr2 -> answered r tr0 (tr1 ++ tr2).
Proof.
  intros H1 H2 pre c post E. destruct (Nat.lt_ge_cases (length pre) (length tr1)) as [L|L].
  - assert (X : exists post1, tr1 = pre ++ c :: post1).
    { clear - E L. revert tr1 E L. induction pre as [|a pre IH]; intros [|b tr1] E L; cbn in *; try lia.
      - injection E as -> _. eauto.
      - injection E as -> E. destruct (IH tr1 E) as (p & ->); [lia|]. eauto. }
    destruct X as (p & ->). exact (H1 pre c p eq_refl).
  - assert (X : exists pre2, pre = tr1 ++ pre2 /\ tr2 = pre2 ++ c :: post).
    { clear - E L. revert pre E L. induction tr1 as [|a tr1 IH]; intros pre E L; cbn in *; [eauto|].
      destruct pre as [|b pre]; cbn in *; [lia|]. injection E as -> E. destruct (IH pre E) as (p & -> & E2); [lia|]. eauto. }
    destruct X as (p & -> & E2). specialize (H2 p c post E2). now rewrite <- app_assoc in H2.
Qed.
Lemma answered_one r tr0 c : (match c with
    | CPois mean n => n = r_pois r tr0 mean | CNorm n x => x = r_norm r tr0 n | CUnif n u => u = r_unif r tr0 n end) -> answered r tr0 [c].
Proof.
  intros H pre c' post E. destruct pre as [|a pre]; cbn in E; [injection E as -> _; now rewrite app_nil_r|]. injection E as _ E. destruct pre; discriminate.
Qed.

(** A generic loop: if each step appends events and draws satisfying P, the loop's are the concatenation. *)
Lemma ask_pois_ok r mean tr p : ask_pois r mean tr = Ok p -> p = (r_pois r tr mean, tr ++ [CPois mean (r_pois r tr mean)]).
Proof. unfold ask_pois, guard. destruct (Rleb 0 mean); cbn [bindr]; intros H; [now injection H as <-|discriminate]. Qed.

Section Gen.
Variables (r : rng) (m : ctmodel) (T : R).
Hypothesis Htau : forall a b, (a < cm_K m)%nat -> (b < cm_K m)%nat -> 0 < cm_tau m a b.

Lemma clusters_gen f c : (c < cm_K m)%nat ->
  (forall s tr0 evs evs' tr', gen_helper r m T f s c (evs, tr0) = Ok (evs', tr') ->
     exists tr es, tr' = tr0 ++ tr /\ answered r tr0 tr /\ evs' = evs ++ es /\ cluster m T f s c tr es) ->
  forall ss tr0 evs evs' tr', iter_r (fun s st => gen_helper r m T f s c st) ss (evs, tr0) = Ok (evs', tr') ->
     exists tr es, tr' = tr0 ++ tr /\ answered r tr0 tr /\ evs' = evs ++ es /\ clusters m T f ss c tr es.
Proof.
  intros Hc IHf. induction ss as [|s ss IH]; intros tr0 evs evs' tr' E; cbn [iter_r] in E.
  - injection E as <- <-. exists [], []. rewrite !app_nil_r. split; [auto|]. split; [apply answered_nil|]. split; [auto|constructor].
  - apply bindr_ok in E as ([e1 t1] & E1 & E2). apply IHf in E1 as (tr1 & es1 & -> & A1 & -> & C1).
    apply IH in E2 as (tr2 & es2 & -> & A2 & -> & C2). exists (tr1 ++ tr2), (es1 ++ es2). rewrite !app_assoc.
    split; [auto|]. split; [now apply answered_app|]. split; [auto|]. now constructor.
Qed.

Lemma helper_gen f : forall s c tr0 evs evs' tr', (c < cm_K m)%nat -> gen_helper r m T f s c (evs, tr0) = Ok (evs', tr') ->
  exists tr es, tr' = tr0 ++ tr /\ answered r tr0 tr /\ evs' = evs ++ es /\ cluster m T f s c tr es.
Proof.
  induction f as [|f IHf]; intros s c tr0 evs evs' tr' Hc E; [discriminate|]. cbn [gen_helper] in E.
  assert (G : forall bs tr0 evs evs' tr', (forall b, In b bs -> (b < cm_K m)%nat) ->
    iter_r (fun c0 st => if (Reqb (cm_W m c c0) 0 || negb (cm_A m c c0))%bool then Ok st
      else let '(evs, tr) := st in do p <- ask_pois r (cm_W m c c0) tr ;; let '(n, tr) := p in let '(x, tr) := ask_norm r n tr in
        let s_ch := child_times m T s c c0 n x in
        iter_r (fun s st => gen_helper r m T f s c0 st) s_ch (evs ++ map (fun s => (s, c0)) s_ch, tr)) bs (evs, tr0) = Ok (evs', tr') ->
    exists tr es, tr' = tr0 ++ tr /\ answered r tr0 tr /\ evs' = evs ++ es /\ kids m T f s c bs tr es).
  { clear tr0 evs evs' tr' E. induction bs as [|b bs IH]; intros tr0 evs evs' tr' Hb E; cbn [iter_r] in E.
    - injection E as <- <-. exists [], []. rewrite !app_nil_r. split; [auto|]. split; [apply answered_nil|]. split; [auto|constructor].
    - apply bindr_ok in E as ([e1 t1] & E1 & E2). apply IH in E2 as (tr2 & es2 & -> & A2 & -> & K2); [|intros; apply Hb; now right].
      destruct (Reqb (cm_W m c b) 0 || negb (cm_A m c b))%bool eqn:Et.
      + injection E1 as <- <-. exists tr2, es2. split; [auto|]. split; [auto|]. split; [auto|]. apply K_none; [now apply conn_test|exact K2].
      + assert (Hcn : conn m c b <> 0) by (rewrite <- conn_test; congruence).
        assert (Ew : cm_W m c b = conn m c b).
        { unfold conn. destruct (cm_A m c b); [reflexivity|]. cbn in Et. rewrite orb_true_r in Et. discriminate. }
        apply bindr_ok in E1 as (p & Ep & E1). apply ask_pois_ok in Ep. subst p. unfold ask_norm in E1. cbv beta iota zeta in E1.
        rewrite child_kid in E1 by (apply Htau; [exact Hc|apply Hb; now left]).
        set (n := r_pois r tr0 (cm_W m c b)) in *. set (x := r_norm r (tr0 ++ [CPois (cm_W m c b) n]) n) in *.
        apply clusters_gen in E1 as (tr1 & es1 & -> & A1 & -> & C1); [|apply Hb; now left|intros; eapply IHf; [apply Hb; now left|eassumption]].
        exists (CPois (conn m c b) n :: CNorm n x :: tr1 ++ tr2), (map (fun s => (s, b)) (kid_times m T s c b n x) ++ es1 ++ es2).
        rewrite <- Ew. rewrite <- !app_assoc. cbn [app]. split; [reflexivity|]. split; [|split; [reflexivity|rewrite Ew; now constructor]].
        change (CPois (cm_W m c b) n :: CNorm n x :: tr1 ++ tr2) with ([CPois (cm_W m c b) n] ++ [CNorm n x] ++ tr1 ++ tr2).
        apply answered_app; [apply answered_one; reflexivity|]. apply answered_app; [apply answered_one; reflexivity|].
        apply answered_app; [exact A1|exact A2]. }
  apply G in E as (tr & es & E1 & A & E2 & Kk).
  - exists tr, es. split; [auto|]. split; [auto|]. split; [auto|]. now constructor.
  - intros b Hb. apply in_seq in Hb. lia.
Qed.

Lemma all_gen f : forall ks tr0 evs evs' tr', (forall k, In k ks -> (k < cm_K m)%nat) ->
  iter_r (fun k st => let '(evs, tr) := st in do p <- ask_pois r (cm_lam m k * T) tr ;; let '(n, tr) := p in let '(u, tr) := ask_unif r n tr in
    let s := map (fun i => u i * T) (seq 0 n) in
    iter_r (fun s st => gen_helper r m T f s k st) s (evs ++ map (fun s => (s, k)) s, tr)) ks (evs, tr0) = Ok (evs', tr') ->
  exists tr es, tr' = tr0 ++ tr /\ answered r tr0 tr /\ evs' = evs ++ es /\ immigrants m T f ks tr es.
Proof.
  induction ks as [|k ks IH]; intros tr0 evs evs' tr' Hk E; cbn [iter_r] in E.
  - injection E as <- <-. exists [], []. rewrite !app_nil_r. split; [auto|]. split; [apply answered_nil|]. split; [auto|constructor].
  - apply bindr_ok in E as ([e1 t1] & E1 & E2). apply IH in E2 as (tr2 & es2 & -> & A2 & -> & I2); [|intros; apply Hk; now right].
    apply bindr_ok in E1 as (p & Ep & E1). apply ask_pois_ok in Ep. subst p. unfold ask_unif in E1. cbv beta iota zeta in E1.
    set (n := r_pois r tr0 (cm_lam m k * T)) in *. set (u := r_unif r (tr0 ++ [CPois (cm_lam m k * T) n]) n) in *.
    apply clusters_gen in E1 as (tr1 & es1 & -> & A1 & -> & C1); [|apply Hk; now left|intros; eapply helper_gen; [apply Hk; now left|eassumption]].
    exists (CPois (cm_lam m k * T) n :: CUnif n u :: tr1 ++ tr2), (map (fun i => (u i * T, k)) (seq 0 n) ++ es1 ++ es2).
    rewrite <- !app_assoc, map_map. cbn [app]. split; [reflexivity|]. split; [|split; [reflexivity|now constructor]].
    change (CPois (cm_lam m k * T) n :: CUnif n u :: tr1 ++ tr2) with ([CPois (cm_lam m k * T) n] ++ [CUnif n u] ++ tr1 ++ tr2).
    apply answered_app; [apply answered_one; reflexivity|]. apply answered_app; [apply answered_one; reflexivity|].
    apply answered_app; [exact A1|exact A2].
Qed.
End Gen.

Lemma sigmoid_range y : 0 < sigmoid y < 1.
Proof.
  unfold sigmoid. pose proof (exp_pos (- y)). split; [apply Rdiv_lt_0_compat; lra|]. apply Rmult_lt_reg_r with (1 + exp (- y)); [lra|].
  unfold Rdiv. rewrite Rmult_assoc, Rinv_l by lra. lra.
Qed.
Lemma kid_window m T t c b n x s : 0 < cm_dtmax m -> In s (kid_times m T t c b n x) -> s < T /\ 0 < s - t < cm_dtmax m.
Proof.
  intros HD H. unfold kid_times in H. apply filter_In in H as [H1 H2]. apply Rltb_true in H2. split; [exact H2|].
  apply in_map_iff in H1 as (i & <- & _). pose proof (sigmoid_range (cm_mu m c b + x i / sqrt (cm_tau m c b))). split; nra.
Qed.

Arguments kid_window {m T t c b n x s} _ _.
Section Facts.
Variables (m : ctmodel) (T : R).
Hypothesis HD : 0 < cm_dtmax m.
Hypothesis HW : forall a b, (a < cm_K m)%nat -> (b < cm_K m)%nat -> 0 <= cm_W m a b.

Definition facts (roots : list ev) (tr : list call) (es : list ev) : Prop :=
  (forall e, In e es -> fst e < T /\ (snd e < cm_K m)%nat /\ exists p, In p (roots ++ es) /\ child_of m e p) /\
  (forall k tr', background T k (tr ++ tr') = background T k tr').

Lemma cluster_facts :
  (forall f t c tr es, cluster m T f t c tr es -> (c < cm_K m)%nat -> facts [(t, c)] tr es) /\
  (forall f t c bs tr es, kids m T f t c bs tr es -> (c < cm_K m)%nat -> (forall b, In b bs -> (b < cm_K m)%nat) -> facts [(t, c)] tr es) /\
  (forall f ts b tr es, clusters m T f ts b tr es -> (b < cm_K m)%nat -> facts (map (fun s => (s, b)) ts) tr es).
Proof.
  apply (@cluster_all m T
    (fun f t c tr es => (c < cm_K m)%nat -> facts [(t, c)] tr es)
    (fun f t c bs tr es => (c < cm_K m)%nat -> (forall b, In b bs -> (b < cm_K m)%nat) -> facts [(t, c)] tr es)
    (fun f ts b tr es => (b < cm_K m)%nat -> facts (map (fun s => (s, b)) ts) tr es)).
  - intros f t c tr es _ IH Hc. apply IH; [exact Hc|]. intros b Hb. apply in_seq in Hb. lia.
  - intros f t c _ _. split; [intros e []|reflexivity].
  - intros f t c b bs tr es _ _ IH Hc Hb. apply IH; [exact Hc|]. intros; apply Hb; now right.
  - intros f t c b bs n x tr1 tr2 es1 es2 Hcn _ IH1 _ IH2 Hc Hb.
    assert (Hbk : (b < cm_K m)%nat) by (apply Hb; now left).
    destruct (IH1 Hbk) as [F1 B1]. destruct (IH2 Hc) as [F2 B2]; [intros; apply Hb; now right|].
    assert (Hpos : 0 < conn m c b).
    { assert (0 <= conn m c b); [|lra]. unfold conn. destruct (cm_A m c b); [apply HW; auto|lra]. }
    split.
    + intros e Hin. apply in_app_or in Hin as [Hin|Hin]; [|apply in_app_or in Hin as [Hin|Hin]].
      * apply in_map_iff in Hin as (s & <- & Hs). destruct (kid_window HD Hs) as [X Y]. split; [exact X|]. split; [exact Hbk|].
        exists (t, c). split; [now left|]. split; [exact Y|exact Hpos].
      * destruct (F1 e Hin) as (X & Y & p & Hp & Hch). split; [exact X|]. split; [exact Y|]. exists p. split; [|exact Hch].
        cbn [app]. right. apply in_app_or in Hp as [Hp|Hp]; apply in_or_app; [now left|]. right. apply in_or_app. now left.
      * destruct (F2 e Hin) as (X & Y & p & Hp & Hch). split; [exact X|]. split; [exact Y|]. exists p. split; [|exact Hch].
        cbn [app] in Hp |- *. destruct Hp as [Hp|Hp]; [now left|]. right. apply in_or_app. right. apply in_or_app. now right.
    + intros k tr'. cbn [background app]. rewrite <- app_assoc, B1. apply B2.
  - intros f b _. split; [intros e []|reflexivity].
  - intros f t ts b tr1 tr2 es1 es2 _ IH1 _ IH2 Hb. destruct (IH1 Hb) as [F1 B1]. destruct (IH2 Hb) as [F2 B2]. split.
    + intros e Hin. apply in_app_or in Hin as [Hin|Hin].
      * destruct (F1 e Hin) as (X & Y & p & Hp & Hch). split; [exact X|]. split; [exact Y|]. exists p. split; [|exact Hch].
        cbn [map app] in *. destruct Hp as [Hp|Hp]; [now left|]. right. apply in_or_app. right. apply in_or_app. now left.
      * destruct (F2 e Hin) as (X & Y & p & Hp & Hch). split; [exact X|]. split; [exact Y|]. exists p. split; [|exact Hch].
        cbn [map app]. right. apply in_app_or in Hp as [Hp|Hp]; apply in_or_app; [now left|]. right. apply in_or_app. now right.
    + intros k tr'. rewrite <- app_assoc, B1. apply B2.
Qed.

Lemma immigrants_facts f : 0 < T -> forall len k0 tr es, immigrants m T f (seq k0 len) tr es -> (k0 + len <= cm_K m)%nat ->
  (forall n u i, In (CUnif n u) tr -> (i < n)%nat -> unit_interval (u i)) ->
  exists off, Permutation es (background T k0 tr ++ off) /\
    (forall e, In e es -> 0 <= fst e < T /\ (snd e < cm_K m)%nat) /\
    (forall e, In e off -> exists p, In p es /\ child_of m e p).
Proof.
  intros HT. induction len as [|len IH]; intros k0 tr es H Hk Hu.
  - inversion H; subst. exists []. split; [constructor|]. split; intros e [].
  - cbn [seq] in H. inversion H as [|k ks n u tr1 tr2 es1 es2 HC HI]; subst.
    destruct (IH _ _ _ HI) as (off & Hp & Hr & Hpar); [lia| |].
    { intros n' u' i Hin. apply Hu. right. right. apply in_or_app. now right. }
    destruct cluster_facts as (_ & _ & CF). destruct (CF _ _ _ _ _ HC) as [F B]; [lia|].
    assert (Hbk : forall e, In e (map (fun i => (u i * T, k0)) (seq 0 n)) -> 0 <= fst e < T /\ (snd e < cm_K m)%nat).
    { intros e Hin. apply in_map_iff in Hin as (i & <- & Hi). apply in_seq in Hi. destruct (Hu n u i) as [U1 U2]; [right; now left|lia|].
      cbn. split; [|lia]. split; nra. }
    set (bk := map (fun i => (u i * T, k0)) (seq 0 n)) in *.
    assert (Ebk : map (fun s => (s, k0)) (map (fun i => u i * T) (seq 0 n)) = bk) by apply map_map. rewrite Ebk in F.
    assert (Hkid : forall e p, child_of m e p -> 0 <= fst p -> 0 <= fst e) by (intros e p [X _]; lra).
    assert (H1pos : forall e, In e es1 -> 0 <= fst e).
    { clear - HC CF Hbk Hkid Ebk HD HW. 
      assert (Q : forall e, In e (map (fun s => (s, k0)) (map (fun i => u i * T) (seq 0 n))) -> 0 <= fst e) by (rewrite Ebk; intros e He; now apply Hbk).
      revert Q. generalize dependent HC. clear Hbk Ebk. generalize (map (fun i => u i * T) (seq 0 n)) as ts. intros ts HC.
      assert (G : (forall f t c tr es, cluster m T f t c tr es -> 0 <= t -> forall e, In e es -> 0 <= fst e) /\
                  (forall f t c bs tr es, kids m T f t c bs tr es -> 0 <= t -> forall e, In e es -> 0 <= fst e) /\
                  (forall f ts b tr es, clusters m T f ts b tr es -> (forall t, In t ts -> 0 <= t) -> forall e, In e es -> 0 <= fst e)).
      { apply (@cluster_all m T (fun f t c tr es => 0 <= t -> forall e, In e es -> 0 <= fst e)
          (fun f t c bs tr es => 0 <= t -> forall e, In e es -> 0 <= fst e)
          (fun f ts b tr es => (forall t, In t ts -> 0 <= t) -> forall e, In e es -> 0 <= fst e)).
        - auto.
        - intros ? ? ? _ e [].
        - auto.
        - intros f' t c b bs n' x t1 t2 e1 e2 _ _ IH1 _ IH2 Ht e He. apply in_app_or in He as [He|He]; [|apply in_app_or in He as [He|He]; [|now apply IH2]].
          + apply in_map_iff in He as (s & <- & Hs). destruct (kid_window HD Hs). cbn. lra.
          + apply IH1; [|exact He]. intros s Hs. destruct (kid_window HD Hs). lra.
        - intros ? ? _ e [].
        - intros f' t ts' b t1 t2 e1 e2 _ IH1 _ IH2 Ht e He. apply in_app_or in He as [He|He]; [apply IH1; [apply Ht; now left|exact He]|].
          apply IH2; [|exact He]. intros; apply Ht; now right. }
      intros Q. destruct G as (_ & _ & G). apply (G _ _ _ _ _ HC). intros t Ht. apply (Q (t, k0)). apply in_map_iff. exists t. auto. }
    exists (es1 ++ off). cbn [background]. rewrite B. split; [|split].
    + rewrite <- app_assoc. apply Permutation_app_head. rewrite app_assoc. etransitivity; [apply Permutation_app_head, Hp|].
      rewrite !app_assoc. apply Permutation_app_tail, Permutation_app_comm.
    + intros e He. apply in_app_or in He as [He|He]; [now apply Hbk|]. apply in_app_or in He as [He|He]; [|now apply Hr].
      destruct (F e He) as (X & Y & _). auto.
    + intros e He. apply in_app_or in He as [He|He].
      * destruct (F e He) as (_ & _ & p & Hin & Hch). exists p. split; [|exact Hch]. apply in_app_or in Hin as [Hin|Hin]; apply in_or_app; [now left|].
        right. apply in_or_app. now left.
      * destruct (Hpar e He) as (p & Hin & Hch). exists p. split; [|exact Hch]. apply in_or_app. right. apply in_or_app. now right.
Qed.
End Facts.

(* ---------------- failure ---------------- *)
Lemma iter_r_raise {A S} (body : A -> S -> result S) l st e : iter_r body l st = Raise e -> exists a st', In a l /\ body a st' = Raise e.
Proof.
  revert st. induction l as [|a l IH]; intros st E; [discriminate|]. cbn [iter_r] in E. destruct (body a st) as [st'|e'] eqn:Eb.
  - cbn [bindr] in E. destruct (IH _ E) as (a' & st2 & Hin & H). exists a', st2. split; [now right|exact H].
  - cbn [bindr] in E. injection E as <-. exists a, st. split; [now left|exact Eb].
Qed.
Lemma bindr_raise {A B} (x : result A) (k : A -> result B) e : bindr x k = Raise e -> x = Raise e \/ exists a, x = Ok a /\ k a = Raise e.
Proof. destruct x as [a|e']; cbn [bindr]; intros H; [right; exists a; auto|left; congruence]. Qed.
Lemma ask_pois_raise r mean tr e : 0 <= mean -> ask_pois r mean tr <> Raise e.
Proof.
  intros H. unfold ask_pois, guard. replace (Rleb 0 mean) with true by (symmetry; now apply Rleb_true). cbn [bindr]. discriminate.
Qed.

Section Fail.
Variables (r : rng) (m : ctmodel) (T : R).
Hypothesis HD : 0 < cm_dtmax m.
Hypothesis HW : forall a b, (a < cm_K m)%nat -> (b < cm_K m)%nat -> 0 <= cm_W m a b.
Hypothesis Htau : forall a b, (a < cm_K m)%nat -> (b < cm_K m)%nat -> 0 < cm_tau m a b.

Lemma helper_raise f : forall s c st e, (c < cm_K m)%nat -> gen_helper r m T f s c st = Raise e ->
  e = AssertionError /\ exists l, length l = f /\ descent m (s, c) l /\ (forall x, In x l -> fst x < T /\ (snd x < cm_K m)%nat).
Proof.
  induction f as [|f IH]; intros s c st e Hc E; cbn [gen_helper] in E.
  - injection E as <-. split; [reflexivity|]. exists []. cbn. split; [auto|]. split; [auto|intros x []].
  - apply iter_r_raise in E as (b & [evs tr] & Hin & E). apply in_seq in Hin.
    destruct (Reqb (cm_W m c b) 0 || negb (cm_A m c b))%bool eqn:Et; [discriminate|].
    assert (Hcn : conn m c b <> 0) by (rewrite <- conn_test; congruence).
    apply bindr_raise in E as [E|([n tr1] & E1 & E)]; [exfalso; revert E; apply ask_pois_raise, HW; lia|].
    unfold ask_norm in E. cbv beta iota zeta in E. rewrite child_kid in E by (apply Htau; lia).
    apply iter_r_raise in E as (s' & st' & Hs & E). apply IH in E as (-> & l & Hl & Hdes & Hx); [|lia]. split; [reflexivity|].
    destruct (kid_window HD Hs) as [X Y]. exists ((s', b) :: l). split; [cbn; now rewrite Hl|]. split.
    + split; [|exact Hdes]. split; [exact Y|]. cbn [snd]. assert (0 <= conn m c b); [|lra]. unfold conn. destruct (cm_A m c b); [apply HW; lia|lra].
    + intros x [<-|Hin']; [|auto]. cbn. split; [exact X|lia].
Qed.
End Fail.

(** argsort returns a permutation of the positions that sorts the values. *)
Definition sorts (argsort : list R -> list nat) : Prop := forall l,
  Permutation (argsort l) (seq 0 (length l)) /\
  forall i j, (i <= j)%nat -> (j < length l)%nat -> nth (nth i (argsort l) 0%nat) l 0 <= nth (nth j (argsort l) 0%nat) l 0.

Lemma map_nth_seq {A} (l : list A) d : map (fun i => nth i l d) (seq 0 (length l)) = l.
Proof.
  apply nth_ext with d d; [now rewrite map_length, seq_length|]. intros i Hi. rewrite map_length, seq_length in Hi.
  rewrite (@nth_indep _ _ i d (nth 0 l d)) by (rewrite map_length, seq_length; exact Hi).
  rewrite (map_nth (fun i => nth i l d)). rewrite seq_nth by exact Hi. reflexivity.
Qed.
Lemma combine_maps {A B C} (f : A -> B) (g : A -> C) l : combine (map f l) (map g l) = map (fun x => (f x, g x)) l.
Proof. induction l; cbn; [reflexivity|]. now rewrite IHl. Qed.

(** The valid outcome of a simulation: calls and events form a Poisson cluster process of at most max_round generations; the
    returned times are sorted, lie in [0, T), ids in range; the events are the background draws together with offspring, each
    less than dt_max after a parent in the output along an edge of positive weight. *)
Definition valid_output (r : rng) (m : ctmodel) (T : R) (max_round : nat) (tr0 : list call) (out : list R * list nat * list call) : Prop :=
  let '(S_, C_, tr') := out in
  exists tr es off, tr' = tr0 ++ tr /\ answered r tr0 tr /\
    immigrants m T max_round (seq 0 (cm_K m)) tr es /\ Permutation (combine S_ C_) es /\
    length S_ = length C_ /\
    (forall i j, (i <= j)%nat -> (j < length S_)%nat -> nth i S_ 0 <= nth j S_ 0) /\
    (forall t, In t S_ -> 0 <= t < T) /\ (forall c, In c C_ -> (c < cm_K m)%nat) /\
    Permutation (combine S_ C_) (background T 0 tr ++ off) /\
    (forall e, In e off -> exists p, In p (combine S_ C_) /\ child_of m e p).

Theorem C64_generate :
  forall r argsort m keep T isfloat max_round tr0,
    (0 < cm_K m)%nat -> 0 < cm_dtmax m -> 0 < T -> (keep = true -> isfloat = true) -> params_ok m ->
    (forall tr n i, (i < n)%nat -> unit_interval (r_unif r tr n i)) -> sorts argsort ->
    let '(res, m') := ct_generate r argsort m keep T isfloat max_round tr0 in
    match res with
    | Ok (S_, C_, tr) =>
        valid_output r m T max_round tr0 (S_, C_, tr) /\
        (keep = false -> m' = m) /\
        (keep = true -> exists d, m' = cm_with_data m (cm_data m ++ [d]) /\ data_ok (cm_K m) d /\ stats_ok m d /\ cd_T d = T /\ cd_N d = length S_ /\
           forall n, (n < cd_N d)%nat -> cd_S d n = nth n S_ 0 /\ cd_C d n = nth n C_ 0%nat)
    | Raise e => m' = m /\ e = AssertionError /\
        exists s k l, (k < cm_K m)%nat /\ length l = max_round /\ descent m (s, k) l /\ (forall x, In x l -> fst x < T /\ (snd x < cm_K m)%nat)
    end.
Proof.
  intros r argsort m keep T isfloat max_round tr0 HK HD HT Hkf Hp Hu Hs. pose proof Hp as (Hlam & HW & Htau).
  destruct (ct_generate r argsort m keep T isfloat max_round tr0) as [res m'] eqn:E. unfold ct_generate in E.
  destruct (gen_all r m T max_round ([], tr0)) as [[es trf]|e] eqn:Eg.
  2:{ injection E as <- <-. unfold gen_all in Eg. apply iter_r_raise in Eg as (k & [evs tr1] & Hin & Eg). apply in_seq in Hin.
      apply bindr_raise in Eg as [Eg|([n tr2] & E1 & Eg)].
      - exfalso. revert Eg. apply ask_pois_raise. apply Rmult_le_pos; [|lra]. apply Rlt_le, Hlam. lia.
      - unfold ask_unif in Eg. cbv beta iota zeta in Eg. apply iter_r_raise in Eg as (s & st & Hsin & Eg).
        apply helper_raise in Eg as (-> & l & Hl & Hd & Hx); auto; try lia.
        split; [reflexivity|]. split; [reflexivity|]. exists s, k, l. split; [lia|]. auto. }
  apply all_gen in Eg as (tr & es' & -> & Han & Ees & Him); [|exact Htau|intros k Hk; apply in_seq in Hk; lia]. cbn [app] in Ees. subst es'.
  replace (Nat.eqb (cm_K m) 0) with false in E by (symmetry; apply Nat.eqb_neq; lia).
  destruct (@immigrants_facts m T HD HW max_round HT (cm_K m) 0 tr es Him ltac:(lia)) as (off & Hperm & Hrange & Hpar).
  { intros n u i Hin Hi. apply in_split in Hin as (pre & post & Ep). specialize (Han pre (CUnif n u) post Ep). cbn in Han. rewrite Han. now apply Hu. }
  destruct (Hs (map fst es)) as [Hpm Hsrt]. set (perm := argsort (map fst es)) in *. rewrite map_length in Hpm, Hsrt.
  set (S_ := map (fun i => nth i (map fst es) 0) perm) in *. set (C_ := map (fun i => nth i (map snd es) 0%nat) perm) in *.
  assert (Lp : length perm = length es) by (rewrite (Permutation_length Hpm), seq_length; reflexivity).
  assert (LS : length S_ = length es) by (unfold S_; rewrite map_length; exact Lp).
  assert (LC : length C_ = length es) by (unfold C_; rewrite map_length; exact Lp).
  assert (Hcomb : Permutation (combine S_ C_) es).
  { unfold S_, C_. rewrite combine_maps.
    assert (Emap : map (fun i => (nth i (map fst es) 0, nth i (map snd es) 0%nat)) perm = map (fun i => nth i es (0, 0%nat)) perm).
    { apply map_ext. intros i. pose proof (map_nth fst es (0, 0%nat) i) as X1. pose proof (map_nth snd es (0, 0%nat) i) as X2. cbn [fst snd] in X1, X2.
      rewrite X1, X2. symmetry. apply surjective_pairing. }
    rewrite Emap. etransitivity; [apply Permutation_map, Hpm|]. rewrite map_nth_seq. reflexivity. }
  assert (Hsorted : forall i j, (i <= j)%nat -> (j < length S_)%nat -> nth i S_ 0 <= nth j S_ 0).
  { intros i j Hij Hj. rewrite LS in Hj. specialize (Hsrt i j Hij Hj). unfold S_.
    assert (En : forall i, (i < length es)%nat -> nth i (map (fun i => nth i (map fst es) 0) perm) 0 = nth (nth i perm 0%nat) (map fst es) 0).
    { intros i' Hi'. rewrite (@nth_indep _ _ i' 0 ((fun i => nth i (map fst es) 0) 0%nat)) by (rewrite map_length, Lp; exact Hi').
      now rewrite (map_nth (fun i => nth i (map fst es) 0)). }
    rewrite !En by lia. exact Hsrt. }
  assert (HinS : forall t, In t S_ -> 0 <= t < T).
  { intros t Ht. apply in_map_iff in Ht as (i & <- & Hi). apply (Permutation_in _ Hpm), in_seq in Hi.
    assert (X : In (nth i (map fst es) 0) (map fst es)) by (apply nth_In; rewrite map_length; lia).
    apply in_map_iff in X as (e0 & <- & He). now apply Hrange. }
  assert (HinC : forall c, In c C_ -> (c < cm_K m)%nat).
  { intros c Hc. apply in_map_iff in Hc as (i & <- & Hi). apply (Permutation_in _ Hpm), in_seq in Hi.
    assert (X : In (nth i (map snd es) 0%nat) (map snd es)) by (apply nth_In; rewrite map_length; lia).
    apply in_map_iff in X as (e0 & <- & He). now apply Hrange. }
  assert (Hv : valid_output r m T max_round tr0 (S_, C_, tr0 ++ tr)).
  { exists tr, es, off. split; [reflexivity|]. split; [exact Han|]. split; [exact Him|]. split; [exact Hcomb|]. split; [congruence|].
    split; [exact Hsorted|]. split; [exact HinS|]. split; [exact HinC|]. split; [etransitivity; [exact Hcomb|exact Hperm]|].
    intros e He. destruct (Hpar e He) as (p & Hin & Hch). exists p. split; [|exact Hch]. exact (Permutation_in _ (Permutation_sym Hcomb) Hin). }
  destruct keep; [|injection E as <- <-; split; [exact Hv|]; split; [reflexivity|discriminate]].
  rewrite (Hkf eq_refl) in E.
  match type of E with context [ct_add_data m ?s ?c T true] => destruct (@C78_add_data_accepts m s c T true) as [Hacc _] end.
  destruct Hacc as (d & Ea & Hdim & Hdo & HdT & Hn & Hst).
  { split; [reflexivity|]. split; [reflexivity|]. split; [reflexivity|]. split; [reflexivity|]. exists (length S_). cbn [tv_dims iv_dims tv_isfloat tv_at iv_at].
    split; [reflexivity|]. split; [congruence|]. split; [reflexivity|]. split; [intros n Hn; apply HinS, nth_In; exact Hn|]. split; [exact Hsorted|].
    intros n Hn. split; [lia|]. apply inj_lt, HinC, nth_In. lia. }
  rewrite Ea in E. injection E as <- <-. split; [exact Hv|]. split; [discriminate|]. intros _. exists d.
  cbn [tv_dims tv_at iv_at] in *. injection Hdim as Hdim. split; [reflexivity|]. split; [exact Hdo|]. split; [exact Hst|]. split; [exact HdT|].
  split; [congruence|]. intros n Hlt. destruct (Hn n Hlt) as (X & Y & _). split; [exact X|lia].
Qed.

(** Non-vacuity: one background event with one child; and a depth bound of zero generations fails. *)
Definition ex_rng : rng :=
  {| r_pois := fun tr _ => match length tr with 0%nat => 1%nat | 2%nat => 1%nat | _ => 0%nat end; r_norm := fun _ _ _ => 0; r_unif := fun _ _ _ => 0 |}.
Example C64_nonvacuous :
  params_ok (ex_ct 1) /\ (0 < cm_K (ex_ct 1))%nat /\ (forall tr n i, (i < n)%nat -> unit_interval (r_unif ex_rng tr n i)) /\
  (exists evs tr, gen_all ex_rng (ex_ct 1) 3 3 ([], []) = Ok (evs, tr) /\ length evs = 2%nat) /\
  gen_all ex_rng (ex_ct 1) 3 0 ([], []) = Raise AssertionError.
Proof.
  split; [apply ex_ct_ok; lra|]. split; [cbn; lia|]. split; [intros; cbn; unfold unit_interval; lra|].
  assert (E0 : Rleb 0 (1 * 3) = true) by (apply Rleb_true; lra).
  assert (E1 : Rleb 0 1 = true) by (apply Rleb_true; lra).
  assert (E2 : Reqb 1 0 = false) by (apply Reqb_false; lra).
  split.
  - assert (E3 : Rltb (0 * 3 + 2 * logistic 1 (0 + sqrt (1 / 1) * 0)) 3 = true).
    { apply Rltb_true. unfold logistic. rewrite Rmult_0_r, Rplus_0_r, Ropp_0, exp_0. lra. }
    eexists. eexists. unfold gen_all, ask_pois, ask_unif, ask_norm, guard, child_times.
    repeat (cbn -[Rleb Reqb Rltb Rmult Rplus Rdiv]; unfold ask_pois, guard, child_times; try rewrite E0; try rewrite E1; try rewrite E2; try rewrite E3).
    split; reflexivity.
  - unfold gen_all. cbn [ex_ct cm_K seq iter_r cm_lam]. unfold ask_pois at 1. rewrite E0. cbn [guard bindr ex_rng r_pois length app ask_unif r_unif seq map iter_r].
    reflexivity.
Qed.
Print Assumptions C64_generate.
