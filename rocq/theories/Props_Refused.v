(** * Props_Refused: refused calls raise the documented kind of exception and nothing else (C106). *)
From Verif Require Import Prelude ExtReal Arrays M_Basis M_Parents M_Discrete M_Gibbs M_Network M_Standard M_Dist M_Nonlinear M_Continuous
  Props_Network L_Parents.
From Coq Require Import Lia.
Set Implicit Arguments.
Open Scope R_scope.

(** ** Standard model: an SGD step without data, a single index passed to the gradient, the stability check and indexing out
    of range are refused; the rate without an index is the rate of the first data set. *)
Theorem C106_standard_model :
  (forall m prev lr mom mb, sm_data m = [] -> s_sgd_step m prev lr mom mb = Raise ValueError) /\
  (forall m k i, s_compute_gradient m k (One i) = Raise TypeError) /\
  (forall m, s_check_stability m = Raise AxisError) /\
  (forall m ks, s_compute_rate m None ks = s_compute_rate m (Some 0%Z) ks) /\
  (forall m i ks, (Z.of_nat (List.length (sm_data m)) <= i \/ i < - Z.of_nat (List.length (sm_data m)))%Z ->
     s_compute_rate m (Some i) ks = Raise IndexError) /\
  (forall m i k d, sm_data m <> [] -> s_data_at m i = Ok d -> (sm_K m <= k)%nat ->
     s_compute_rate m (Some i) (KInt k) = Raise IndexError /\ s_compute_rate m (Some i) KOther = Raise GenericException).
Proof.
  split; [intros m prev lr mom mb E; unfold s_sgd_step; now rewrite E|].
  split; [reflexivity|]. split; [reflexivity|]. split; [reflexivity|]. split.
  - intros m i ks H. unfold s_compute_rate, s_data_at, py_index.
    destruct (Z.leb_spec 0 i); cbn [andb].
    + destruct (Z.ltb_spec i (Z.of_nat (List.length (sm_data m)))); [lia|]. cbn [andb].
      destruct (Z.ltb_spec i 0); [lia|]. rewrite ?andb_false_r. reflexivity.
    + destruct (Z.leb_spec 0 (Z.of_nat (List.length (sm_data m)) + i)); [lia|]. rewrite ?andb_false_r. reflexivity.
  - intros m i k d _ E Hk. unfold s_compute_rate. rewrite E. cbn [bindr s_ks].
    destruct (Nat.ltb_spec k (sm_K m)); [lia|]. split; reflexivity.
Qed.
Print Assumptions C106_standard_model.

(** ** Block models. *)
(** Arguments that pass every assertion of the constructor. *)
Definition table_ok (C : nat) (hi : option R) (a : option parg) : Prop :=
  match a with None => True | Some x => is_ok (table_of C hi x) = true end.
Definition labels_given_ok (a : sbm_args) : Prop :=
  (1 <= ar_C a)%nat /\ match ar_pi a with PiScalar _ => True | PiArray n _ => n = ar_C a end /\ ar_m a = None /\
  (exists c, ar_c a = Some (ar_K a, c) /\ forall k, (k < ar_K a)%nat -> (0 <= c k <= Z.of_nat (ar_C a) - 1)%Z) /\
  table_ok (ar_C a) (Some 1) (ar_p a) /\ table_ok (ar_C a) None (ar_v a).

Lemma is_ok_some {A} (r : result A) : is_ok r = true -> exists x, r = Ok x.
Proof. destruct r; [eauto|discriminate]. Qed.
Lemma table_ok_some C hi a (dflt : mat) : table_ok C hi a ->
  exists M, match a with Some x => table_of C hi x | None => Ok dflt end = Ok M.
Proof. destruct a as [x|]; [apply is_ok_some|eauto]. Qed.

(** Labels for two or more nodes, with every documented requirement met: still refused, with ValueError (the truth value of
    an array), and so is every fixed-sparsity network built from them; a fixed-sparsity network without p is an
    AssertionError, whatever else is passed; its bound refuses the p term and otherwise returns None. *)
Theorem C106_block_models :
  (forall a d, labels_given_ok a -> (2 <= ar_K a)%nat -> sbm_init a d = Raise ValueError) /\
  (forall a d, labels_given_ok a -> (2 <= ar_K a)%nat -> ar_p a <> None -> fsbm_init a d = Raise ValueError) /\
  (forall a d, ar_p a = None -> fsbm_init a d = Raise AssertionError) /\
  (forall lgam psi s f c p v m, fsbm_vlb lgam psi s f c p v m = if p then Raise AssertionError else Ok PyNone).
Proof.
  assert (Q : forall a d, labels_given_ok a -> (2 <= ar_K a)%nat -> sbm_init a d = Raise ValueError).
  { intros a d (HC & Hpi & Hm & (c & Hc & Hr) & Hp & Hv) HK. unfold sbm_init, sbm_base_init. cbv zeta.
    rewrite Hm, Hc. destruct (Nat.leb_spec 1 (ar_C a)); [|lia]. cbn [guard bindr].
    assert (Epi : exists pi, match ar_pi a with PiScalar x => Ok (fun _ => x * 1)
        | PiArray n v => do _ <- guard (n =? ar_C a)%nat AssertionError ;; Ok v end = Ok pi).
    { destruct (ar_pi a) as [x|n v]; [eauto|]. rewrite Hpi, Nat.eqb_refl. cbn. eauto. }
    destruct Epi as [pi ->]. cbn [bindr]. rewrite Nat.eqb_refl. cbn [guard bindr].
    destruct (Nat.leb_spec 1 (ar_K a)); [|lia]. cbn [guard bindr].
    replace (forall_lt (ar_K a) _) with true.
    2:{ symmetry. apply forall_lt_true. intros k Hk. specialize (Hr k Hk). apply andb_true_intro. split; apply Z.leb_le; lia. }
    cbn [guard bindr].
    destruct (@table_ok_some _ _ _ (dr_p d (ar_tau1 a) (ar_tau0 a)) Hp) as [P ->]. cbn [bindr].
    destruct (@table_ok_some _ _ _ (dr_v d (ar_alpha a) (1 / ar_beta a)) Hv) as [V ->]. cbn [bindr none_in].
    destruct (Nat.leb_spec (ar_K a) 1); [lia|]. reflexivity. }
  split; [exact Q|]. split; [|split].
  - intros a d H1 H2 H3. unfold fsbm_init. destruct (ar_p a) as [x|]; [|now elim H3]. rewrite (Q a d H1 H2). reflexivity.
  - intros a d E. unfold fsbm_init. now rewrite E.
  - intros lgam psi s f c p v m. unfold fsbm_vlb. destruct p; reflexivity.
Qed.
Print Assumptions C106_block_models.

(** ** Nonlinear nodes: exactly one of three outcomes. *)
Theorem C106_nonlinear_add_data :
  forall n F slen sint S_,
  match n_add_data n F slen sint S_ with
  | Ok n' => slen = fm_rows F /\ sint = true /\ fm_cols F = (1 + n_K n * n_B n)%nat /\
             n_data n' = n_data n ++ [{| nd_T := fm_rows F; nd_F := fm_at F; nd_S := S_ |}]
  | Raise e =>
      (e = ValueError /\ slen = fm_rows F /\ sint = true /\ fm_cols F = (n_K n * n_B n)%nat) \/
      (e = AssertionError /\ (slen <> fm_rows F \/ sint = false \/
         (fm_cols F <> n_K n * n_B n /\ fm_cols F <> 1 + n_K n * n_B n)%nat))
  end.
Proof.
  intros n F slen sint S_. unfold n_add_data.
  destruct (Nat.eqb_spec slen (fm_rows F)) as [E|E]; cbn [andb guard bindr]; [|auto].
  destruct sint; cbn [guard bindr]; [|auto].
  destruct (Nat.eqb_spec (fm_cols F) (n_K n * n_B n)) as [E1|E1]; [left; auto|].
  destruct (Nat.eqb_spec (fm_cols F) (1 + n_K n * n_B n)) as [E2|E2]; cbn [guard bindr]; [|auto 6].
  auto.
Qed.
Print Assumptions C106_nonlinear_add_data.

(** ** The Python parent sampler. *)
Theorem C106_parent_sampler :
  forall mult p q,
  let bad_count := exists k r, (k < pa_K p)%nat /\ (r < pa_Tk p k)%nat /\ (pa_Ss p k r <= 0)%Z in
  let no_rate := exists k r, (k < pa_K p)%nat /\ (r < pa_Tk p k)%nat /\
                   Rsum (1 + pa_K p * pa_B p) (pvec_python p q k r) = 0 in
  match resample_Z_python mult p q with
  | Raise e => (e = AssertionError /\ bad_count) \/ (e = ValueError /\ ~ bad_count /\ no_rate)
  | Ok _ => ~ bad_count /\ ~ no_rate
  end.
Proof.
  intros mult p q bad no. unfold resample_Z_python.
  destruct (all_rows p (fun k r => Z.ltb 0 (pa_Ss p k r))) eqn:E1; cbn [negb].
  - assert (Hb : ~ bad).
    { intros (k & r & Hk & Hr & H). rewrite all_rows_true in E1. specialize (E1 k r Hk Hr). apply Z.ltb_lt in E1. lia. }
    destruct (all_rows p (fun k r => negb (Reqb (Rsum (1 + pa_K p * pa_B p) (pvec_python p q k r)) 0))) eqn:E2; cbn [negb].
    + split; [exact Hb|]. intros (k & r & Hk & Hr & H). rewrite all_rows_true in E2. specialize (E2 k r Hk Hr).
      apply negb_true_iff in E2. apply Reqb_false in E2. now apply E2.
    + right. split; [reflexivity|]. split; [exact Hb|].
      unfold all_rows in E2. apply forall_lt_false in E2 as (k & Hk & E2). apply forall_lt_false in E2 as (r & Hr & E2).
      apply negb_false_iff in E2. apply Reqb_true in E2. exists k, r. auto.
  - left. split; [reflexivity|].
    unfold all_rows in E1. apply forall_lt_false in E1 as (k & Hk & E1). apply forall_lt_false in E1 as (r & Hr & E1).
    apply Z.ltb_ge in E1. exists k, r. auto.
Qed.
Print Assumptions C106_parent_sampler.

(** ** Continuous-time add_data: the recording length must be a float; zero-dimensional arguments have no length; anything
    else that is refused is an AssertionError, or an AttributeError when an empty list was passed for an array. *)
Theorem C106_continuous_add_data :
  (forall m S_ C_ T, ct_add_data m S_ C_ T false = Raise AssertionError) /\
  (forall m S_ C_ T, tv_dims S_ = [] -> ct_add_data m S_ C_ T true = Raise TypeError) /\
  (forall m S_ C_ T, tv_dims S_ = [0%nat] -> iv_dims C_ = [] -> ct_add_data m S_ C_ T true = Raise TypeError) /\
  (forall m S_ C_ T f e, ct_add_data m S_ C_ T f = Raise e -> tv_dims S_ <> [] -> iv_dims C_ <> [] ->
     e = AssertionError \/ (e = AttributeError /\ (tv_isarray S_ = false \/ iv_isarray C_ = false))).
Proof.
  split; [reflexivity|].
  split; [intros m S_ C_ T E; unfold ct_add_data; rewrite E; reflexivity|].
  split; [intros m S_ C_ T E1 E2; unfold ct_add_data; rewrite E1, E2; reflexivity|].
  intros m S_ C_ T f e. unfold ct_add_data.
  destruct (tv_dims S_) as [|n ds]; [congruence|]. destruct (iv_dims C_) as [|c dc]; [congruence|].
  intros H _ _. destruct f; cbn [guard bindr py_len] in H; [|left; congruence].
  match type of H with bindr ?x _ = _ => destruct x as [[]|e1] eqn:G1; cbn [bindr] in H end.
  2:{ destruct (Nat.ltb 0 n); [|discriminate]. unfold guard in G1. left.
      destruct (_ && tv_isfloat S_)%bool; cbn [bindr] in G1; [|congruence].
      destruct (forall_lt (n - 1) _); [discriminate|congruence]. }
  match type of H with bindr ?x _ = _ => destruct x as [[]|e1] eqn:G2; cbn [bindr] in H end.
  2:{ destruct (Nat.ltb 0 c); [|discriminate]. unfold guard in G2.
      destruct (iv_isarray C_); cbn [bindr] in G2; [|left; congruence].
      destruct (tv_isarray S_); cbn [bindr] in G2; [|right; split; [congruence|auto]].
      left. destruct (_ && iv_isint C_)%bool; [discriminate|congruence]. }
  destruct (tv_isarray S_); cbn [guard bindr] in H; [|right; split; [congruence|auto]].
  match type of H with bindr ?x _ = _ => destruct x as [[]|e1] eqn:G3; cbn [bindr] in H end.
  2:{ destruct (Nat.eqb _ 1); [|left; congruence]. destruct (iv_isarray C_); [discriminate|]. right. cbn in G3. split; [congruence|auto]. }
  unfold guard in H. match type of H with context [dims_eqb ?a ?b] => destruct (dims_eqb a b) end; cbn [bindr] in H; [|left; congruence].
  destruct (iv_isint C_); cbn [bindr] in H; [discriminate|left; congruence].
Qed.
Print Assumptions C106_continuous_add_data.

(** ** Discrete distribution: indices are refused, one-hot vectors of the wrong shape or sum too. *)
Theorem C106_discrete :
  forall D p,
  (forall i, discrete_lp D p (PyInt i) = Raise AttributeError) /\
  (forall i, discrete_lp D p (NpInt i) = Raise AssertionError) /\
  (forall n x, n <> D \/ Zsum D x <> 1%Z -> discrete_lp D p (OneHot n x) = Raise AssertionError).
Proof.
  intros D p. split; [reflexivity|]. split; [reflexivity|].
  intros n x H. unfold discrete_lp. destruct (Nat.eqb_spec n D); [|reflexivity].
  destruct (Z.eqb_spec (Zsum D x) 1); [|reflexivity]. exfalso. destruct H; congruence.
Qed.
Print Assumptions C106_discrete.

Example C106_nonvacuous :
  labels_given_ok {| ar_K := 3; ar_C := 2; ar_c := Some (3%nat, fun k => Z.of_nat (k mod 2)); ar_m := None; ar_pi := PiScalar 1;
                     ar_p := Some (PScalar (1/2)); ar_tau0 := 1; ar_tau1 := 1; ar_v := None; ar_alpha := 1; ar_beta := 1;
                     ar_kappa := 1; ar_allow := true |}.
Proof.
  unfold labels_given_ok. cbn [ar_K ar_C ar_c ar_m ar_pi ar_p ar_v].
  split; [lia|]. split; [exact I|]. split; [reflexivity|]. split.
  - eexists. split; [reflexivity|]. intros k Hk. assert (k mod 2 < 2)%nat by (apply Nat.mod_upper_bound; lia). lia.
  - split; [|exact I]. cbn [table_ok table_of]. 
    replace (Rleb 0 (1/2)) with true by (symmetry; apply Rleb_true; lra).
    replace (Rleb (1/2) 1) with true by (symmetry; apply Rleb_true; lra). reflexivity.
Qed.
