(** * C67 (file names), C69 (inhomogeneous Poisson), C70 (cross-correlation), C72 (environment), C80 (smoothed rate). *)
From Verif Require Import Prelude Arrays ExtReal M_Utils Props_Utils.
From Coq Require Import Permutation String Ascii DecimalString DecimalNat Sorted List.
Open Scope R_scope.
Set Implicit Arguments.

(* ---------------- sorting positions exist (the contract of np.argsort and np.sort is satisfiable) ---------------- *)
Fixpoint ins (key : nat -> R) (i : nat) (l : list nat) : list nat :=
  match l with [] => [i] | j :: r => if Rleb (key i) (key j) then i :: j :: r else j :: ins key i r end.
Definition isort (key : nat -> R) (l : list nat) : list nat := fold_right (ins key) [] l.
Lemma ins_perm key i l : Permutation (ins key i l) (i :: l).
Proof. induction l as [|j r IH]; [reflexivity|]. cbn [ins]. destruct (Rleb (key i) (key j)); [reflexivity|]. etransitivity; [apply perm_skip, IH|apply perm_swap]. Qed.
Lemma isort_perm key l : Permutation (isort key l) l.
Proof. induction l as [|i l IH]; [reflexivity|]. cbn. etransitivity; [apply ins_perm|]. now apply perm_skip. Qed.
Lemma ins_sorted key i l : StronglySorted (fun a b => key a <= key b) l -> StronglySorted (fun a b => key a <= key b) (ins key i l).
Proof.
  induction 1 as [|j r Hs IH Hf]; [repeat constructor|]. cbn [ins]. destruct (Rleb (key i) (key j)) eqn:E.
  - apply Rleb_true in E. constructor; [constructor; auto|]. constructor; [exact E|]. eapply Forall_impl; [|exact Hf]. intros a Ha. cbn in Ha. lra.
  - apply Rleb_false in E. constructor; [exact IH|]. apply (Permutation_Forall (Permutation_sym (ins_perm key i r))). constructor; [lra|exact Hf].
Qed.
Lemma isort_sorted key l : StronglySorted (fun a b => key a <= key b) (isort key l).
Proof. induction l; [constructor|]. now apply ins_sorted. Qed.
Definition argsort_ex (l : list R) : list nat := isort (fun i => nth i l 0) (seq 0 (length l)).
Lemma ssorted_nth key l i j : StronglySorted (fun a b => key a <= key b) l -> (i <= j)%nat -> (j < length l)%nat -> key (nth i l 0%nat) <= key (nth j l 0%nat).
Proof.
  intros H. revert i j. induction H as [|a r Hs IH Hf]; intros i j Hij Hj; [cbn in Hj; lia|]. destruct i, j; cbn [nth]; [lra| |lia|].
  - rewrite Forall_forall in Hf. apply Hf, nth_In. cbn in Hj. lia.
  - apply IH; cbn in Hj; lia.
Qed.
Example argsort_exists : is_argsort argsort_ex.
Proof.
  intros l. split; [apply isort_perm|]. intros i j Hij Hj. apply (@ssorted_nth (fun i => nth i l 0)); [apply isort_sorted|exact Hij|].
  unfold argsort_ex. rewrite (Permutation_length (isort_perm _ _)), seq_length. exact Hj.
Qed.

(* ---------------- C67 ---------------- *)
Open Scope string_scope.
(** A character with no special meaning in a file-name pattern. *)
Definition plain_char (c : ascii) : Prop := c <> "*"%char /\ c <> "?"%char /\ c <> "["%char.
Definition plain (name : string) : Prop := forall c, In c (list_ascii_of_string name) -> plain_char c.
Definition starts_with (f name : string) : Prop := exists r, name = f ++ r.

Lemma lit_tokens l fuel : (forall c, In c l -> plain_char c) -> (List.length l < fuel)%nat -> tokens fuel (List.app l ["*"%char]) = List.app (map TLit l) [TStar].
Proof.
  revert fuel. induction l as [|c l IH]; intros fuel Hp Hf.
  - destruct fuel as [|[|f]]; [lia| |]; reflexivity.
  - destruct fuel as [|f]; [lia|]. cbn [List.app tokens map]. destruct (Hp c (or_introl eq_refl)) as (A & B & D).
    replace (Ascii.eqb c "*") with false by (symmetry; now apply Ascii.eqb_neq). replace (Ascii.eqb c "?") with false by (symmetry; now apply Ascii.eqb_neq).
    replace (Ascii.eqb c "[") with false by (symmetry; now apply Ascii.eqb_neq). f_equal. apply IH; [intros; apply Hp; now right|cbn in Hf; lia].
Qed.
Lemma suffixes_nil s : In [] (suffixes s).
Proof. induction s as [|a s IH]; [now left|now right]. Qed.
Lemma lit_match l s : tmatch (List.app (map TLit l) [TStar]) s = true <-> exists r, s = List.app l r.
Proof.
  revert s. induction l as [|c l IH]; intros s.
  - cbn [map List.app tmatch]. split; [intros _; now exists s|]. intros _. apply existsb_exists. exists []. split; [apply suffixes_nil|reflexivity].
  - cbn [map List.app tmatch]. destruct s as [|d s]; [split; [discriminate|intros (r & H); discriminate]|]. rewrite andb_true_iff, Ascii.eqb_eq, IH. split.
    + intros [-> (r & ->)]. now exists r.
    + intros (r & H). injection H as -> ->. split; [reflexivity|now exists r].
Qed.
Lemma las_app a b : list_ascii_of_string (a ++ b) = List.app (list_ascii_of_string a) (list_ascii_of_string b).
Proof. induction a as [|c a IH]; [reflexivity|]. cbn. now rewrite IH. Qed.
Lemma las_inj a b : list_ascii_of_string a = list_ascii_of_string b -> a = b.
Proof. intros H. rewrite <- (string_of_list_ascii_of_string a), H. apply string_of_list_ascii_of_string. Qed.
Lemma fnmatch_prefix f name : plain f -> fnmatch name (f ++ "*") = true <-> starts_with f name.
Proof.
  intros Hp. unfold fnmatch. rewrite las_app. cbn [list_ascii_of_string]. rewrite lit_tokens; [|exact Hp|rewrite app_length; cbn; lia]. rewrite lit_match. split.
  - intros (r & H). exists (string_of_list_ascii r). apply las_inj. rewrite las_app, list_ascii_of_string_of_list_ascii. exact H.
  - intros (r & ->). exists (list_ascii_of_string r). apply las_app.
Qed.

Lemma append_inj_l f a b : f ++ a = f ++ b -> a = b.
Proof. induction f as [|c f IH]; cbn; [auto|]. intros H. injection H as H. auto. Qed.
Lemma append_nil_r f : f ++ "" = f.
Proof. induction f; cbn; congruence. Qed.
Lemma show_nat_inj n m : show_nat n = show_nat m -> n = m.
Proof.
  unfold show_nat. intros H. apply DecimalNat.Unsigned.to_uint_inj.
  assert (X := f_equal NilEmpty.uint_of_string H). rewrite !NilEmpty.usu in X. congruence.
Qed.

(** The names the function hands out for f, in order: f, f.2, f.3, ... *)
Definition issued (f : string) (i : nat) : string := match i with O => f | S j => f ++ "." ++ show_nat (j + 2) end.
Lemma issued_inj f i j : issued f i = issued f j -> i = j.
Proof.
  assert (G : forall n, f <> f ++ "." ++ show_nat n). { intros n H. rewrite <- (append_nil_r f) in H at 1. apply append_inj_l in H. discriminate. }
  destruct i as [|i], j as [|j]; cbn [issued]; intros H; [auto|now apply G in H|symmetry in H; now apply G in H|].
  apply append_inj_l in H. cbn [append] in H. injection H as H. apply show_nat_inj in H. lia.
Qed.
Lemma issued_prefix f i : starts_with f (issued f i).
Proof. destruct i; [exists ""; symmetry; apply append_nil_r|]. eexists. reflexivity. Qed.

(** A directory history: a file created under the name handed out for f, another file created, another file removed. *)
Inductive dirop := New | Create (name : string) | Remove (name : string).
Definition dir_step (f : string) (d : list string) (o : dirop) : list string :=
  match o with
  | New => get_unique_file_name d f :: d
  | Create n => if in_dec string_dec n d then d else n :: d
  | Remove n => filter (fun x => negb (String.eqb x n)) d
  end.
Definition foreign (f : string) (o : dirop) : Prop := match o with New => True | Create n | Remove n => ~ starts_with f n end.

Definition dir_inv (f : string) (d : list string) : Prop :=
  exists n, Permutation (filter (fun x => fnmatch x (f ++ "*")) d) (map (issued f) (seq 0 n)).

Lemma unique_name f d n : plain f -> Permutation (filter (fun x => fnmatch x (f ++ "*")) d) (map (issued f) (seq 0 n)) ->
  get_unique_file_name d f = issued f n.
Proof.
  intros Hp HP. unfold get_unique_file_name. rewrite (Permutation_length HP), map_length, seq_length. destruct n as [|n]; [reflexivity|].
  replace (Nat.ltb 0 (S n)) with true by (symmetry; apply Nat.ltb_lt; lia). cbn [issued]. now replace (S n + 1)%nat with (n + 2)%nat by lia.
Qed.
Lemma filter_filter_comm {A} (p q : A -> bool) l : filter p (filter q l) = filter q (filter p l).
Proof.
  induction l as [|a l IH]; [reflexivity|]. cbn [filter]. destruct (q a) eqn:Q; destruct (p a) eqn:P; cbn [filter]; rewrite ?Q, ?P, ?IH; reflexivity.
Qed.
Lemma filter_all {A} (p : A -> bool) l : (forall x, In x l -> p x = true) -> filter p l = l.
Proof. induction l as [|a l IH]; intros H; [reflexivity|]. cbn. rewrite H by now left. f_equal. apply IH. intros; apply H; now right. Qed.

Lemma dir_inv_step f d o : plain f -> foreign f o -> dir_inv f d -> dir_inv f (dir_step f d o).
Proof.
  intros Hp Ho (n & HP). destruct o as [|name|name]; cbn [dir_step foreign] in *.
  - exists (S n). rewrite (@unique_name f _ _ Hp HP). cbn [filter]. rewrite (proj2 (fnmatch_prefix (issued f n) Hp) (issued_prefix f n)).
    rewrite seq_S, map_app. cbn [map plus]. etransitivity; [apply perm_skip, HP|]. apply Permutation_cons_append.
  - exists n. destruct (in_dec string_dec name d); [exact HP|]. cbn [filter]. destruct (fnmatch name (f ++ "*")) eqn:E; [|exact HP].
    apply (fnmatch_prefix _ Hp) in E. contradiction.
  - exists n. rewrite filter_filter_comm. rewrite filter_all; [exact HP|]. intros x Hx. apply filter_In in Hx as [_ Hx]. apply (fnmatch_prefix _ Hp) in Hx.
    destruct (String.eqb_spec x name) as [->|]; [contradiction|reflexivity].
Qed.

(** ** C67: in a directory where nothing starting with f existed and nothing starting with f is created or removed by others, every
    name handed out for f is new, whatever else happens. *)
Theorem C67_unique_names_partial :
  forall f d0 ops, plain f -> (forall x, In x d0 -> ~ starts_with f x) -> (forall o, In o ops -> foreign f o) ->
    let d := fold_left (dir_step f) ops d0 in
    ~ In (get_unique_file_name d f) d /\ starts_with f (get_unique_file_name d f).
Proof.
  intros f d0 ops Hp Hd0 Hops d.
  assert (Hinv : dir_inv f d).
  { unfold d. clear d. assert (H0 : dir_inv f d0).
    { exists 0%nat. cbn. replace (filter (fun x => fnmatch x (f ++ "*")) d0) with (@nil string); [constructor|]. clear Hops. induction d0 as [|a l IH]; [reflexivity|]. cbn [filter].
      destruct (fnmatch a (f ++ "*")) eqn:E; [apply (fnmatch_prefix _ Hp) in E; exfalso; apply (Hd0 a); [now left|exact E]|]. apply IH. intros; apply Hd0; now right. }
    clear Hd0. revert d0 H0. induction ops as [|o ops IH]; intros d0 H0; [exact H0|]. cbn [fold_left]. apply IH; [intros; apply Hops; now right|].
    apply dir_inv_step; [exact Hp|apply Hops; now left|exact H0]. }
  destruct Hinv as (n & HP). rewrite (@unique_name f _ _ Hp HP). split; [|apply issued_prefix]. intros Hin.
  assert (X : In (issued f n) (filter (fun x => fnmatch x (f ++ "*")) d)) by (apply filter_In; split; [exact Hin|]; apply (fnmatch_prefix _ Hp), issued_prefix).
  apply (Permutation_in _ HP) in X. apply in_map_iff in X as (i & E & Hi). apply issued_inj in E. apply in_seq in Hi. lia.
Qed.
(** False in general: after a deletion, with another family of names sharing the prefix, or with brackets in the name. *)
Theorem C67_unique_names_refuted :
  (let d := fold_left (dir_step "log") [New; New; New; Remove "log.2"] [] in In (get_unique_file_name d "log") d) /\
  In (get_unique_file_name ["log.2"] "log") ["log.2"] /\
  In (get_unique_file_name ["run[1]"] "run[1]") ["run[1]"].
Proof. vm_compute. auto 10. Qed.
Example C67_nonvacuous : plain "log" /\ fold_left (dir_step "log") [New; Create "data"; New; New] ["readme"] = ["log.3"; "log.2"; "data"; "log"; "readme"].
Proof. split; [|reflexivity]. intros c Hc. cbn in Hc. unfold plain_char. destruct Hc as [<-|[<-|[<-|[]]]]; repeat split; discriminate. Qed.
Close Scope string_scope.

(* ---------------- C72 ---------------- *)
(** ** C72: the parallel sampler is used exactly when gslrandom is present, OMP_NUM_THREADS is *not* set and OpenMP reports a positive number. *)
Theorem C72_parallel_iff :
  forall e, (fst (parents_use_gsl e) = true <-> env_gsl e = true /\ env_omp e = None /\ (0 < env_threads e)%Z) /\
    (fst (parents_use_gsl e) = true -> Z.of_nat (snd (parents_use_gsl e)) = env_threads e) /\
    (forall v, env_omp e = Some v -> exists er, initialize_pyrngs e = Raise er).
Proof.
  intros [g o z]. unfold parents_use_gsl, initialize_pyrngs. cbn [env_gsl env_omp env_threads].
  destruct g; cbn [guard bindr fst snd]; [|split; [split; [discriminate|intros [? _]; discriminate]|split; [discriminate|eauto]]].
  destruct o as [s|]; cbn [guard bindr fst snd]; [split; [split; [discriminate|intros (_ & ? & _); discriminate]|split; [discriminate|eauto]]|].
  destruct (Z.ltb_spec 0 z); cbn [guard bindr fst snd]; (split; [split; [try discriminate; auto|intros (_ & _ & ?); try reflexivity; lia]|split; [try discriminate; lia|intros v; discriminate]]).
Qed.
Theorem C72_thread_variable_refuted :
  forall s z, fst (parents_use_gsl {| env_gsl := true; env_omp := Some s; env_threads := z |}) = false.
Proof. reflexivity. Qed.
Print Assumptions C72_parallel_iff.
Print Assumptions C67_unique_names_partial.
