(** * Props_Fnmatch: the file-name patterns behind get_unique_file_name mean what the library documents (C67). *)
From Verif Require Import Prelude M_Utils Props_Utils2.
From Coq Require Import String Ascii.
Set Implicit Arguments.
Open Scope nat_scope.

(** The documented meaning, as a relation between a pattern and a name. *)
Inductive item := One_ (c : ascii) | Range (a b : ascii).
Inductive pat := PLit (c : ascii) | PAny | PStar | PClass (neg : bool) (l : list item).
Definition in_item (c : ascii) (i : item) : Prop :=
  match i with One_ a => c = a | Range a b => nat_of_ascii a <= nat_of_ascii c <= nat_of_ascii b end.
Inductive matches : list pat -> list ascii -> Prop :=
| M_nil : matches [] []
| M_lit c ps s : matches ps s -> matches (PLit c :: ps) (c :: s)
| M_any c ps s : matches ps s -> matches (PAny :: ps) (c :: s)
| M_star u ps s : matches ps s -> matches (PStar :: ps) (List.app u s)
| M_class neg l c ps s : ((exists i, In i l /\ in_item c i) <-> neg = false) -> matches ps s -> matches (PClass neg l :: ps) (c :: s).

(** The text of a pattern. *)
Definition item_text (i : item) : list ascii := match i with One_ a => [a] | Range a b => [a; "-"%char; b] end.
Definition pat_text (p : pat) : list ascii :=
  match p with
  | PLit c => [c] | PAny => ["?"%char] | PStar => ["*"%char]
  | PClass neg l => List.app ("["%char :: (if neg then ["!"%char] else [])) (List.app (flat_map item_text l) ["]"%char])
  end.
(** Well-formed: literals are not special; a class is not empty, its text has no "]" except possibly as first character,
    no item begins with "-", and a class that is not negated does not begin with "!". *)
Definition item_start (i : item) : ascii := match i with One_ a => a | Range a _ => a end.
Definition pat_ok (p : pat) : Prop :=
  match p with
  | PLit c => plain_char c
  | PAny | PStar => True
  | PClass neg l => (forall i, In i l -> item_start i <> "-"%char) /\
      exists c r, flat_map item_text l = c :: r /\ ~ In "]"%char r /\ (neg = false -> c <> "!"%char)
  end.
Definition item_tok (i : item) : ascii * ascii := match i with One_ a => (a, a) | Range a b => (a, b) end.
Definition pat_tok (p : pat) : tok :=
  match p with PLit c => TLit c | PAny => TAny | PStar => TStar | PClass neg l => TClass neg (map item_tok l) end.

Lemma ranges_text l : forall fuel, List.length (flat_map item_text l) <= fuel -> (forall i, In i l -> item_start i <> "-"%char) ->
  class_ranges fuel (flat_map item_text l) = map item_tok l.
Proof.
  induction l as [|i l IH]; intros fuel Hf Hs; [destruct fuel; reflexivity|].
  assert (Hs' : forall i, In i l -> item_start i <> "-"%char) by (intros; apply Hs; now right).
  cbn [flat_map] in *. rewrite app_length in Hf. destruct i as [a|a b]; cbn [item_text List.app List.length map item_tok] in *.
  - destruct fuel as [|f]; [lia|]. cbn [class_ranges].
    destruct (flat_map item_text l) as [|m [|b r]] eqn:El.
    + f_equal. apply IH; [cbn; lia|exact Hs'].
    + f_equal. apply IH; [cbn in *; lia|exact Hs'].
    + assert (Hm : m <> "-"%char).
      { destruct l as [|i l]; [discriminate|]. assert (X := Hs' i (or_introl eq_refl)). destruct i; cbn in El; injection El as <- _; exact X. }
      replace (Ascii.eqb m "-") with false by (symmetry; now apply Ascii.eqb_neq).
      f_equal. apply IH; [cbn in *; lia|exact Hs'].
  - destruct fuel as [|f]; [lia|]. cbn [class_ranges]. rewrite Ascii.eqb_refl. f_equal. apply IH; [lia|exact Hs'].
Qed.
Lemma class_end_tail r rest : ~ In "]"%char r -> class_end false (List.app r ("]"%char :: rest)) = Some (r, rest).
Proof.
  induction r as [|c r IH]; intros H; [reflexivity|]. cbn [List.app class_end].
  replace (Ascii.eqb c "]") with false by (symmetry; apply Ascii.eqb_neq; intros ->; apply H; now left).
  cbn [andb]. rewrite IH; [reflexivity|]. intros Hi. apply H. now right.
Qed.
Lemma class_end_body c r rest : ~ In "]"%char r -> class_end true (c :: List.app r ("]"%char :: rest)) = Some (c :: r, rest).
Proof. intros H. cbn [class_end negb]. rewrite andb_false_r. now rewrite class_end_tail. Qed.

Lemma tokens_text ps : Forall pat_ok ps -> forall fuel, List.length (flat_map pat_text ps) <= fuel ->
  tokens fuel (flat_map pat_text ps) = map pat_tok ps.
Proof.
  induction 1 as [|p ps Hp Hps IH]; intros fuel Hf; [destruct fuel; reflexivity|].
  cbn [flat_map map] in *. rewrite app_length in Hf. destruct p as [c| | |neg l]; cbn [pat_text pat_tok] in *.
  - destruct fuel as [|f]; [cbn in Hf; lia|]. cbn [List.app tokens]. destruct Hp as (H1 & H2 & H3).
    replace (Ascii.eqb c "*") with false by (symmetry; now apply Ascii.eqb_neq). replace (Ascii.eqb c "?") with false by (symmetry; now apply Ascii.eqb_neq).
    replace (Ascii.eqb c "[") with false by (symmetry; now apply Ascii.eqb_neq). f_equal. apply IH. cbn in Hf; lia.
  - destruct fuel as [|f]; [cbn in Hf; lia|]. cbn [List.app tokens]. change (Ascii.eqb "?" "*") with false. change (Ascii.eqb "?" "?") with true.
    cbv iota. f_equal. apply IH. cbn in Hf; lia.
  - destruct fuel as [|f]; [cbn in Hf; lia|]. cbn [List.app tokens]. change (Ascii.eqb "*" "*") with true. cbv iota. f_equal. apply IH. cbn in Hf; lia.
  - destruct Hp as (Hs & c & r & E & Hr & Hn). destruct fuel as [|f]; [cbn in Hf; lia|].
    rewrite <- ranges_text with (fuel := List.length (flat_map item_text l)) by auto. rewrite E in *.
    destruct neg; cbn [List.app tokens] in *.
    + change (Ascii.eqb "[" "*") with false. change (Ascii.eqb "[" "?") with false. change (Ascii.eqb "[" "[") with true.
      change (Ascii.eqb "!" "!") with true. cbn [tl]. rewrite <- List.app_assoc. cbn [List.app].
      rewrite class_end_body by exact Hr. f_equal. apply IH. cbn [List.length] in Hf. lia.
    + change (Ascii.eqb "[" "*") with false. change (Ascii.eqb "[" "?") with false. change (Ascii.eqb "[" "[") with true.
      replace (Ascii.eqb c "!") with false by (symmetry; apply Ascii.eqb_neq; auto). rewrite <- List.app_assoc. cbn [List.app].
      rewrite class_end_body by exact Hr. f_equal. apply IH. cbn [List.length] in Hf. lia.
Qed.

Lemma suffixes_spec s t : In t (suffixes s) <-> exists u, s = List.app u t.
Proof.
  split.
  - induction s as [|c s IH]; cbn [suffixes In]; [intros [<-|[]]; now exists []|]. intros [<-|H]; [now exists []|].
    destruct (IH H) as (u & ->). now exists (c :: u).
  - intros (u & ->). induction u as [|c u IH]; cbn [List.app]; [destruct t; now left|]. cbn [suffixes]. now right.
Qed.
Lemma item_in c i : in_range c (item_tok i) = true <-> in_item c i.
Proof.
  unfold in_range. rewrite andb_true_iff, !Nat.leb_le. destruct i as [a|a b]; cbn [item_tok fst snd in_item]; [|tauto].
  split; [intros [H1 H2]|intros ->; lia]. rewrite <- (ascii_nat_embedding c), <- (ascii_nat_embedding a). f_equal. lia.
Qed.
Lemma tmatch_spec ps : forall s, tmatch (map pat_tok ps) s = true <-> matches ps s.
Proof.
  induction ps as [|p ps IH]; intros s; cbn [map].
  - cbn. destruct s; split; intros H; try discriminate; try constructor; inversion H.
  - destruct p as [c| | |neg l]; cbn [pat_tok tmatch].
    + destruct s as [|d s]; [split; [discriminate|intros H; inversion H]|]. rewrite andb_true_iff, Ascii.eqb_eq, IH.
      split; [intros [-> H]; now constructor|intros H; inversion H; auto].
    + destruct s as [|d s]; [split; [discriminate|intros H; inversion H]|]. rewrite IH. split; [intros H; now constructor|intros H; inversion H; auto].
    + rewrite existsb_exists. split.
      * intros (t & Hin & Ht). apply suffixes_spec in Hin as (u & ->). constructor. now apply IH.
      * intros H. inversion H as [| | |u ps' s' H' E1 E2|]; subst. exists s'. split; [apply suffixes_spec; now exists u|now apply IH].
    + destruct s as [|d s]; [split; [discriminate|intros H; inversion H]|]. rewrite andb_true_iff, IH.
      assert (Hx : existsb (in_range d) (map item_tok l) = true <-> exists i, In i l /\ in_item d i).
      { rewrite existsb_exists. split.
        - intros (x & Hin & Hr). apply in_map_iff in Hin as (i & <- & Hi). exists i. split; [auto|now apply item_in].
        - intros (i & Hi & Hd). exists (item_tok i). split; [now apply in_map|now apply item_in]. }
      split.
      * intros [Hb Hm]. constructor; [|exact Hm]. rewrite <- Hx. destruct neg, (existsb _ _); cbn in Hb; try discriminate; split; congruence.
      * intros H. inversion H as [| | | |n0 l0 c0 ps0 s0 Hi Hm]; subst. split; [|exact Hm]. rewrite <- Hx in Hi.
        destruct neg, (existsb _ _); cbn; try reflexivity; exfalso; destruct Hi as [Ha Hb]; [discriminate (Ha eq_refl)|discriminate (Hb eq_refl)].
Qed.

(** A name matches the text of a well-formed pattern exactly when the documented relation holds. *)
Theorem C67_pattern_meaning : forall ps name,
  Forall pat_ok ps ->
  fnmatch name (string_of_list_ascii (flat_map pat_text ps)) = true <-> matches ps (list_ascii_of_string name).
Proof.
  intros ps name H. unfold fnmatch. rewrite list_ascii_of_string_of_list_ascii. cbv zeta. rewrite tokens_text by auto. apply tmatch_spec.
Qed.
Print Assumptions C67_pattern_meaning.

(** Why names with special characters are excluded from C67: the name run[1] is issued again and again. *)
Example C67_pattern_nonvacuous :
  Forall pat_ok [PLit "r"%char; PClass true [One_ "]"%char; Range "a"%char "f"%char]; PStar] /\
  string_of_list_ascii (flat_map pat_text [PLit "r"%char; PClass true [One_ "]"%char; Range "a"%char "f"%char]; PStar]) = "r[!]a-f]*"%string.
Proof.
  split; [|reflexivity]. constructor; [cbn; repeat split; discriminate|]. constructor; [|repeat constructor].
  split.
  - intros i [<-|[<-|[]]]; discriminate.
  - eexists _, _. split; [reflexivity|]. split; [|discriminate]. cbn. intuition discriminate.
Qed.
