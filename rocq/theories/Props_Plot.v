(** * Props_Plot: drawings show the model they are given (C114). *)
From Verif Require Import Prelude ExtReal Arrays M_Basis M_Parents M_Discrete Props_Network Spec_Discrete L_Discrete Props_Discrete M_Plot.
From Coq Require Import FunctionalExtensionality.
Set Implicit Arguments.
Open Scope R_scope.

(** Two drawings of the network look the same: the same visible arrows with the same widths, in the same order. *)
Definition same_picture (a b : list arrow) : Prop := filter ar_visible a = filter ar_visible b.
Definition ends (l : list arrow) : list (nat * nat) := map (fun a => (ar_from a, ar_to a)) l.

Lemma node_pairs_in : forall K i j, In (i, j) (node_pairs K) <-> ((i < K)%nat /\ (j < K)%nat /\ i <> j).
Proof.
  intros K i j. unfold node_pairs. rewrite in_flat_map. split.
  - intros (a & Ia & H). apply in_seq in Ia. apply in_flat_map in H as (b & Ib & H). apply in_seq in Ib.
    destruct (Nat.eqb_spec a b); [destruct H|]. destruct H as [H|[]]. injection H as <- <-. repeat split; lia.
  - intros (Hi & Hj & N). exists i. split; [apply in_seq; lia|]. apply in_flat_map. exists j. split; [apply in_seq; lia|].
    destruct (Nat.eqb_spec i j); [contradiction|]. left. reflexivity.
Qed.
Lemma NoDup_join : forall {A} (l1 l2 : list A), NoDup l1 -> NoDup l2 -> (forall x, In x l1 -> In x l2 -> False) -> NoDup (l1 ++ l2).
Proof.
  intros A l1 l2 N1 N2 D. induction N1 as [|x l X N1 IH]; cbn; [exact N2|]. constructor.
  - rewrite in_app_iff. intros [I|I]; [contradiction | apply (D x); [now left | exact I]].
  - apply IH. intros y I J. apply (D y); [now right | exact J].
Qed.
Lemma inner_NoDup : forall k l, NoDup l -> NoDup (flat_map (fun k2 => if Nat.eqb k k2 then [] else [(k, k2)]) l).
Proof.
  intros k l N. induction N as [|x l X N IH]; cbn; [constructor|]. destruct (Nat.eqb k x); cbn; [exact IH|].
  constructor; [|exact IH]. intro I. apply in_flat_map in I as (y & Iy & I). destruct (Nat.eqb k y); [destruct I|].
  destruct I as [I|[]]. injection I as <-. contradiction.
Qed.
Lemma node_pairs_NoDup : forall K, NoDup (node_pairs K).
Proof.
  intro K. unfold node_pairs.
  assert (G : forall l, NoDup l -> NoDup (flat_map (fun k1 => flat_map (fun k2 => if Nat.eqb k1 k2 then [] else [(k1, k2)]) (seq 0 K)) l)).
  { intros l N. induction N as [|x l X N IH]; cbn; [constructor|].
    apply NoDup_join; [apply inner_NoDup; apply seq_NoDup | exact IH|].
    intros (a, b) I1 I2. apply in_flat_map in I1 as (y & _ & I1). destruct (Nat.eqb x y); [destruct I1|]. destruct I1 as [I1|[]].
    injection I1 as <- <-. apply in_flat_map in I2 as (z & Iz & I2). apply in_flat_map in I2 as (w & _ & I2).
    destruct (Nat.eqb z w); [destruct I2|]. destruct I2 as [I2|[]]. injection I2 as -> _. contradiction. }
  apply G. apply seq_NoDup.
Qed.

(* ------------------------------------------------------------------ *)
(** ** The network *)

(** A new drawing: one arrow for each ordered pair of different processes, in row-major order of the node numbers, drawn
    visible exactly where the adjacency matrix has an edge, with line width three times the weight.  No arrow starts and ends
    at the same process. *)
Theorem C114_network_drawing :
  forall m, exists l, plot_network m None = Ok l /\
  NoDup (ends l) /\
  (forall i j, In (i, j) (ends l) <-> ((i < dm_K m)%nat /\ (j < dm_K m)%nat /\ i <> j)) /\
  forall a, In a l -> ar_visible a = dm_A m (ar_from a) (ar_to a) /\ ar_width a = 3 * net_weight m (ar_from a) (ar_to a).
Proof.
  intro m. exists (draw_network m). split; [reflexivity|].
  assert (E : ends (draw_network m) = node_pairs (dm_K m)).
  { unfold ends, draw_network. rewrite map_map. cbn. rewrite <- (map_id (node_pairs (dm_K m))) at 2. apply map_ext. intros []. reflexivity. }
  rewrite E. split; [apply node_pairs_NoDup|]. split; [intros; apply node_pairs_in|].
  intros a I. apply in_map_iff in I as (p & <- & I). cbn. split; [reflexivity|]. now rewrite W_effective_net.
Qed.
Print Assumptions C114_network_drawing.

Lemma update_lines_ok : forall m ps lns, (length ps <= length lns)%nat -> exists l', update_lines m ps lns = Ok l'.
Proof.
  intros m ps. induction ps as [|(i, j) ps IH]; intros lns H; cbn; [eauto|].
  destruct lns as [|a lns]; cbn in H; [lia|]. destruct (IH lns) as (l' & E); [lia|]. rewrite E. cbn. eauto.
Qed.
Lemma update_lines_view : forall m lns l',
  update_lines m (ends lns) lns = Ok l' ->
  ends l' = ends lns /\
  filter ar_visible l' = filter ar_visible
    (map (fun p => {| ar_from := fst p; ar_to := snd p; ar_width := 3 * W_effective m (fst p) (snd p); ar_visible := dm_A m (fst p) (snd p) |})
         (ends lns)).
Proof.
  intros m lns. induction lns as [|a lns IH]; intros l' E; cbn in E; [injection E as <-; split; reflexivity|].
  destruct (update_lines m (map (fun a => (ar_from a, ar_to a)) lns) lns) as [r|e] eqn:U; cbn in E; [|discriminate].
  injection E as <-. destruct (IH r U) as (E1 & E2). cbn. split.
  - f_equal; [|exact E1]. now destruct (dm_A m (ar_from a) (ar_to a)).
  - destruct (dm_A m (ar_from a) (ar_to a)); cbn; [|exact E2]. f_equal. exact E2.
Qed.
Lemma ends_draw : forall m, ends (draw_network m) = node_pairs (dm_K m).
Proof.
  intro m. unfold ends, draw_network. rewrite map_map. cbn. rewrite <- (map_id (node_pairs (dm_K m))) at 2. apply map_ext. intros []. reflexivity.
Qed.
Lemma same_picture_trans : forall a b c, same_picture a b -> same_picture b c -> same_picture a c.
Proof. unfold same_picture. congruence. Qed.

(** Updating the arrows of an earlier drawing of any model with as many processes: the picture is that of the model passed. *)
Theorem C114_network_update :
  forall m lns, ends lns = node_pairs (dm_K m) ->
  exists l', plot_network m (Some lns) = Ok l' /\ ends l' = node_pairs (dm_K m) /\
  forall fresh, plot_network m None = Ok fresh -> same_picture l' fresh.
Proof.
  intros m lns E. cbn. rewrite <- E. destruct (@update_lines_ok m (ends lns) lns) as (l' & U); [unfold ends; rewrite map_length; lia|].
  exists l'. split; [exact U|]. destruct (update_lines_view _ _ U) as (E1 & E2). split; [exact E1|].
  intros fresh F. injection F as <-. unfold same_picture, draw_network. rewrite E2, E. reflexivity.
Qed.
Print Assumptions C114_network_update.

(* ------------------------------------------------------------------ *)
(** ** The weight matrix *)

Lemma list_max_ge : forall l x, x <= list_max x l /\ Forall (fun y => y <= list_max x l) l.
Proof.
  unfold list_max. induction l as [|y l IH]; intro x; cbn; [split; [lra | constructor]|].
  destruct (IH (Rmax x y)) as (H1 & H2). pose proof (Rmax_l x y). pose proof (Rmax_r x y).
  split; [lra|]. constructor; [lra|]. exact H2.
Qed.
Lemma list_max_in : forall l x, In (list_max x l) (x :: l).
Proof.
  unfold list_max. induction l as [|y l IH]; intro x; cbn; [now left|].
  destruct (IH (Rmax x y)) as [E|I]; [|now (right; right)].
  rewrite <- E. destruct (Rle_dec x y); [rewrite Rmax_right by lra; right; now left | rewrite Rmax_left by lra; now left].
Qed.
Lemma mat_list_in : forall K w x, In x (mat_list K w) <-> exists i j, (i < K)%nat /\ (j < K)%nat /\ x = w i j.
Proof.
  intros K w x. unfold mat_list. rewrite in_flat_map. split.
  - intros (i & Ii & H). apply in_map_iff in H as (j & <- & Ij). apply in_seq in Ii. apply in_seq in Ij. exists i, j. repeat split; lia.
  - intros (i & j & Hi & Hj & ->). exists i. split; [apply in_seq; lia|]. apply in_map_iff. exists j. split; [reflexivity | apply in_seq; lia].
Qed.

(** A new image shows the weight of every connection, none above the top of its colour scale, which some connection reaches. *)
Theorem C114_adjacency_drawing :
  forall m, (0 < dm_K m)%nat ->
  exists im, plot_adjacency m None None = Ok im /\ im_min im = 0 /\
  (forall i j, (i < dm_K m)%nat -> (j < dm_K m)%nat -> im_data im i j = net_weight m i j /\ net_weight m i j <= im_max im) /\
  exists i j, (i < dm_K m)%nat /\ (j < dm_K m)%nat /\ im_max im = net_weight m i j.
Proof.
  intros m HK. unfold plot_adjacency. destruct (mat_list (dm_K m) (W_effective m)) as [|x l] eqn:E.
  - exfalso. assert (I : In (W_effective m 0%nat 0%nat) (mat_list (dm_K m) (W_effective m))) by (apply mat_list_in; exists 0%nat, 0%nat; auto).
    rewrite E in I. destruct I.
  - cbn [bindr]. eexists. split; [reflexivity|]. cbn. split; [reflexivity|]. split.
    + intros i j Hi Hj. split; [apply W_effective_net|]. rewrite <- W_effective_net.
      assert (I : In (W_effective m i j) (x :: l)) by (rewrite <- E; apply mat_list_in; eauto).
      destruct (list_max_ge l x) as (G1 & G2). destruct I as [<-|I]; [exact G1|]. rewrite Forall_forall in G2. now apply G2.
    + pose proof (list_max_in l x) as I. rewrite <- E in I. apply mat_list_in in I as (i & j & Hi & Hj & ->).
      exists i, j. rewrite W_effective_net. auto.
Qed.
Print Assumptions C114_adjacency_drawing.

(** An update shows the weights of the new model ... on the colour scale of the old one. *)
Theorem C114_adjacency_update_partial :
  forall m im vmax, (0 < dm_K m)%nat ->
  exists im', plot_adjacency m (Some im) vmax = Ok im' /\
  (forall i j, im_data im' i j = net_weight m i j) /\ im_min im' = im_min im /\ im_max im' = im_max im.
Proof.
  intros m im vmax HK. unfold plot_adjacency. destruct vmax as [v|].
  - eexists. split; [reflexivity|]. cbn. split; [intros; apply W_effective_net | auto].
  - destruct (mat_list (dm_K m) (W_effective m)) as [|x l] eqn:E.
    + exfalso. assert (I : In (W_effective m 0%nat 0%nat) (mat_list (dm_K m) (W_effective m))) by (apply mat_list_in; exists 0%nat, 0%nat; auto).
      rewrite E in I. destruct I.
    + eexists. split; [reflexivity|]. cbn. split; [intros; apply W_effective_net | auto].
Qed.
Print Assumptions C114_adjacency_update_partial.
(** So the updated image differs from a new drawing of the same model unless the largest weight stayed the same, even when
    the caller passes the new maximum along. *)
Theorem C114_adjacency_scale_refuted :
  forall m im vmax im' fresh, (0 < dm_K m)%nat ->
  plot_adjacency m (Some im) vmax = Ok im' -> plot_adjacency m None None = Ok fresh ->
  im_min im = 0 -> im_max im <> im_max fresh ->
  im' <> fresh /\
  (im_max im < im_max fresh -> exists i j, (i < dm_K m)%nat /\ (j < dm_K m)%nat /\ im_max im' < im_data im' i j).
Proof.
  intros m im vmax im' fresh HK E F Z N.
  destruct (@C114_adjacency_update_partial m im vmax HK) as (i1 & E' & D & _ & X). rewrite E in E'. injection E' as <-.
  destruct (C114_adjacency_drawing m HK) as (i2 & F' & _ & _ & i & j & Hi & Hj & M). rewrite F in F'. injection F' as <-.
  split; [congruence|]. intro L. exists i, j. repeat split; auto. rewrite D, X, <- M. exact L.
Qed.
Print Assumptions C114_adjacency_scale_refuted.

(* ------------------------------------------------------------------ *)
(** ** The rates *)

(** The rate curve of one process of a stored data set, bin by bin. *)
Definition curve_is (m : dmodel) (d : parents) (k : nat) (a : axis) : Prop :=
  ax_T a = pa_T d /\
  forall t, (t < pa_T d)%nat -> ax_x a t = dm_dt m * INR t /\
    ax_y a t = hawkes_rate (dm_K m) (dm_B m) (dm_lam m) (net_weight m) (dm_g m) (pa_F d) t k.
(** The stems of an axis: one for each bin with events, of the height of its count, none for an empty bin. *)
Definition stems_are (dt : R) (d : parents) (k : nat) (l : list (R * Z)) : Prop :=
  NoDup l /\ forall x c, In (x, c) l <-> exists t, (t < pa_T d)%nat /\ pa_S d t k <> 0%Z /\ x = INR t + dt / 2 /\ c = pa_S d t k.

Lemma stems_ok : forall m d k, stems_are (dm_dt m) d k (stems m d k).
Proof.
  intros m d k. unfold stems. split.
  - apply FinFun.Injective_map_NoDup.
    + intros a b H. injection H as H _. apply INR_eq. lra.
    + apply NoDup_filter. apply seq_NoDup.
  - intros x c. rewrite in_map_iff. split.
    + intros (t & E & I). injection E as <- <-. apply filter_In in I as (I & N). apply in_seq in I. exists t.
      split; [lia|]. split; [|auto]. destruct (Z.eqb_spec (pa_S d t k) 0); [discriminate | assumption].
    + intros (t & Ht & N & -> & ->). exists t. split; [reflexivity|]. apply filter_In. split; [apply in_seq; lia|].
      destruct (Z.eqb_spec (pa_S d t k) 0); [contradiction | reflexivity].
Qed.

Lemma plot_data_at : forall m i d, nth_error (dm_data m) i = Some d -> plot_data m (Z.of_nat i) = Ok d.
Proof.
  intros m i d H. assert (L : (i < length (dm_data m))%nat) by (apply nth_error_Some; congruence).
  unfold plot_data. destruct (Z.ltb_spec (Z.of_nat i) (Z.of_nat (length (dm_data m)))); [|lia]. cbn [negb].
  rewrite py_index_nat by lia. now rewrite H.
Qed.
Lemma rate_at : forall m i d, nth_error (dm_data m) i = Some d ->
  exists R_, compute_rate m (Z.of_nat i) None None = Ok (pa_T d, R_) /\
  forall t k, R_ t k = hawkes_rate (dm_K m) (dm_B m) (dm_lam m) (net_weight m) (dm_g m) (pa_F d) t k.
Proof. intros m i d H. apply (@C05_stored_rate_index m i d H). now left. Qed.

(** The highest count of bins lo .. hi-1 of the recording. *)
Definition top_count (d : parents) (K lo hi : nat) (c : Z) : Prop :=
  (exists t k, (lo <= t)%nat /\ (t < hi)%nat /\ (t < pa_T d)%nat /\ (k < K)%nat /\ c = pa_S d t k) /\
  forall t k, (lo <= t)%nat -> (t < hi)%nat -> (t < pa_T d)%nat -> (k < K)%nat -> (pa_S d t k <= c)%Z.

Lemma slice_in : forall d K lo hi x, In x (slice_counts d K lo hi) <->
  exists t k, (lo <= t)%nat /\ (t < hi)%nat /\ (t < pa_T d)%nat /\ (k < K)%nat /\ x = pa_S d t k.
Proof.
  intros d K lo hi x. unfold slice_counts. rewrite in_flat_map. split.
  - intros (t & It & H). apply in_map_iff in H as (k & <- & Ik). apply in_seq in It. apply in_seq in Ik. exists t, k. repeat split; lia.
  - intros (t & k & H1 & H2 & H3 & H4 & ->). exists t. split; [apply in_seq; lia|]. apply in_map_iff. exists k. split; [reflexivity | apply in_seq; lia].
Qed.
Lemma zmax_ge : forall l x, (x <= zmax x l)%Z /\ Forall (fun y => (y <= zmax x l)%Z) l.
Proof.
  unfold zmax. induction l as [|y l IH]; intro x; cbn; [split; [lia | constructor]|].
  destruct (IH (Z.max x y)) as (H1 & H2). split; [lia|]. constructor; [lia|]. exact H2.
Qed.
Lemma zmax_in : forall l x, In (zmax x l) (x :: l).
Proof.
  unfold zmax. induction l as [|y l IH]; intro x; cbn; [now left|].
  destruct (IH (Z.max x y)) as [E|I]; [|now (right; right)].
  rewrite <- E. destruct (Z.max_spec x y) as [(_ & ->)|(_ & ->)]; [right; now left | now left].
Qed.
Lemma slice_max : forall d K lo hi, (0 < K)%nat -> (lo < hi)%nat -> (lo < pa_T d)%nat ->
  exists x l, slice_counts d K lo hi = x :: l /\ top_count d K lo hi (zmax x l).
Proof.
  intros d K lo hi HK H1 H2. destruct (slice_counts d K lo hi) as [|x l] eqn:E.
  - exfalso. assert (I : In (pa_S d lo 0%nat) (slice_counts d K lo hi)) by (apply slice_in; exists lo, 0%nat; repeat split; lia).
    rewrite E in I. destruct I.
  - exists x, l. split; [reflexivity|]. split.
    + apply slice_in. rewrite E. apply zmax_in.
    + intros t k A1 A2 A3 A4. assert (I : In (pa_S d t k) (x :: l)) by (rewrite <- E; apply slice_in; exists t, k; repeat split; lia).
      destruct (zmax_ge l x) as (G1 & G2). destruct I as [<-|I]; [exact G1|]. rewrite Forall_forall in G2. now apply G2.
Qed.

(** A new drawing on K axes, of the whole recording or of bins lo .. hi-1: the curve of every process over all bins, the
    counts of every bin with events, the same vertical scale on every axis, a tenth above the highest count shown. *)
Theorem C114_rates_drawing :
  forall m i d s lo hi, nth_error (dm_data m) i = Some d -> (0 < dm_K m)%nat -> (lo < hi)%nat -> (lo < pa_T d)%nat ->
  (s = Some (lo, hi) \/ (s = None /\ lo = 0%nat /\ hi = pa_T d)) ->
  exists l c, plot_rates m None (AxsList (dm_K m)) true (Z.of_nat i) s = Ok l /\
  length l = dm_K m /\ top_count d (dm_K m) lo hi c /\
  forall k a, nth_error l k = Some a ->
    curve_is m d k a /\ stems_are (dm_dt m) d k (ax_stems a) /\
    ax_xlim a = (INR lo, INR hi) /\ ax_ylim a = (0, 11 / 10 * IZR c).
Proof.
  intros m i d s lo hi H HK H1 H2 Hs. unfold plot_rates. rewrite (plot_data_at _ _ H). cbn [bindr].
  destruct (rate_at _ _ H) as (R_ & E & V). rewrite E. cbn [bindr].
  assert (Q : match s with None => (0%nat, pa_T d) | Some s => s end = (lo, hi)).
  { destruct Hs as [->|(-> & -> & ->)]; reflexivity. }
  rewrite Q. destruct (@slice_max d (dm_K m) lo hi HK H1 H2) as (x & l & El & C). rewrite El. cbn [bindr].
  rewrite Nat.eqb_refl. cbn [guard bindr]. eexists. exists (zmax x l). split; [reflexivity|].
  split; [now rewrite map_length, seq_length|]. split; [exact C|].
  intros k a Ha. rewrite nth_error_map in Ha. destruct (nth_error (seq 0 (dm_K m)) k) as [k'|] eqn:Ek; [|discriminate].
  injection Ha as <-. assert (k' = k).
  { apply nth_error_nth with (d := 0%nat) in Ek as En. assert (k < dm_K m)%nat by (rewrite <- (seq_length (dm_K m) 0); apply nth_error_Some; congruence).
    rewrite seq_nth in En by assumption. lia. }
  subst k'. cbn. split; [split; [reflexivity | intros t Ht; split; [reflexivity | apply V]]|]. split; [apply stems_ok | auto].
Qed.
Print Assumptions C114_rates_drawing.

(** The curve drawn for process k. *)
Definition with_curve (m : dmodel) (d : parents) (R_ : mat) (k : nat) (a : axis) : axis :=
  {| ax_T := pa_T d; ax_x := fun t => dm_dt m * INR t; ax_y := fun t => R_ t k;
     ax_stems := ax_stems a; ax_xlim := ax_xlim a; ax_ylim := ax_ylim a |}.
Lemma rates_update_eq : forall m i d l axs ev R_, nth_error (dm_data m) i = Some d ->
  compute_rate m (Z.of_nat i) None None = Ok (pa_T d, R_) ->
  (0 < dm_K m)%nat -> (0 < pa_T d)%nat -> length l = dm_K m ->
  plot_rates m (Some l) axs ev (Z.of_nat i) None = Ok (map (fun ka => with_curve m d R_ (fst ka) (snd ka)) (combine (seq 0 (dm_K m)) l)).
Proof.
  intros m i d l axs ev R_ H E HK HT HL. unfold plot_rates. rewrite (plot_data_at _ _ H). cbn [bindr]. rewrite E. cbn [bindr].
  destruct (@slice_max d (dm_K m) 0 (pa_T d) HK HT HT) as (x & l0 & El & _). rewrite El. cbn [bindr].
  rewrite <- HL. clear El HK HL. revert l. generalize 0%nat. intros s l. revert s.
  induction l as [|a l IH]; intro s; [reflexivity|]. cbn [length seq combine map]. rewrite IH. reflexivity.
Qed.
Lemma nth_combine : forall (l : list axis) s k a, nth_error l k = Some a -> nth_error (combine (seq s (length l)) l) k = Some ((s + k)%nat, a).
Proof.
  induction l as [|b l IH]; intros s k a H; [destruct k; discriminate|]. destruct k; cbn in *.
  - injection H as <-. now rewrite Nat.add_0_r.
  - rewrite (IH (Datatypes.S s) k a H). f_equal. f_equal. lia.
Qed.

(** An update redraws the curves of the model passed and leaves stems and limits as they were. *)
Theorem C114_rates_update :
  forall m i d l axs ev, nth_error (dm_data m) i = Some d -> (0 < dm_K m)%nat -> (0 < pa_T d)%nat -> length l = dm_K m ->
  exists l', plot_rates m (Some l) axs ev (Z.of_nat i) None = Ok l' /\ length l' = dm_K m /\
  forall k a, nth_error l k = Some a -> exists a', nth_error l' k = Some a' /\
    curve_is m d k a' /\ ax_stems a' = ax_stems a /\ ax_xlim a' = ax_xlim a /\ ax_ylim a' = ax_ylim a.
Proof.
  intros m i d l axs ev H HK HT HL. destruct (rate_at _ _ H) as (R_ & E & V).
  rewrite (@rates_update_eq m i d l axs ev R_ H E HK HT HL). eexists. split; [reflexivity|]. split.
  - rewrite map_length, combine_length, seq_length, HL. apply Nat.min_id.
  - intros k a Ha. exists (with_curve m d R_ k a). split.
    + rewrite nth_error_map, <- HL, (@nth_combine l 0 k a Ha). reflexivity.
    + split; [|auto]. split; [reflexivity|]. intros t Ht. split; [reflexivity | apply V].
Qed.
Print Assumptions C114_rates_update.

(* ------------------------------------------------------------------ *)
(** ** A drawing kept up to date *)

(** Repeated calls of plot with the handles returned by the previous one, as in the examples' sampling loops. *)
Fixpoint replot (h : list arrow * list axis) (i : Z) (ms : list dmodel) : result (list arrow * list axis) :=
  match ms with
  | [] => Ok h
  | m :: ms' => do h' <- plot m (Some h) i None ;; replot h' i ms'
  end.
(** The models share the processes, the bin size and the recording; parameters, parents and filtered data may differ. *)
Definition same_recording (i : nat) (m m' : dmodel) : Prop :=
  dm_K m = dm_K m' /\ dm_dt m = dm_dt m' /\
  exists d d', nth_error (dm_data m) i = Some d /\ nth_error (dm_data m') i = Some d' /\ pa_T d = pa_T d' /\ pa_S d = pa_S d'.

Lemma bind_Ok : forall {A B} (r : result A) (f : A -> result B) b, bindr r f = Ok b -> exists a, r = Ok a /\ f a = Ok b.
Proof. intros A B [a|e] f b H; [eauto | discriminate]. Qed.

Lemma fresh_rates_eq : forall m i d s l, nth_error (dm_data m) i = Some d ->
  plot_rates m None (AxsList (dm_K m)) true (Z.of_nat i) s = Ok l ->
  exists R_ c, compute_rate m (Z.of_nat i) None None = Ok (pa_T d, R_) /\
   (let '(lo, hi) := match s with None => (0%nat, pa_T d) | Some s => s end in
    match slice_counts d (dm_K m) lo hi with [] => Raise ValueError | x :: l => Ok (zmax x l) end = Ok c /\
    l = map (fun k => {| ax_T := pa_T d; ax_x := fun t => dm_dt m * INR t; ax_y := fun t => R_ t k;
                         ax_stems := stems m d k; ax_xlim := (INR lo, INR hi); ax_ylim := (0, 11 / 10 * IZR c) |}) (seq 0 (dm_K m))).
Proof.
  intros m i d s l H E. unfold plot_rates in E. rewrite (plot_data_at _ _ H) in E. cbn [bindr] in E.
  destruct (rate_at _ _ H) as (R_ & ER & V). rewrite ER in E. cbn [bindr snd] in E.
  destruct (match s with None => (0%nat, pa_T d) | Some s0 => s0 end) as (lo, hi) eqn:Es.
  apply bind_Ok in E as (c & Ec & E). rewrite Nat.eqb_refl in E. cbn [guard bindr] in E. injection E as <-.
  exists R_, c. auto.
Qed.
Lemma stems_ext : forall m m' d d' k, dm_dt m = dm_dt m' -> pa_T d = pa_T d' -> pa_S d = pa_S d' -> stems m d k = stems m' d' k.
Proof. intros m m' d d' k E1 E2 E3. unfold stems. now rewrite E1, E2, E3. Qed.

Lemma plot_step : forall i s m m' h, same_recording i m m' -> (0 < dm_K m)%nat ->
  (exists fresh, plot m None (Z.of_nat i) s = Ok fresh /\ ends (fst h) = node_pairs (dm_K m) /\ snd h = snd fresh) ->
  exists h' fresh', plot m' (Some h) (Z.of_nat i) None = Ok h' /\ plot m' None (Z.of_nat i) s = Ok fresh' /\
    ends (fst h') = node_pairs (dm_K m') /\ same_picture (fst h') (fst fresh') /\ snd h' = snd fresh'.
Proof.
  intros i s m m' (net, rates) (EK & Ed & d & d' & Hd & Hd' & ET & ES) HK (fresh & F & En & Er). cbn [fst snd] in *.
  unfold plot in F. cbn [plot_network bindr] in F. apply bind_Ok in F as (l & El & F). injection F as <-. cbn [snd] in Er. subst rates.
  destruct (@fresh_rates_eq m i d s l Hd El) as (R_ & c & _ & Ef).
  destruct (match s with None => (0%nat, pa_T d) | Some s0 => s0 end) as (lo, hi) eqn:Es. destruct Ef as (Ec & ->).
  destruct (@rate_at m' i d' Hd') as (R' & ER' & _).
  rewrite EK in En. destruct (@C114_network_update m' net En) as (net' & U & En' & P).
  assert (HT : (0 < pa_T d')%nat).
  { destruct (pa_T d') eqn:ET'; [|lia]. exfalso. unfold slice_counts in Ec. rewrite ET in Ec. rewrite Nat.min_0_r in Ec. cbn in Ec. discriminate. }
  cbv beta iota delta [plot]. rewrite U. cbn [bindr].
  rewrite (@rates_update_eq m' i d' _ NoAxs true R' Hd' ER') by
    (try exact HT; try lia; rewrite map_length, seq_length; exact EK).
  cbn [bindr plot_network].
  assert (FR : plot_rates m' None (AxsList (dm_K m')) true (Z.of_nat i) s = Ok
     (map (fun k => {| ax_T := pa_T d'; ax_x := fun t => dm_dt m' * INR t; ax_y := fun t => R' t k;
                       ax_stems := stems m' d' k; ax_xlim := (INR lo, INR hi); ax_ylim := (0, 11 / 10 * IZR c) |}) (seq 0 (dm_K m')))).
  { unfold plot_rates. rewrite (plot_data_at _ _ Hd'). cbn [bindr]. rewrite ER'. cbn [bindr snd].
    rewrite <- ET, Es.
    assert (Q : slice_counts d' (dm_K m') lo hi = slice_counts d (dm_K m) lo hi) by (unfold slice_counts; now rewrite <- ET, <- ES, <- EK).
    rewrite Q, Ec. cbn [bindr]. rewrite Nat.eqb_refl. reflexivity. }
  rewrite FR. cbn [bindr]. do 2 eexists. split; [reflexivity|]. split; [reflexivity|]. cbn [fst snd].
  split; [exact En'|]. split; [apply P; reflexivity|].
  rewrite <- EK. clear - Ed ET ES. generalize 0%nat as b. generalize (dm_K m) as n. induction n as [|n IH]; intro b; [reflexivity|].
  cbn [seq map combine]. f_equal; [|apply IH]. unfold with_curve. cbn [fst snd ax_stems ax_xlim ax_ylim].
  now rewrite (@stems_ext m m' d d' b Ed ET ES).
Qed.

Lemma same_recording_K : forall i m m', same_recording i m m' -> dm_K m = dm_K m'.
Proof. now intros i m m' (E & _). Qed.
Lemma same_recording_swap : forall i m m1 m2, same_recording i m m1 -> same_recording i m m2 -> same_recording i m1 m2.
Proof.
  intros i m m1 m2 (K1 & D1 & d & d1 & A & A1 & T1 & S1) (K2 & D2 & d' & d2 & B & A2 & T2 & S2).
  rewrite A in B. injection B as <-. split; [congruence|]. split; [congruence|]. exists d1, d2. repeat split; auto; congruence.
Qed.

(** However often the drawing has been updated, with whatever parameters in between, the network picture and every axis are
    those of a new drawing of the model passed last. *)
Theorem C114_updated_drawing :
  forall i s m0 h0 ms m, plot m0 None (Z.of_nat i) s = Ok h0 -> (0 < dm_K m0)%nat ->
  Forall (same_recording i m0) (ms ++ [m]) ->
  exists h fresh, replot h0 (Z.of_nat i) (ms ++ [m]) = Ok h /\ plot m None (Z.of_nat i) s = Ok fresh /\
    same_picture (fst h) (fst fresh) /\ snd h = snd fresh.
Proof.
  intros i s m0 h0 ms m E HK Hs.
  assert (Inv : exists fresh, plot m0 None (Z.of_nat i) s = Ok fresh /\ ends (fst h0) = node_pairs (dm_K m0) /\ snd h0 = snd fresh).
  { exists h0. split; [exact E|]. split; [|reflexivity]. unfold plot in E. cbn [plot_network bindr] in E.
    apply bind_Ok in E as (l & _ & E). injection E as <-. apply ends_draw. }
  clear E. revert m0 h0 HK Hs Inv. induction ms as [|a ms IH]; intros m0 h0 HK Hs Inv; cbn [List.app replot] in *.
  - inversion Hs; subst. destruct (@plot_step i s m0 m h0 H1 HK Inv) as (h' & fr & E1 & E2 & _ & P & Q).
    rewrite E1. cbn [bindr]. eauto 8.
  - inversion Hs as [|? ? Ha Hr]; subst. destruct (@plot_step i s m0 a h0 Ha HK Inv) as (h' & fr & E1 & E2 & En & P & Q).
    rewrite E1. cbn [bindr]. apply (IH a).
    + rewrite <- (same_recording_K Ha). exact HK.
    + eapply Forall_impl; [|exact Hr]. intros x Hx. now apply (same_recording_swap Ha).
    + exists fr. auto.
Qed.
Print Assumptions C114_updated_drawing.

(* ------------------------------------------------------------------ *)
(** ** What the rate plot gets wrong *)

(** The curve puts bin t at time dt*t, its events are drawn at t + dt/2: inside the time span [dt*t, dt*(t+1)) of their bin
    for every bin of an arbitrarily long recording only when bins are one time unit wide. *)
Theorem C114_stem_in_bin_partial :
  forall dt t, 0 < dt -> (dt * INR t <= INR t + dt / 2 < dt * INR (Datatypes.S t) <-> - dt / 2 <= INR t * (1 - dt) < dt / 2).
Proof. intros dt t H. rewrite S_INR. split; intros; lra. Qed.
Print Assumptions C114_stem_in_bin_partial.
Lemma some_INR_above : forall r, exists n, r < INR n.
Proof.
  intro r. exists (Z.to_nat (up r)). destruct (archimed r) as (H & _). rewrite INR_IZR_INZ.
  apply Rlt_le_trans with (IZR (up r)); [lra|]. apply IZR_le. lia.
Qed.
Theorem C114_stem_position_refuted :
  forall dt, 0 < dt -> dt <> 1 -> exists t0, forall m d k t, dm_dt m = dt -> (t0 <= t)%nat -> (t < pa_T d)%nat -> pa_S d t k <> 0%Z ->
  exists x c, In (x, c) (stems m d k) /\ c = pa_S d t k /\ ~ (dt * INR t <= x < dt * INR (Datatypes.S t)).
Proof.
  intros dt H N. destruct (some_INR_above (dt / Rabs (1 - dt))) as (t0 & Ht0). exists t0. intros m d k t Ed Ht HT NZ.
  exists (INR t + dt / 2), (pa_S d t k). split.
  - apply (proj2 (stems_ok m d k)). exists t. rewrite Ed. auto.
  - split; [reflexivity|]. rewrite C114_stem_in_bin_partial by assumption. intros (A & B).
    assert (P : 0 < Rabs (1 - dt)) by (apply Rabs_pos_lt; lra).
    assert (G : dt < INR t * Rabs (1 - dt)).
    { apply Rlt_le_trans with (INR t0 * Rabs (1 - dt)).
      - apply Rmult_lt_reg_r with (/ Rabs (1 - dt)); [now apply Rinv_0_lt_compat|]. rewrite Rmult_assoc, Rinv_r by lra. unfold Rdiv in Ht0. lra.
      - apply Rmult_le_compat_r; [lra | now apply le_INR]. }
    unfold Rabs in G. destruct (Rcase_abs (1 - dt)); lra.
Qed.
Print Assumptions C114_stem_position_refuted.
(** The horizontal limits are bin numbers where the curve is drawn in time: with bins shorter than a time unit the curve ends
    before the right edge, with longer ones it runs out of the axis. *)
Theorem C114_curve_span_refuted :
  forall m i d l k a, nth_error (dm_data m) i = Some d -> (0 < dm_K m)%nat -> (1 < pa_T d)%nat ->
  plot_rates m None (AxsList (dm_K m)) true (Z.of_nat i) None = Ok l -> nth_error l k = Some a ->
  (dm_dt m <= 1 / 2 -> snd (ax_xlim a) >= 2 * (ax_x a (pa_T d - 1)%nat)) /\
  (2 < dm_dt m -> snd (ax_xlim a) < ax_x a (pa_T d - 1)%nat).
Proof.
  intros m i d l k a H HK HT E Ha.
  destruct (@C114_rates_drawing m i d None 0 (pa_T d) H HK) as (l' & c & E' & _ & _ & V); [lia | lia | auto |].
  rewrite E in E'. injection E' as <-. destruct (V k a Ha) as ((_ & X) & _ & XL & _). destruct (X (pa_T d - 1)%nat) as (Xe & _); [lia|].
  rewrite XL, Xe. cbn [snd]. rewrite minus_INR by lia. cbn [INR]. pose proof (le_INR 2 (pa_T d) HT) as G. cbn [INR] in G. split; intro D; nra.
Qed.
Print Assumptions C114_curve_span_refuted.

(** Called without axes the method does not make its own: it raises. *)
Theorem C114_rates_without_axes_refuted :
  forall m i d ev, nth_error (dm_data m) i = Some d -> (0 < dm_K m)%nat -> (0 < pa_T d)%nat ->
  plot_rates m None NoAxs ev (Z.of_nat i) None = Raise AttributeError.
Proof.
  intros m i d ev H HK HT. unfold plot_rates. rewrite (plot_data_at _ _ H). cbn [bindr].
  destruct (rate_at _ _ H) as (R_ & E & _). rewrite E. cbn [bindr].
  destruct (@slice_max d (dm_K m) 0 (pa_T d) HK HT HT) as (x & l0 & El & _). rewrite El. cbn [bindr].
  destruct (Nat.eqb_spec (dm_K m) 0); [lia | reflexivity].
Qed.
Print Assumptions C114_rates_without_axes_refuted.

(** Updating with another recording replaces the curves and keeps the events of the first one. *)
Theorem C114_other_recording_refuted :
  forall m i j di dj s h h', plot m None (Z.of_nat i) s = Ok h -> plot m (Some h) (Z.of_nat j) None = Ok h' ->
  nth_error (dm_data m) i = Some di -> nth_error (dm_data m) j = Some dj -> (0 < dm_K m)%nat -> (0 < pa_T dj)%nat ->
  forall k a, nth_error (snd h') k = Some a -> (k < dm_K m)%nat ->
  curve_is m dj k a /\ stems_are (dm_dt m) di k (ax_stems a).
Proof.
  intros m i j di dj s (net, rates) (net', rates') E U Hi Hj HK HT k a Ha Hk. cbn [snd] in *.
  unfold plot in E. cbn [plot_network bindr] in E. apply bind_Ok in E as (l & El & E). injection E as _ <-.
  destruct (@fresh_rates_eq m i di s l Hi El) as (R_ & c & _ & Ef).
  destruct (match s with None => (0%nat, pa_T di) | Some s0 => s0 end) as (lo, hi). destruct Ef as (_ & Ef).
  cbv beta iota delta [plot] in U. apply bind_Ok in U as (n' & _ & U). apply bind_Ok in U as (r' & Er & U). injection U as _ ->.
  assert (HL : length l = dm_K m) by (rewrite Ef, map_length, seq_length; reflexivity).
  destruct (@C114_rates_update m j dj l NoAxs true Hj HK HT HL) as (l' & E' & _ & V). rewrite Er in E'. injection E' as <-.
  destruct (nth_error l k) as [b|] eqn:Hb; [|apply nth_error_None in Hb; lia].
  destruct (V k b Hb) as (a' & Ha' & C & St & _). rewrite Ha in Ha'. injection Ha' as <-. split; [exact C|].
  rewrite St. rewrite Ef, nth_error_map in Hb. destruct (nth_error (seq 0 (dm_K m)) k) as [k'|] eqn:Ek; [|discriminate].
  injection Hb as <-. apply nth_error_nth with (d := 0%nat) in Ek. rewrite seq_nth in Ek by assumption. cbn in Ek. subst k'. apply stems_ok.
Qed.
Print Assumptions C114_other_recording_refuted.

(** Non-vacuous: the two-process model with one recording; a second model with the edge removed and another weight. *)
Definition ex_d : parents := mk_parents 3 2 1 1 ex_S (fun _ _ _ => 0).
Definition ex_m1 : dmodel := with_data ex_m [ex_d].
Definition ex_m2 : dmodel :=
  {| dm_K := 2; dm_B := 1; dm_dt := 1; dm_L := 2; dm_L_int := true; dm_bas := dm_bas ex_m; dm_mix := false;
     dm_A := fun _ _ => false; dm_W := fun _ _ => 5; dm_g := fun _ _ _ => 1; dm_lam := fun _ => 2; dm_data := [ex_d] |}.
Example C114_nonvacuous :
  (exists h0, plot ex_m1 None 0 None = Ok h0 /\ exists a, In a (fst h0) /\ ar_visible a = true) /\
  Forall (same_recording 0 ex_m1) ([ex_m2] ++ [ex_m1]) /\ stems ex_m1 ex_d 0 = [(0 + 1 / 2, 2%Z)].
Proof.
  split; [|split; [|reflexivity]].
  - eexists. split; [reflexivity|]. eexists. split; [left; reflexivity|]. reflexivity.
  - repeat constructor; exists ex_d, ex_d; auto.
Qed.
(** An image of a network without edges, updated with the model above: the scale still ends at 0, the edge weighs 1/2. *)
Example C114_scale_nonvacuous :
  exists im im' fresh, plot_adjacency ex_m2 None None = Ok im /\ plot_adjacency ex_m1 (Some im) None = Ok im' /\
    plot_adjacency ex_m1 None None = Ok fresh /\ im_min im = 0 /\ im_max im < im_max fresh.
Proof.
  destruct (@C114_adjacency_drawing ex_m2) as (im & E & Z & _ & i & j & _ & _ & M); [cbn; lia|].
  destruct (@C114_adjacency_drawing ex_m1) as (fr & F & _ & G & _); [cbn; lia|].
  destruct (@C114_adjacency_update_partial ex_m1 im None) as (im' & U & _); [cbn; lia|].
  exists im, im', fr. repeat split; auto. destruct (G 0%nat 1%nat) as (_ & G'); [cbn; lia | cbn; lia |].
  unfold net_weight in *. cbn in *. lra.
Qed.
