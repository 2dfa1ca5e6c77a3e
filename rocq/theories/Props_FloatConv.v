(** * Props_FloatConv: C119, the discrete / continuous conversion in double precision. *)
From Verif Require Import Prelude ExtReal Arrays Spec_Float M_Utils M_FloatConv L_Float L_FloatConv Props_Utils Props_Utils2.
From Flocq Require Import Core.
From Coq Require Import Permutation Lia.
Set Implicit Arguments.
Open Scope R_scope.

Definition raw_events64 (dt : R) (rand : nat -> R) (l : list (nat * nat)) : list (R * nat) :=
  map (fun i => (time64 dt (fst (nth i l (0%nat, 0%nat))) (rand i), snd (nth i l (0%nat, 0%nat)))) (seq 0 (length l)).

Lemma f_d2c_events rand argsort T K S_ dt :
  (0 < K)%nat -> (forall t k, (t < T)%nat -> (k < K)%nat -> (0 <= S_ t k)%Z) -> is_argsort argsort ->
  ((exists s c, In (s, c) (raw_events64 dt rand (raw T K S_)) /\ edge64 dt T <= s) /\ f_discrete_to_continuous rand argsort T K S_ dt = Raise AssertionError) \/
  ((forall s c, In (s, c) (raw_events64 dt rand (raw T K S_)) -> s < edge64 dt T) /\
   exists S' C', f_discrete_to_continuous rand argsort T K S_ dt = Ok (S', C', edge64 dt T) /\ length S' = length C' /\
    Permutation (combine S' C') (raw_events64 dt rand (raw T K S_)) /\
    (forall i j, (i <= j)%nat -> (j < length S')%nat -> nth i S' 0 <= nth j S' 0)).
Proof.
  intros HK Hnn Ha. unfold f_discrete_to_continuous.
  replace (K =? 0)%nat with false by (symmetry; apply Nat.eqb_neq; lia). cbn [negb guard bindr].
  assert (G1 : forall_lt T (fun t => forall_lt K (fun k => (0 <=? S_ t k)%Z)) = true).
  { apply forall_lt_true. intros t Ht. apply forall_lt_true. intros k Hk. apply Z.leb_le. auto. }
  rewrite G1. cbn [guard bindr]. rewrite <- raw_fst, <- raw_snd by exact Hnn. rewrite map_length.
  pose proof (@in_raw T K S_) as Hin. set (l := raw T K S_) in *. clearbody l. unfold raw_events64.
  set (ev := fun i => (time64 dt (fst (nth i l (0%nat, 0%nat))) (rand i), snd (nth i l (0%nat, 0%nat)))).
  assert (ES : map (fun i => b64 (b64 (dt * INR (nth i (map fst l) 0%nat)) + b64 (dt * rand i))) (seq 0 (length l)) = map fst (map ev (seq 0 (length l)))).
  { rewrite map_map. apply map_ext. intros i. unfold ev. cbn [fst]. pose proof (map_nth fst l (0%nat, 0%nat) i) as X. cbn [fst] in X. rewrite X. reflexivity. }
  assert (EC : map snd l = map snd (map ev (seq 0 (length l)))).
  { rewrite map_map. unfold ev. cbn [snd]. rewrite <- (map_nth_seq_u l (0%nat, 0%nat)) at 1. now rewrite map_map. }
  rewrite ES, EC. fold (edge64 dt T). set (es := map ev (seq 0 (length l))) in *. clearbody es. clear ev ES EC.
  destruct (forallb (fun s => Rltb s (edge64 dt T)) (map fst es)) eqn:Ef.
  2:{ left. split; [|reflexivity].
      assert (G : exists s, In s (map fst es) /\ edge64 dt T <= s).
      { clear -Ef. induction (map fst es) as [|a r IH]; [discriminate|]. cbn [forallb] in Ef. destruct (Rltb a (edge64 dt T)) eqn:Ea.
        - destruct IH as (s & H1 & H2); [exact Ef|]. exists s. split; [now right|exact H2].
        - exists a. split; [now left|]. apply Rltb_false in Ea. lra. }
      destruct G as (s & Hs & Hle). apply in_map_iff in Hs as ([s' c] & <- & Hs). exists s', c. split; [exact Hs|exact Hle]. }
  right. split.
  { intros s c Hs. rewrite forallb_forall in Ef. apply Rltb_true. apply Ef. apply (in_map fst) in Hs. exact Hs. }
  cbn [guard bindr]. destruct (Ha (map fst es)) as [Hp Hs]. set (perm := argsort (map fst es)) in *. rewrite map_length in Hp, Hs.
  eexists. eexists. split; [reflexivity|]. split; [now rewrite !map_length|].
  assert (Lp : length perm = length es) by (rewrite (Permutation_length Hp), seq_length; reflexivity). split.
  - rewrite combine_map2. etransitivity; [apply Permutation_map, Hp|].
    assert (Em : map (fun i => (nth i (map fst es) 0, nth i (map snd es) 0%nat)) (seq 0 (length es)) = es).
    { transitivity (map (fun i => nth i es (0, 0%nat)) (seq 0 (length es))); [|apply map_nth_seq_u]. apply map_ext. intros i. pose proof (map_nth fst es (0, 0%nat) i) as X1. pose proof (map_nth snd es (0, 0%nat) i) as X2.
      cbn [fst snd] in X1, X2. rewrite X1, X2. symmetry. apply surjective_pairing. }
    rewrite Em. reflexivity.
  - intros i j Hij Hj. rewrite map_length, Lp in Hj. specialize (Hs i j Hij Hj).
    assert (En : forall i, (i < length es)%nat -> nth i (map (fun i => nth i (map fst es) 0) perm) 0 = nth (nth i perm 0%nat) (map fst es) 0).
    { intros i' Hi'. rewrite (@nth_indep _ _ i' 0 ((fun i => nth i (map fst es) 0) 0%nat)) by (rewrite map_length, Lp; exact Hi').
      now rewrite (map_nth (fun i => nth i (map fst es) 0)). }
    rewrite !En by lia. exact Hs.
Qed.

(** Counts over any non-decreasing edges add up to the number of events between the first and the last edge. *)
Lemma counts_total S_ C_ (n : nat) (edge : nat -> R) : length S_ = length C_ -> C_ <> nil -> (0 < n)%nat -> (forall i, (i < n)%nat -> edge i <= edge (S i)) ->
  (forall s, In s S_ -> edge 0%nat <= s <= edge n) -> (forall c, In c C_ -> (0 <= c)%Z) ->
  Zsum n (fun t => Zsum (Z.to_nat (zmax C_ + 1)) (fun k => histogram (select S_ C_ (Z.of_nat k)) n edge t)) = Z.of_nat (length S_).
Proof.
  intros Hlen HC Hn He HS Hc0. destruct (@zmax_spec C_ HC) as [Hmin Hmax]. set (K := Z.to_nat (zmax C_ + 1)).
  assert (Hcl : length (combine S_ C_) = length S_) by (rewrite combine_length; lia).
  transitivity (Zsum n (fun t => Zsum K (fun k => lsumZ (map (fun sc => b2Z ((snd sc =? Z.of_nat k)%Z && in_bin (Nat.eqb (S t) n) (edge t) (edge (S t)) (fst sc))) (combine S_ C_))))).
  { apply Zsum_ext. intros t Ht. apply Zsum_ext. intros k Hk. rewrite histogram_bin by auto. rewrite select_filter. apply length_filter_sum. }
  transitivity (Zsum n (fun t => lsumZ (map (fun sc => Zsum K (fun k => b2Z ((snd sc =? Z.of_nat k)%Z && in_bin (Nat.eqb (S t) n) (edge t) (edge (S t)) (fst sc)))) (combine S_ C_)))).
  { apply Zsum_ext. intros t Ht. now rewrite Zsum_lsumZ. }
  rewrite Zsum_lsumZ, <- Hcl. apply lsumZ_ones. intros [s c] Hin. cbn [fst snd].
  assert (Hs := HS s (in_combine_l _ _ _ _ Hin)). assert (Hcm : (c <= zmax C_)%Z) by (apply Hmax; exact (in_combine_r _ _ _ _ Hin)).
  assert (Hc := Hc0 c (in_combine_r _ _ _ _ Hin)).
  transitivity (Zsum n (fun t => b2Z (in_bin (Nat.eqb (S t) n) (edge t) (edge (S t)) s))).
  2:{ rewrite bins_sum by auto. unfold in_bin. rewrite (proj2 (Rleb_true _ _)) by lra. rewrite (proj2 (Rleb_true _ _)) by lra. reflexivity. }
  apply Zsum_ext. intros t Ht. rewrite (@Zsum_pick K (Z.to_nat c)).
  - rewrite Z2Nat.id, Z.eqb_refl by lia. reflexivity.
  - unfold K. lia.
  - intros j Hj Hne. destruct (Z.eqb_spec c (Z.of_nat j)); [lia|reflexivity].
Qed.

(** The way back on the grid of the way there. *)
Lemma f_c2d_grid S_ C_ dt T : width_ok dt -> (0 < T)%nat -> INR T <= bpow radix2 50 -> length S_ = length C_ -> C_ <> nil ->
  (forall s, In s S_ -> 0 <= s <= edge64 dt T) -> (forall c, In c C_ -> (0 <= c)%Z) ->
  exists cnt, f_continuous_to_discrete S_ C_ dt 0 (edge64 dt T) = Ok (T, Z.to_nat (zmax C_ + 1), cnt) /\
    forall t k, (t < T)%nat -> cnt t k = events_in Z.eqb (Nat.eqb (S t) T) (edge64 dt t) (edge64 dt (S t)) (Z.of_nat k) S_ C_.
Proof.
  intros Hw HT HT50 Hlen HC HS Hc. pose proof (width_pos Hw) as Hp. unfold f_continuous_to_discrete.
  rewrite (proj2 (Rltb_true _ _) Hp). cbn [guard bindr]. set (n := f_arange_len 0 (edge64 dt T) dt).
  assert (Hn : n = T \/ n = S T) by now apply f_arange_len_0. clearbody n.
  replace (Nat.eqb n 0) with false by (symmetry; apply Nat.eqb_neq; lia). cbn [negb guard bindr].
  assert (Hnb : ((if Reqb (f_arange 0 dt (n - 1)) (edge64 dt T) then n else S n) - 1)%nat = T).
  { rewrite f_arange_0 by exact Hw. destruct Hn as [->| ->].
    - rewrite (proj2 (Reqb_false _ _)); [lia|]. pose proof (edge64_lt_last Hw HT HT50). lra.
    - replace (S T - 1)%nat with T by lia. rewrite (proj2 (Reqb_true _ _) eq_refl). lia. }
  rewrite Hnb. set (edge := fun i => if Nat.ltb i n then f_arange 0 dt i else edge64 dt T).
  assert (Hedge : forall i, (i <= T)%nat -> edge i = edge64 dt i).
  { intros i Hi. unfold edge. rewrite f_arange_0 by exact Hw. destruct (Nat.ltb_spec i n); [reflexivity|]. f_equal. lia. }
  assert (He : forall i, (i < T)%nat -> edge i <= edge (S i)) by (intros i Hi; rewrite !Hedge by lia; apply edge64_le; auto).
  replace (Nat.eqb (length C_) 0) with false by (symmetry; apply Nat.eqb_neq; destruct C_; [easy|discriminate]). cbn [negb guard bindr].
  destruct (@zmax_spec C_ HC) as [Hmin Hmax]. pose proof (Hc _ Hmin) as Hz.
  replace (0 <=? zmax C_ + 1)%Z with true by (symmetry; apply Z.leb_le; lia). cbn [guard bindr].
  rewrite Hlen, Nat.eqb_refl. cbn [orb guard bindr].
  assert (G : forall_lt T (fun i => Rleb (edge i) (edge (S i))) = true) by (apply forall_lt_true; intros i Hi; apply Rleb_true; auto).
  unfold edge in G at 1 2. rewrite G. clear G.
  assert (Go : ((zmax C_ + 1 =? 0)%Z || true)%bool = true) by apply orb_true_r. rewrite Go. cbn [guard bindr].
  rewrite (@counts_total S_ C_ T edge Hlen HC HT He).
  2:{ intros s Hs. rewrite !Hedge by lia. specialize (HS s Hs). unfold edge64 at 1. cbn [INR]. rewrite Rmult_0_l, (b64_id is64_0). exact HS. }
  2: exact Hc.
  rewrite Hlen, Z.eqb_refl. cbn [guard bindr]. eexists. split; [reflexivity|]. intros t k Ht. cbv beta.
  rewrite histogram_bin by auto. rewrite select_filter. rewrite !Hedge by lia. reflexivity.
Qed.

(** What the round trip does, in terms of the events' rounded times. *)
Lemma round_trip64 rand argsort T K S_ dt :
  (0 < K)%nat -> width_ok dt -> INR T <= bpow radix2 50 -> (forall t k, (t < T)%nat -> (k < K)%nat -> (0 <= S_ t k)%Z) ->
  (forall i, uniform64 (rand i)) -> is_argsort argsort ->
  ((exists s c, In (s, c) (raw_events64 dt rand (raw T K S_)) /\ edge64 dt T <= s) /\ f_discrete_to_continuous rand argsort T K S_ dt = Raise AssertionError) \/
  exists S' C', f_discrete_to_continuous rand argsort T K S_ dt = Ok (S', C', edge64 dt T) /\ length S' = length C' /\
    (forall s, In s S' -> 0 <= s < edge64 dt T) /\ (forall c, In c C' -> (c < K)%nat) /\
    (forall i j, (i <= j)%nat -> (j < length S')%nat -> nth i S' 0 <= nth j S' 0) /\
    ((exists t k, (t < T)%nat /\ (k < K)%nat /\ (0 < S_ t k)%Z) ->
     exists K' cnt, f_continuous_to_discrete S' (map Z.of_nat C') dt 0 (edge64 dt T) = Ok (T, K', cnt) /\ (K' <= K)%nat /\
       (forall t k, (t < T)%nat -> (K' <= k)%nat -> (k < K)%nat -> S_ t k = 0%Z) /\
       (forall t k, (t < T)%nat -> (k < K')%nat -> cnt t k = lsumZ (map (fun i => b2Z (Nat.eqb (snd (nth i (raw T K S_) (0%nat, 0%nat))) k &&
           in_bin (Nat.eqb (S t) T) (edge64 dt t) (edge64 dt (S t)) (time64 dt (fst (nth i (raw T K S_) (0%nat, 0%nat))) (rand i)))) (seq 0 (length (raw T K S_)))))).
Proof.
  intros HK Hw HT50 Hnn Hr Ha. destruct (@f_d2c_events rand argsort T K S_ dt HK Hnn Ha) as [Hbad|(Hlt & S' & C' & E & HL & HP & Hsrt)]; [now left|right].
  assert (Hpair : forall s c, In (s, c) (combine S' C') <-> exists i t, (i < length (raw T K S_))%nat /\ nth i (raw T K S_) (0%nat, 0%nat) = (t, c) /\ s = time64 dt t (rand i)).
  { intros s c. split.
    - intros H. apply (Permutation_in _ HP) in H. unfold raw_events64 in H. apply in_map_iff in H as (i & Hi & Hin). apply in_seq in Hin.
      destruct (nth i (raw T K S_) (0%nat, 0%nat)) as [t c'] eqn:En. cbn [fst snd] in Hi. injection Hi as <- <-. exists i, t. split; [lia|]. auto.
    - intros (i & t & Hi & En & ->). apply (Permutation_in _ (Permutation_sym HP)). unfold raw_events64. apply in_map_iff. exists i. rewrite En. cbn [fst snd]. split; [reflexivity|]. apply in_seq. lia. }
  assert (Hin : forall s c, In (s, c) (combine S' C') -> 0 <= s < edge64 dt T /\ (c < K)%nat).
  { intros s c H. assert (H' := Permutation_in _ HP H). apply Hlt in H'. apply Hpair in H as (i & t & Hi & En & ->). assert (X := nth_In (raw T K S_) (0%nat, 0%nat) Hi). rewrite En in X. apply in_raw in X as (Ht & Hc & _).
    split; [split; [|exact H']|exact Hc]. destruct (@time64_bounds dt t (rand i) Hw (Hr i)) as [A _]. eapply Rle_trans; [|exact A]. apply b64_nonneg, Rmult_le_pos; [apply pos_INR|]. apply width_pos in Hw. lra. }
  assert (HS : forall s, In s S' -> 0 <= s < edge64 dt T). { intros s Hs. destruct (@in_split_combine _ _ S' C' s HL Hs) as (c & Hc). now apply Hin in Hc. }
  assert (HC : forall c, In c C' -> (c < K)%nat). { intros c Hc. destruct (@in_split_combine_r _ _ S' C' c HL Hc) as (s & Hs). now apply Hin in Hs. }
  exists S', C'. split; [exact E|]. split; [exact HL|]. split; [exact HS|]. split; [exact HC|]. split; [exact Hsrt|].
  intros (t0 & k0 & Ht0 & Hk0 & Hp0).
  assert (HCin : forall t c, (t < T)%nat -> (c < K)%nat -> (0 < S_ t c)%Z -> In c C').
  { intros t c Ht Hc Hp. assert (X := raw_in _ Ht Hc Hp). apply In_nth with (d := (0%nat, 0%nat)) in X as (i & Hi & En).
    apply (in_combine_r S' C' (time64 dt t (rand i))). apply Hpair. exists i, t. auto. }
  assert (HneC := HCin _ _ Ht0 Hk0 Hp0).
  assert (HneZ : map Z.of_nat C' <> nil) by (destruct C'; [destruct HneC|discriminate]).
  destruct (@f_c2d_grid S' (map Z.of_nat C') dt T Hw) as (cnt & Ec & Hcnt); auto; try lia.
  { now rewrite map_length. }
  { intros s Hs. specialize (HS s Hs). lra. }
  { intros c Hc. apply in_map_iff in Hc as (m & <- & _). lia. }
  destruct (@zmax_spec _ HneZ) as [Hmin Hmax]. apply in_map_iff in Hmin as (cm & Ecm & Hcm). pose proof (HC cm Hcm) as HcmK.
  set (K' := Z.to_nat (zmax (map Z.of_nat C') + 1)) in *.
  assert (HK' : (K' <= K)%nat) by (unfold K'; lia).
  exists K', cnt. split; [exact Ec|]. split; [exact HK'|]. split.
  { intros t k Ht Hk1 Hk2. destruct (Z.eq_dec (S_ t k) 0) as [|Hne]; [auto|]. exfalso. assert (Hk : In k C') by (apply (HCin t); auto; specialize (Hnn t k Ht Hk2); lia).
    specialize (Hmax (Z.of_nat k) (in_map _ _ _ Hk)). unfold K' in Hk1. lia. }
  intros t k Ht Hk. rewrite Hcnt by auto. unfold events_in. rewrite length_filter_sum.
  assert (Ecb : combine S' (map Z.of_nat C') = map (fun sc => (fst sc, Z.of_nat (snd sc))) (combine S' C')).
  { clear. revert C'. induction S' as [|a S' IH]; intros [|b C']; cbn; try reflexivity. now rewrite IH. }
  rewrite Ecb, map_map. cbn [fst snd].
  rewrite (lsumZ_perm (Permutation_map (fun x => b2Z ((Z.of_nat (snd x) =? Z.of_nat k)%Z && in_bin (S t =? T)%nat (edge64 dt t) (edge64 dt (S t)) (fst x))) HP)).
  unfold raw_events64. rewrite map_map. cbn [fst snd]. f_equal. apply map_ext. intros i. f_equal. f_equal.
  destruct (Z.eqb_spec (Z.of_nat (snd (nth i (raw T K S_) (0%nat, 0%nat)))) (Z.of_nat k)); destruct (Nat.eqb_spec (snd (nth i (raw T K S_) (0%nat, 0%nat))) k); try reflexivity; lia.
Qed.

(** ** C119: the round trip is exact if no uniform number is within T 2^-51 of one. *)
Theorem C119_round_trip_partial :
  forall rand argsort T K S_ dt,
    (0 < K)%nat -> width_ok dt -> INR T <= bpow radix2 50 -> (forall t k, (t < T)%nat -> (k < K)%nat -> (0 <= S_ t k)%Z) ->
    is_argsort argsort -> (forall i, uniform64 (rand i)) -> (forall i, rand i <= 1 - INR T * bpow radix2 (-51)) ->
    exists S' C', f_discrete_to_continuous rand argsort T K S_ dt = Ok (S', C', b64 (INR T * dt)) /\
      length S' = length C' /\ (forall s, In s S' -> 0 <= s < b64 (INR T * dt)) /\ (forall c, In c C' -> (c < K)%nat) /\
      (forall i j, (i <= j)%nat -> (j < length S')%nat -> nth i S' 0 <= nth j S' 0) /\
      ((exists t k, (t < T)%nat /\ (k < K)%nat /\ (0 < S_ t k)%Z) ->
         exists K' cnt, f_continuous_to_discrete S' (map Z.of_nat C') dt 0 (b64 (INR T * dt)) = Ok (T, K', cnt) /\
           (K' <= K)%nat /\ (forall t k, (t < T)%nat -> (k < K')%nat -> cnt t k = S_ t k) /\
           (forall t k, (t < T)%nat -> (K' <= k)%nat -> (k < K)%nat -> S_ t k = 0%Z)).
Proof.
  intros rand argsort T K S_ dt HK Hw HT50 Hnn Ha Hr Hr1. fold (edge64 dt T).
  assert (Hr2 : forall i, rand i <= 1 - 4 * INR T * u64).
  { intros i. specialize (Hr1 i). rewrite u64_val. change (bpow radix2 (-51)) with (/ 2251799813685248) in Hr1. lra. }
  assert (Hbin : forall i, (i < length (raw T K S_))%nat -> let t := fst (nth i (raw T K S_) (0%nat, 0%nat)) in
     (t < T)%nat /\ edge64 dt t <= time64 dt t (rand i) < edge64 dt (S t)).
  { intros i Hi t. assert (X := nth_In (raw T K S_) (0%nat, 0%nat) Hi). unfold t. destruct (nth i (raw T K S_) (0%nat, 0%nat)) as [t' k']. apply in_raw in X as (Ht & _). cbn [fst].
    split; [exact Ht|]. split; [apply time64_bounds; auto|]. apply (@time64_in_bin dt t' (rand i) T); auto. }
  destruct (@round_trip64 rand argsort T K S_ dt HK Hw HT50 Hnn Hr Ha) as [((s & c & Hin & Hs) & _)|(S' & C' & E & HL & HS & HC & Hsrt & Hback)].
  { exfalso. unfold raw_events64 in Hin. apply in_map_iff in Hin as (i & Ei & Hi). apply in_seq in Hi. injection Ei as <- _.
    destruct (Hbin i ltac:(lia)) as [Ht Hb]. pose proof (@edge64_le dt (S (fst (nth i (raw T K S_) (0%nat, 0%nat)))) T Hw ltac:(lia)). lra. }
  exists S', C'. do 5 (split; [assumption|]). intros Hex. destruct (Hback Hex) as (K' & cnt & Ec & HK' & Hz & Hcnt).
  exists K', cnt. split; [exact Ec|]. split; [exact HK'|]. split; [|exact Hz]. intros t k Ht Hk. rewrite Hcnt by auto.
  rewrite <- (@raw_count T K S_ t k Ht ltac:(lia) ltac:(apply Hnn; lia)).
  transitivity (lsumZ (map (fun r => b2Z (Nat.eqb (snd r) k && Nat.eqb (fst r) t)) (map (fun i => nth i (raw T K S_) (0%nat, 0%nat)) (seq 0 (length (raw T K S_)))))); [|now rewrite map_nth_seq_u].
  rewrite map_map. f_equal. apply map_ext_in. intros i Hi. apply in_seq in Hi. destruct (Hbin i ltac:(lia)) as [Hti Hb]. f_equal. f_equal.
  set (ti := fst (nth i (raw T K S_) (0%nat, 0%nat))) in *. unfold in_bin. destruct (Nat.eqb_spec ti t) as [->|Hne].
  - rewrite (proj2 (Rleb_true _ _)) by lra. cbn [andb]. destruct (S t =? T)%nat; [apply Rleb_true|apply Rltb_true]; lra.
  - destruct (Nat.lt_ge_cases ti t) as [Hl|Hl].
    + pose proof (@edge64_le dt (S ti) t Hw ltac:(lia)). rewrite (proj2 (Rleb_false _ _)) by lra. reflexivity.
    + pose proof (@edge64_le dt (S t) ti Hw ltac:(lia)). replace (S t =? T)%nat with false by (symmetry; apply Nat.eqb_neq; lia).
      rewrite (proj2 (Rltb_false _ _)) by lra. apply andb_false_r.
Qed.

(** ** Whatever the uniform numbers: AssertionError, or every event is counted in its own bin or the next one. *)
Lemma raw_cumulative T K S_ n k : (n <= T)%nat -> (k < K)%nat -> (forall t, (t < T)%nat -> (0 <= S_ t k)%Z) ->
  lsumZ (map (fun r => b2Z (Nat.eqb (snd r) k && Nat.ltb (fst r) n)) (raw T K S_)) = Zsum n (fun t => S_ t k).
Proof.
  intros Hn Hk Hnn. rewrite (@Zsum_ext n _ (fun t => lsumZ (map (fun r => b2Z (Nat.eqb (snd r) k && Nat.eqb (fst r) t)) (raw T K S_)))).
  2:{ intros t Ht. symmetry. apply raw_count; auto; try lia. apply Hnn. lia. }
  rewrite Zsum_lsumZ. f_equal. apply map_ext. intros [t' k']. cbn [fst snd]. destruct (k' =? k)%nat; cbn [andb]; [|symmetry; now apply Zsum_0].
  destruct (Nat.ltb_spec t' n) as [H|H].
  - rewrite (@Zsum_pick n t'); [now rewrite Nat.eqb_refl|exact H|]. intros j Hj Hne. destruct (Nat.eqb_spec t' j); [lia|reflexivity].
  - symmetry. apply Zsum_0. intros j Hj. destruct (Nat.eqb_spec t' j); [lia|reflexivity].
Qed.
Lemma raw_cumulative_idx T K S_ n k : (n <= T)%nat -> (k < K)%nat -> (forall t, (t < T)%nat -> (0 <= S_ t k)%Z) ->
  lsumZ (map (fun i => b2Z (Nat.eqb (snd (nth i (raw T K S_) (0%nat, 0%nat))) k && Nat.ltb (fst (nth i (raw T K S_) (0%nat, 0%nat))) n)) (seq 0 (length (raw T K S_)))) = Zsum n (fun t => S_ t k).
Proof.
  intros Hn Hk Hnn. rewrite <- (@raw_cumulative T K S_ n k Hn Hk Hnn). 
  transitivity (lsumZ (map (fun r => b2Z (Nat.eqb (snd r) k && Nat.ltb (fst r) n)) (map (fun i => nth i (raw T K S_) (0%nat, 0%nat)) (seq 0 (length (raw T K S_)))))); [now rewrite map_map|now rewrite map_nth_seq_u].
Qed.
Lemma lsumZ_le {A} (f g : A -> Z) l : (forall x, In x l -> (f x <= g x)%Z) -> (lsumZ (map f l) <= lsumZ (map g l))%Z.
Proof. induction l as [|a l IH]; intros H; cbn [map lsumZ]; [lia|]. specialize (IH (fun x Hx => H x (or_intror Hx))). specialize (H a (or_introl eq_refl)). lia. Qed.

Theorem C119_own_or_next_bin :
  forall rand argsort T K S_ dt,
    (0 < K)%nat -> width_ok dt -> INR T <= bpow radix2 50 -> (forall t k, (t < T)%nat -> (k < K)%nat -> (0 <= S_ t k)%Z) ->
    is_argsort argsort -> (forall i, uniform64 (rand i)) ->
    f_discrete_to_continuous rand argsort T K S_ dt = Raise AssertionError \/
    exists S' C', f_discrete_to_continuous rand argsort T K S_ dt = Ok (S', C', b64 (INR T * dt)) /\
      ((exists t k, (t < T)%nat /\ (k < K)%nat /\ (0 < S_ t k)%Z) ->
         exists K' cnt, f_continuous_to_discrete S' (map Z.of_nat C') dt 0 (b64 (INR T * dt)) = Ok (T, K', cnt) /\
           (K' <= K)%nat /\ (forall t k, (t < T)%nat -> (K' <= k)%nat -> (k < K)%nat -> S_ t k = 0%Z) /\
           (forall k, (k < K')%nat -> Zsum T (fun t => cnt t k) = Zsum T (fun t => S_ t k)) /\
           (forall t k, (t < T)%nat -> (k < K')%nat ->
              (Zsum t (fun t' => S_ t' k) <= Zsum (S t) (fun t' => cnt t' k) <= Zsum (S t) (fun t' => S_ t' k))%Z)).
Proof.
  intros rand argsort T K S_ dt HK Hw HT50 Hnn Ha Hr. fold (edge64 dt T).
  destruct (@f_d2c_events rand argsort T K S_ dt HK Hnn Ha) as [[_ Hbad]|(Hlt & _)]; [now left|right].
  assert (Hbin : forall i, (i < length (raw T K S_))%nat -> let t := fst (nth i (raw T K S_) (0%nat, 0%nat)) in
     (t < T)%nat /\ edge64 dt t <= time64 dt t (rand i) < edge64 dt (S (S t)) /\ time64 dt t (rand i) < edge64 dt T).
  { intros i Hi t. assert (X := nth_In (raw T K S_) (0%nat, 0%nat) Hi). split; [|split].
    - unfold t. destruct (nth i (raw T K S_) (0%nat, 0%nat)) as [t' k']. apply in_raw in X as (Ht & _). exact Ht.
    - split; [apply time64_bounds; auto|]. apply (@time64_near_bin dt t (rand i) T); auto. unfold t. destruct (nth i (raw T K S_) (0%nat, 0%nat)) as [t' k']. apply in_raw in X as (Ht & _). exact Ht.
    - apply (Hlt _ (snd (nth i (raw T K S_) (0%nat, 0%nat)))). unfold raw_events64. apply in_map_iff. exists i. split; [reflexivity|]. apply in_seq. lia. }
  destruct (@round_trip64 rand argsort T K S_ dt HK Hw HT50 Hnn Hr Ha) as [((s & c & Hin & Hs) & _)|(S' & C' & E & HL & HS & HC & Hsrt & Hback)].
  { exfalso. apply Hlt in Hin. lra. }
  exists S', C'. split; [exact E|]. intros Hex. destruct (Hback Hex) as (K' & cnt & Ec & HK' & Hz & Hcnt).
  exists K', cnt. split; [exact Ec|]. split; [exact HK'|]. split; [exact Hz|].
  assert (Hcum : forall n k, (n <= T)%nat -> (k < K')%nat -> Zsum n (fun t => cnt t k) =
    lsumZ (map (fun i => b2Z (Nat.eqb (snd (nth i (raw T K S_) (0%nat, 0%nat))) k && Rltb (time64 dt (fst (nth i (raw T K S_) (0%nat, 0%nat))) (rand i)) (edge64 dt n))) (seq 0 (length (raw T K S_))))).
  { intros n k Hn Hk. rewrite (@Zsum_ext n _ (fun t => lsumZ (map (fun i => b2Z (Nat.eqb (snd (nth i (raw T K S_) (0%nat, 0%nat))) k &&
           in_bin (Nat.eqb (S t) T) (edge64 dt t) (edge64 dt (S t)) (time64 dt (fst (nth i (raw T K S_) (0%nat, 0%nat))) (rand i)))) (seq 0 (length (raw T K S_)))))) by (intros t Ht; apply Hcnt; lia).
    rewrite Zsum_lsumZ. f_equal. apply map_ext_in. intros i Hi. apply in_seq in Hi. destruct (Hbin i ltac:(lia)) as (Hti & Hb & HbT).
    destruct (Nat.eqb (snd (nth i (raw T K S_) (0%nat, 0%nat))) k); cbn [andb]; [|now apply Zsum_0].
    set (s := time64 dt (fst (nth i (raw T K S_) (0%nat, 0%nat))) (rand i)) in *.
    rewrite (@Zsum_ext n _ (fun t => b2Z (in_bin false (edge64 dt t) (edge64 dt (S t)) s))).
    2:{ intros t Ht. f_equal. unfold in_bin. destruct (Nat.eqb_spec (S t) T) as [->|]; [|reflexivity]. f_equal. rewrite (proj2 (Rleb_true _ _)) by lra. now rewrite (proj2 (Rltb_true _ _)). }
    rewrite halfopen_sum by (intros; apply edge64_le; auto). unfold in_bin. rewrite (proj2 (Rleb_true _ _)); [reflexivity|].
    eapply Rle_trans; [|apply Hb]. apply edge64_le; auto. lia. }
  split.
  - intros k Hk. rewrite Hcum by auto. rewrite <- (@raw_cumulative_idx T K S_ T k); auto; try lia.
    2:{ intros. apply Hnn; lia. }
    f_equal. apply map_ext_in. intros i Hi. apply in_seq in Hi. destruct (Hbin i ltac:(lia)) as (Hti & _ & HbT).
    rewrite (proj2 (Rltb_true _ _) HbT), (proj2 (Nat.ltb_lt _ _) Hti). reflexivity.
  - intros t k Ht Hk. rewrite Hcum by (auto; lia). rewrite <- (@raw_cumulative_idx T K S_ t k), <- (@raw_cumulative_idx T K S_ (S t) k); try lia; try (intros; apply Hnn; lia).
    split; apply lsumZ_le; intros i Hi; apply in_seq in Hi; destruct (Hbin i ltac:(lia)) as (Hti & Hb & HbT);
      set (ti := fst (nth i (raw T K S_) (0%nat, 0%nat))) in *; destruct (Nat.eqb (snd (nth i (raw T K S_) (0%nat, 0%nat))) k); cbn [andb]; try reflexivity.
    + destruct (Nat.ltb_spec ti t) as [Hl|Hl]; [|destruct (Rltb _ _); cbn; lia]. rewrite (proj2 (Rltb_true _ _)); [reflexivity|].
      pose proof (@edge64_le dt (S (S ti)) (S t) Hw ltac:(lia)). lra.
    + destruct (Nat.ltb_spec ti (S t)) as [Hl|Hl]; [destruct (Rltb _ _); cbn; lia|]. rewrite (proj2 (Rltb_false _ _)); [reflexivity|].
      pose proof (@edge64_le dt (S t) ti Hw ltac:(lia)). lra.
Qed.

(** ** Refutations *)
Lemma is64_dyadic m e : (Z.abs m < 2 ^ 53)%Z -> (-1074 <= e)%Z -> is64 (IZR m * bpow radix2 e).
Proof.
  intros Hm He. apply generic_format_FLT. exists (Float radix2 m e); [reflexivity| |exact He]. cbn [Fnum]. exact Hm.
Qed.
(** The largest number np.random.rand returns. *)
Definition top : R := 1 - bpow radix2 (-53).
Lemma top_val : top = 9007199254740991 / 9007199254740992.
Proof. unfold top. change (bpow radix2 (-53)) with (/ 9007199254740992). lra. Qed.
Lemma top_uniform : uniform64 top.
Proof.
  split; [|split].
  - replace top with (IZR 9007199254740991 * bpow radix2 (-53)) by (change (bpow radix2 (-53)) with (/ 9007199254740992); rewrite top_val; lra).
    apply is64_dyadic; lia.
  - rewrite top_val. lra.
  - right. rewrite top_val. change (bpow radix2 (-53)) with (/ 9007199254740992). lra.
Qed.
Lemma width_1 : width_ok 1.
Proof. split; [exact is64_1|]. split; [apply (bpow_le radix2 (-900) 0)|apply (bpow_le radix2 0 900)]; lia. Qed.
Lemma b64_nat n : INR n <= bpow radix2 53 -> b64 (INR n) = INR n.
Proof. intros H. apply b64_id. now apply is64_nat. Qed.
Lemma edge64_1 n : INR n <= bpow radix2 53 -> edge64 1 n = INR n.
Proof. intros H. unfold edge64. rewrite Rmult_1_r. now apply b64_nat. Qed.
Lemma time_top : time64 1 2 top = 3.
Proof.
  unfold time64. rewrite !Rmult_1_l. rewrite b64_nat by (change (bpow radix2 53) with 9007199254740992; cbn; lra).
  rewrite (b64_id (proj1 top_uniform)). rewrite (@b64_eval _ 6755399441055744 (-51)).
  - change (bpow radix2 (-51)) with (/ 2251799813685248). lra.
  - lia.
  - lia.
  - change (bpow radix2 (- -51)) with 2251799813685248. change (bpow radix2 52) with 4503599627370496. change (bpow radix2 53) with 9007199254740992. rewrite top_val. cbn [INR]. lra.
  - change (bpow radix2 (- -51)) with 2251799813685248. rewrite top_val. cbn [INR]. apply Rabs_lt. lra.
Qed.

(** One event in the last of three bins of width one, the uniform number as large as it can be: AssertionError. *)
Theorem C119_no_failure_refuted :
  exists rand S_, (forall i, uniform64 (rand i)) /\ (forall t k, (t < 3)%nat -> (k < 1)%nat -> (0 <= S_ t k)%Z) /\
    width_ok 1 /\ forall argsort, f_discrete_to_continuous rand argsort 3 1 S_ 1 = Raise AssertionError.
Proof.
  exists (fun _ => top), (fun t _ => if Nat.eqb t 2 then 1%Z else 0%Z). split; [intros; apply top_uniform|]. split; [intros t k _ _; destruct (t =? 2)%nat; lia|].
  split; [exact width_1|]. intros argsort. unfold f_discrete_to_continuous. cbn [ibincount]. fold (edge64 1 3). rewrite edge64_1 by (change (bpow radix2 53) with 9007199254740992; cbn; lra).
  cbn [negb Nat.eqb guard bindr forall_lt forallb seq map andb Z.leb Z.compare]. unfold ibincount. cbn [seq map concat Nat.eqb Z.to_nat app repeat]. change (Pos.to_nat 1) with 1%nat. cbn [repeat app length seq map nth].
  fold (time64 1 2 top). rewrite time_top. cbn [forallb]. rewrite (proj2 (Rltb_false _ _)) by (cbn; lra). reflexivity.
Qed.

(** With a fourth bin after it, the event comes back in that bin. *)
Theorem C119_round_trip_refuted :
  exists rand argsort S_ S' C' K' cnt, (forall i, uniform64 (rand i)) /\ is_argsort argsort /\ (forall t k, (t < 4)%nat -> (k < 1)%nat -> (0 <= S_ t k)%Z) /\
    width_ok 1 /\ f_discrete_to_continuous rand argsort 4 1 S_ 1 = Ok (S', C', 4) /\
    f_continuous_to_discrete S' (map Z.of_nat C') 1 0 4 = Ok (4%nat, K', cnt) /\
    S_ 2%nat 0%nat = 1%Z /\ cnt 2%nat 0%nat = 0%Z /\ S_ 3%nat 0%nat = 0%Z /\ cnt 3%nat 0%nat = 1%Z.
Proof.
  assert (E4 : edge64 1 4 = 4) by (rewrite edge64_1 by (change (bpow radix2 53) with 9007199254740992; cbn; lra); cbn; lra).
  assert (E3 : edge64 1 3 = 3) by (rewrite edge64_1 by (change (bpow radix2 53) with 9007199254740992; cbn; lra); cbn; lra).
  assert (E2 : edge64 1 2 = 2) by (rewrite edge64_1 by (change (bpow radix2 53) with 9007199254740992; cbn; lra); cbn; lra).
  destruct (@f_c2d_grid (3 :: nil) (0%Z :: nil) 1 4 width_1) as (cnt & Ec & Hcnt).
  { lia. } { change (bpow radix2 50) with 1125899906842624. cbn. lra. } { reflexivity. } { discriminate. }
  { intros s [<-|[]]. rewrite E4. lra. } { intros c [<-|[]]. lia. }
  exists (fun _ => top), argsort_ex, (fun t _ => if Nat.eqb t 2 then 1%Z else 0%Z), (3 :: nil), (0%nat :: nil), 1%nat, cnt.
  split; [intros; apply top_uniform|]. split; [apply argsort_exists|]. split; [intros t k _ _; destruct (t =? 2)%nat; lia|]. split; [exact width_1|]. split; [|split].
  - unfold f_discrete_to_continuous. fold (edge64 1 4). rewrite E4.
    cbn [negb Nat.eqb guard bindr forall_lt forallb seq map andb Z.leb Z.compare]. unfold ibincount. cbn [seq map concat Nat.eqb Z.to_nat app repeat]. change (Pos.to_nat 1) with 1%nat. cbn [repeat app length seq map nth].
    fold (time64 1 2 top). rewrite time_top. cbn [forallb]. rewrite (proj2 (Rltb_true _ _)) by lra. cbn [andb guard bindr]. reflexivity.
  - rewrite E4 in Ec. exact Ec.
  - split; [reflexivity|]. split; [|split; [reflexivity|]]; rewrite Hcnt by lia; unfold events_in, in_bin; cbn [combine filter fst snd Nat.eqb Z.eqb Z.of_nat]; rewrite ?E2, ?E3, ?E4.
    + rewrite (proj2 (Rltb_false _ _)) by lra. rewrite andb_false_r. reflexivity.
    + rewrite (proj2 (Rleb_true 3 3)) by lra. rewrite (proj2 (Rleb_true 3 4)) by lra. reflexivity.
Qed.

(** Binning [1, 1.3) with width 0.1: the bin edges np.arange returns pass 1.3, and np.histogram refuses them. *)
Definition tenth : R := IZR 3602879701896397 * bpow radix2 (-55).
Definition onethree : R := IZR 5854679515581645 * bpow radix2 (-52).
Lemma bpow_m52 : bpow radix2 (-52) = / 4503599627370496. Proof. reflexivity. Qed.
Lemma bpow_m55 : bpow radix2 (-55) = / 36028797018963968. Proof. reflexivity. Qed.
Theorem C119_binning_refuted :
  is64 tenth /\ Rabs (tenth - / 10) < / 10 ^ 15 /\ is64 onethree /\ Rabs (onethree - 13 / 10) < / 10 ^ 15 /\
  f_continuous_to_discrete (11 / 10 :: nil) (0%Z :: nil) tenth 1 onethree = Raise ValueError.
Proof.
  split; [apply is64_dyadic; lia|]. split; [unfold tenth; rewrite bpow_m55; cbn [pow]; apply Rabs_lt; lra|].
  split; [apply is64_dyadic; lia|]. split; [unfold onethree; rewrite bpow_m52; cbn [pow]; apply Rabs_lt; lra|].
  assert (Pt : 0 < tenth) by (unfold tenth; rewrite bpow_m55; lra).
  unfold f_continuous_to_discrete. rewrite (proj2 (Rltb_true _ _) Pt). cbn [guard bindr].
  assert (D : b64 (onethree - 1) = IZR 1351079888211149 * bpow radix2 (-52)).
  { replace (onethree - 1) with (IZR 1351079888211149 * bpow radix2 (-52)) by (unfold onethree; rewrite bpow_m52; lra). apply b64_id, is64_dyadic; lia. }
  assert (Q : b64 (b64 (onethree - 1) / tenth) = IZR 6755399441055745 * bpow radix2 (-51)).
  { rewrite D. replace (IZR 1351079888211149 * bpow radix2 (-52) / tenth) with (IZR 10808639105689192 / IZR 3602879701896397) by (unfold tenth; rewrite bpow_m52, bpow_m55; field).
    apply b64_eval; [lia|lia| |]; change (bpow radix2 (- -51)) with 2251799813685248.
    - change (bpow radix2 52) with 4503599627370496. change (bpow radix2 53) with 9007199254740992. lra.
    - apply Rabs_lt. lra. }
  assert (L : f_arange_len 1 onethree tenth = 4%nat).
  { unfold f_arange_len. rewrite Q, (@ceilZ_unique _ 4); [reflexivity|]. change (bpow radix2 (-51)) with (/ 2251799813685248). lra. }
  rewrite L. cbn [Nat.eqb negb guard bindr].
  assert (X1 : b64 (1 + tenth) = IZR 4953959590107546 * bpow radix2 (-52)).
  { apply b64_eval; [lia|lia| |]; change (bpow radix2 (- -52)) with 4503599627370496; unfold tenth; rewrite bpow_m55.
    - change (bpow radix2 52) with 4503599627370496. change (bpow radix2 53) with 9007199254740992. lra.
    - apply Rabs_lt. lra. }
  assert (DL : b64 (b64 (1 + tenth) - 1) = IZR 450359962737050 * bpow radix2 (-52)).
  { rewrite X1. replace (IZR 4953959590107546 * bpow radix2 (-52) - 1) with (IZR 450359962737050 * bpow radix2 (-52)) by (rewrite bpow_m52; lra). apply b64_id, is64_dyadic; lia. }
  assert (X3 : f_arange 1 tenth 3 = IZR 5854679515581646 * bpow radix2 (-52)).
  { unfold f_arange. rewrite DL. replace (INR 3 * (IZR 450359962737050 * bpow radix2 (-52))) with (IZR 1351079888211150 * bpow radix2 (-52)) by (cbn [INR]; lra).
    rewrite (@b64_id (IZR 1351079888211150 * bpow radix2 (-52))) by (apply is64_dyadic; lia).
    replace (1 + IZR 1351079888211150 * bpow radix2 (-52)) with (IZR 5854679515581646 * bpow radix2 (-52)) by (rewrite bpow_m52; lra). apply b64_id, is64_dyadic; lia. }
  cbn [Nat.sub]. rewrite (proj2 (Reqb_false _ _)) by (rewrite X3; unfold onethree; rewrite bpow_m52; lra).
  cbn [Nat.sub length negb Nat.eqb guard bindr]. change (zmax (0%Z :: nil) + 1)%Z with 1%Z. cbn [Z.leb Z.compare guard bindr orb Z.eqb].
  assert (F : forall_lt 4 (fun i => Rleb (if (i <? 4)%nat then f_arange 1 tenth i else onethree) (if (S i <? 4)%nat then f_arange 1 tenth (S i) else onethree)) = false).
  { match goal with |- ?x = false => destruct x eqn:EF; [exfalso|reflexivity] end. rewrite forall_lt_true in EF. specialize (EF 3%nat ltac:(lia)). apply Rleb_true in EF.
    change (3 <? 4)%nat with true in EF. change (4 <? 4)%nat with false in EF. cbv iota in EF. rewrite X3 in EF. unfold onethree in EF. rewrite bpow_m52 in EF. lra. }
  rewrite F. reflexivity.
Qed.

(** The hypotheses can be met: two bins of width one, uniform numbers one half. *)
Example C119_nonvacuous : exists rand argsort (S_ : imat), (forall t k, (t < 2)%nat -> (k < 1)%nat -> (0 <= S_ t k)%Z) /\ (0 < S_ 1%nat 0%nat)%Z /\ width_ok 1 /\
  INR 2 <= bpow radix2 50 /\ is_argsort argsort /\ (forall i : nat, uniform64 (rand i)) /\ (forall i, rand i <= 1 - INR 2 * bpow radix2 (-51)).
Proof.
  exists (fun _ => / 2), argsort_ex, (fun t _ => Z.of_nat (t + 1)). split; [intros; lia|]. split; [cbn; lia|]. split; [exact width_1|].
  split; [change (bpow radix2 50) with 1125899906842624; cbn; lra|]. split; [apply argsort_exists|]. split.
  - intros _. split; [apply (is64_bpow (e := -1)); lia|]. split; [lra|]. right. change (bpow radix2 (-53)) with (/ 9007199254740992). lra.
  - intros _. change (bpow radix2 (-51)) with (/ 2251799813685248). cbn. lra.
Qed.
Print Assumptions C119_round_trip_partial.
Print Assumptions C119_own_or_next_bin.
Print Assumptions C119_binning_refuted.
