(** * L_Minibatch: splitting data into minibatches. *)
From Verif Require Import Prelude ExtReal Arrays Spec_Basis Spec_Discrete M_Basis L_Basis M_Parents M_Discrete L_Discrete.
Set Implicit Arguments.
Open Scope R_scope.
Local Arguments eadd : simpl never.

Lemma offsets_tile n T : (0 < n)%nat -> forall fuel off, (T - off <= fuel)%nat ->
  concat (map (fun o => seq o (Nat.min (o + n) T - o)) (offsets fuel T n off)) = seq off (T - off).
Proof.
  intros Hn. induction fuel as [|fuel IH]; intros off Hf.
  - replace (T - off)%nat with 0%nat by lia. reflexivity.
  - cbn [offsets]. destruct (Nat.ltb_spec off T) as [H|H].
    + cbn [map concat]. rewrite IH by lia.
      destruct (le_lt_dec (off + n) T) as [H2|H2].
      * rewrite Nat.min_l by lia. replace (off + n - off)%nat with n by lia.
        rewrite <- seq_app. f_equal. lia.
      * rewrite Nat.min_r by lia. replace (T - (off + n))%nat with 0%nat by lia.
        cbn [seq]. now rewrite app_nil_r.
    + replace (T - off)%nat with 0%nat by lia. reflexivity.
Qed.

Lemma elsum_map_nth {A} (f : A -> er) l d :
  elsum (map f l) = esum (length l) (fun i => f (nth i l d)).
Proof.
  induction l as [|x l IH] using rev_ind; [reflexivity|].
  rewrite map_app, elsum_app, app_length, IH. cbn [map elsum length].
  rewrite Nat.add_1_r. cbn [esum]. rewrite eadd_0_r. rewrite app_nth2, Nat.sub_diag by lia. cbn [nth].
  f_equal. apply esum_ext. intros i Hi. now rewrite app_nth1.
Qed.

Lemma filter_map {A B} (f : A -> B) p l : filter p (map f l) = map f (filter (fun x => p (f x)) l).
Proof. induction l as [|x l IH]; [reflexivity|]. cbn. destruct (p (f x)); cbn; now rewrite IH. Qed.

Lemma filter_concat {A} (p : A -> bool) ll : filter p (concat ll) = concat (map (filter p) ll).
Proof. induction ll as [|l ll IH]; [reflexivity|]. cbn. now rewrite filter_app, IH. Qed.

Lemma seq_shift_add off n : seq off n = map (fun t => (off + t)%nat) (seq 0 n).
Proof.
  revert off; induction n as [|n IH]; intros off; [reflexivity|].
  rewrite seq_S, seq_S, map_app, IH. reflexivity.
Qed.

Definition rowterm (K B : nat) (q : params) (S_ : imat) (F : ten) (k t : nat) : er :=
  emul (Fin (IZR (u32 (S_ t k)))) (elog (Fin (hawkes_rate K B (q_lam q) (q_W q) (q_g q) F t k))).
Definition nz (S_ : imat) (k t : nat) : bool := negb (Z.eqb (S_ t k) 0).

Lemma piece_ts K B dt n S_ F off k :
  map (fun t => (off + t)%nat) (pa_ts (mk_parents K B dt n (slice2 off S_) (slice3 off F)) k)
  = filter (nz S_ k) (seq off n).
Proof. rewrite (seq_shift_add off n), filter_map. reflexivity. Qed.

Lemma piece_ll K B dt n S_ F off q k :
  ll_single (mk_parents K B dt n (slice2 off S_) (slice3 off F)) q k
  = eadd (eadd (Fin (- q_lam q k * INR n * dt))
       (Fin (- Rsum K (fun k1 => q_W q k1 k * IZR (lsumZ (map (fun t => S_ t k1) (seq off n)))))))
     (elsum (map (rowterm K B q S_ F k) (filter (nz S_ k) (seq off n)))).
Proof.
  set (p := mk_parents K B dt n (slice2 off S_) (slice3 off F)).
  assert (E1 : Rsum K (fun k1 => q_W q k1 k * IZR (pa_Ns p k1))
    = Rsum K (fun k1 => q_W q k1 k * IZR (lsumZ (map (fun t => S_ t k1) (seq off n))))).
  { apply Rsum_ext; intros k1 _. rewrite pa_Ns_sum.
    rewrite (seq_shift_add off n), map_map, lsumZ_map_seq. reflexivity. }
  assert (E2 : esum (pa_Tk p k) (fun r => emul (Fin (IZR (pa_Ss p k r))) (elog (Fin (row_rate p q k r))))
    = elsum (map (rowterm K B q S_ F k) (filter (nz S_ k) (seq off n)))).
  { rewrite <- (piece_ts K B dt n S_ F off k), map_map.
    rewrite (elsum_map_nth _ _ 0%nat). reflexivity. }
  unfold ll_single. rewrite E2. change (pa_K p) with K. rewrite E1. reflexivity.
Qed.

Lemma lsumZ_concat_map {A} (f : A -> Z) ll :
  lsumZ (map f (concat ll)) = lsumZ (map (fun l => lsumZ (map f l)) ll).
Proof.
  induction ll as [|l ll IH]; [reflexivity|].
  cbn. rewrite map_app, lsumZ_app, IH; reflexivity.
Qed.

Lemma concat_map_map {A B C} (f : B -> C) (g : A -> list B) l :
  concat (map (fun x => map f (g x)) l) = map f (concat (map g l)).
Proof. induction l as [|x l IH]; [reflexivity|]. cbn. now rewrite map_app, IH. Qed.

Lemma elsum_Fin l : elsum (map Fin l) = Fin (lsum l).
Proof. rewrite (elsum_map_fin _ (fun x => x)) by auto. now rewrite map_id. Qed.

Lemma elsum_filter_concat {A} (f : A -> er) p ll :
  elsum (map f (filter p (concat ll))) = elsum (map (fun l => elsum (map f (filter p l))) ll).
Proof.
  rewrite filter_concat, elsum_concat_map, map_map. reflexivity.
Qed.

(** The log likelihood of process k summed over any list of pieces that tiles
    [0,T) is the log likelihood of the whole. *)
Lemma tiles_ll K B dt T S_ F q k (pieces : list (nat * nat)) :
  concat (map (fun on => seq (fst on) (snd on)) pieces) = seq 0 T ->
  elsum (map (fun on => ll_single (mk_parents K B dt (snd on) (slice2 (fst on) S_) (slice3 (fst on) F)) q k) pieces)
  = ll_single (mk_parents K B dt T S_ F) q k.
Proof.
  intros Htile.
  assert (Ewhole := piece_ll K B dt T S_ F 0 q k).
  change (ll_single (mk_parents K B dt T (slice2 0 S_) (slice3 0 F)) q k)
    with (ll_single (mk_parents K B dt T S_ F) q k) in Ewhole.
  rewrite Ewhole; clear Ewhole.
  rewrite (elsum_map_ext _ (fun on => eadd (eadd (Fin (- q_lam q k * INR (snd on) * dt))
       (Fin (- Rsum K (fun k1 => q_W q k1 k * IZR (lsumZ (map (fun t => S_ t k1) (seq (fst on) (snd on))))))))
     (elsum (map (rowterm K B q S_ F k) (filter (nz S_ k) (seq (fst on) (snd on))))))).
  2:{ intros on _. apply piece_ll. }
  rewrite elsum_map_plus, elsum_map_plus. f_equal; [f_equal|].
  - rewrite <- (map_map (fun on : nat * nat => - q_lam q k * INR (snd on) * dt) Fin), elsum_Fin.
    f_equal. rewrite lsum_map_scal_r. f_equal. rewrite lsum_map_scal. f_equal.
    transitivity (lsum (map (fun _ => 1) (seq 0 T))); [|rewrite lsum_map_const, seq_length; lra].
    rewrite <- Htile, lsum_concat_map, map_map. f_equal. apply map_ext. intros [o n].
    cbn [fst snd]. rewrite lsum_map_const, seq_length. lra.
  - rewrite <- (map_map (fun on : nat * nat => - Rsum K (fun k1 => q_W q k1 k *
         IZR (lsumZ (map (fun t => S_ t k1) (seq (fst on) (snd on)))))) Fin), elsum_Fin.
    f_equal. rewrite <- Rsum_opp, <- Htile.
    rewrite (lsum_map_ext _ (fun on : nat * nat => Rsum K (fun k1 => - (q_W q k1 k *
         IZR (lsumZ (map (fun t => S_ t k1) (seq (fst on) (snd on)))))))) by (intros; now rewrite Rsum_opp).
    rewrite lsum_Rsum_swap. apply Rsum_ext; intros k1 _.
    rewrite lsumZ_concat_map, map_map, IZR_lsumZ, map_map.
    rewrite (lsum_map_ext _ (fun on : nat * nat => - q_W q k1 k *
         IZR (lsumZ (map (fun t => S_ t k1) (seq (fst on) (snd on)))))) by (intros; ring).
    rewrite lsum_map_scal. ring.
  - rewrite <- Htile, elsum_filter_concat, map_map. reflexivity.
Qed.

(** What the minibatch loop appends. *)
Definition pieces_of (T n : nat) : list (nat * nat) :=
  map (fun o => (o, Nat.min (o + n) T - o)%nat) (offsets T T n 0).
Lemma pieces_tile T n : (0 < n)%nat ->
  concat (map (fun on => seq (fst on) (snd on)) (pieces_of T n)) = seq 0 T.
Proof.
  intros Hn. unfold pieces_of. rewrite map_map. cbn [fst snd].
  rewrite offsets_tile by lia. now rewrite Nat.sub_0_r.
Qed.
Lemma batches_pieces K B dt T S_ F n : (0 < n)%Z ->
  batches K B dt T S_ F (Some n)
  = Ok (map (fun on => mk_parents K B dt (snd on) (slice2 (fst on) S_) (slice3 (fst on) F)) (pieces_of T (Z.to_nat n))).
Proof.
  intros Hn. unfold batches. destruct (Z.eqb_spec n 0); [lia|]. destruct (Z.ltb_spec n 0); [lia|].
  unfold pieces_of. now rewrite map_map.
Qed.

(* ---------------- log_likelihood as a sum ---------------- *)
Lemma ll_sum_acc m l acc :
  ll_sum m l acc = match ll_sum m l (Fin 0) with Ok x => Ok (eadd acc x) | Raise e => Raise e end.
Proof.
  revert acc. induction l as [|i l IH]; intros acc; cbn [ll_sum].
  - now rewrite eadd_0_r.
  - destruct (ll_at m i) as [x|e]; cbn [bindr]; [|reflexivity].
    rewrite IH. rewrite (IH (eadd (Fin 0) x)). destruct (ll_sum m l (Fin 0)); [|reflexivity].
    now rewrite eadd_0_l, eadd_assoc.
Qed.
Lemma ll_at_nat m i d : nth_error (dm_data m) i = Some d -> ll_at m (Z.of_nat i) = Ok (pa_ll d (params_of m)).
Proof.
  intros H. unfold ll_at. rewrite py_index_nat by (apply nth_error_Some; congruence). now rewrite H.
Qed.
Lemma log_likelihood_all m :
  log_likelihood m All = Ok (elsum (map (fun d => pa_ll d (params_of m)) (dm_data m))).
Proof.
  unfold log_likelihood.
  assert (G : forall pre l, dm_data m = pre ++ l ->
     ll_sum m (map Z.of_nat (seq (length pre) (length l))) (Fin 0)
     = Ok (elsum (map (fun d => pa_ll d (params_of m)) l))).
  { intros pre l. revert pre. induction l as [|d l IH]; intros pre E; cbn [length seq map ll_sum]; [reflexivity|].
    rewrite (@ll_at_nat m (length pre) d).
    2:{ rewrite E, nth_error_app2, Nat.sub_diag by lia. reflexivity. }
    cbn [bindr]. rewrite ll_sum_acc. specialize (IH (pre ++ [d])).
    rewrite app_length in IH. cbn [length] in IH. rewrite Nat.add_1_r in IH. rewrite IH.
    - cbn [elsum]. now rewrite eadd_0_l.
    - rewrite E, <- app_assoc. reflexivity. }
  apply (G [] (dm_data m)). reflexivity.
Qed.
