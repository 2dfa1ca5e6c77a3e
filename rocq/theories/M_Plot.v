(** * M_Plot: what the plotting methods of the discrete-time network models draw
    (pyhawkes/models.py 1021-1187).

    A drawing is the list of values handed to matplotlib: arrows, the image, curves, stems and axis limits.  Fonts, colours,
    labels, layout and rendering are not modelled. *)
From Verif Require Import Prelude ExtReal Arrays M_Basis M_Parents M_Discrete.
Set Implicit Arguments.
Open Scope R_scope.

(** One arrow object: its end points (node numbers; models.py 1099-1104), line width and visibility. *)
Record arrow := { ar_from : nat; ar_to : nat; ar_width : R; ar_visible : bool }.
Definition set_line (a : arrow) (w : R) (v : bool) : arrow :=
  {| ar_from := ar_from a; ar_to := ar_to a; ar_width := w; ar_visible := v |}.
(** for k1 in range(K): for k2 in range(K): if k1 == k2: continue (1093-1096, 1118-1121) *)
Definition node_pairs (K : nat) : list (nat * nat) :=
  flat_map (fun k1 => flat_map (fun k2 => if Nat.eqb k1 k2 then [] else [(k1, k2)]) (seq 0 K)) (seq 0 K).

(** models.py 1092-1113: new arrows *)
Definition draw_network (m : dmodel) : list arrow :=
  map (fun p => {| ar_from := fst p; ar_to := snd p;
                   ar_width := 3 * W_effective m (fst p) (snd p);          (* 1108 *)
                   ar_visible := dm_A m (fst p) (snd p) |})                (* 1111 *)
      (node_pairs (dm_K m)).
(** models.py 1115-1133: the given lines, taken by position; too few lines raise IndexError, further ones are left alone.
    The loop changes the line objects one by one; the exception leaves the earlier ones changed, which is not recorded here. *)
Fixpoint update_lines (m : dmodel) (ps : list (nat * nat)) (lns : list arrow) : result (list arrow) :=
  match ps with
  | [] => Ok lns
  | (k1, k2) :: ps' =>
    match lns with
    | [] => Raise IndexError
    | a :: lns' =>
      do rest <- update_lines m ps' lns' ;;
      Ok ((if dm_A m k1 k2 then set_line a (3 * W_effective m k1 k2) true else set_line a 0 false) :: rest)
    end
  end.
(** models.py 1076-1135, [plot_network] *)
Definition plot_network (m : dmodel) (lns : option (list arrow)) : result (list arrow) :=
  match lns with
  | None => Ok (draw_network m)
  | Some l => update_lines m (node_pairs (dm_K m)) l
  end.

(** The image of the weight matrix: data and the two ends of the colour scale. *)
Record image := { im_data : mat; im_min : R; im_max : R }.
(** np.max of a K x K array, K >= 1 *)
Definition list_max (x : R) (l : list R) : R := fold_left Rmax l x.
Definition mat_list (K : nat) (w : mat) : list R := flat_map (fun i => map (fun j => w i j) (seq 0 K)) (seq 0 K).
(** models.py 1056-1074, [plot_adjacency_matrix]; np.max of an empty array raises ValueError.  Updating sets the data (1072)
    and uses vmax for nothing. *)
Definition plot_adjacency (m : dmodel) (im : option image) (vmax : option R) : result image :=
  do v <- match vmax with
          | Some v => Ok v
          | None => match mat_list (dm_K m) (W_effective m) with [] => Raise ValueError | x :: l => Ok (list_max x l) end
          end ;;
  match im with
  | None => Ok {| im_data := W_effective m; im_min := 0; im_max := v |}
  | Some i => Ok {| im_data := W_effective m; im_min := im_min i; im_max := im_max i |}
  end.

(** One axis of the rate plot: the curve as T points (x, y), the stems (x, height), the limits. *)
Record axis := { ax_T : nat; ax_x : vec; ax_y : vec; ax_stems : list (R * Z); ax_xlim : R * R; ax_ylim : R * R }.
(** What is passed as axs: nothing, or a list of axes of some length. *)
Inductive axs_arg := NoAxs | AxsList (n : nat).
(** max of S[lo:hi,:]: the counts of the slice, row by row (Python slice semantics for 0 <= lo). *)
Definition slice_counts (p : parents) (K lo hi : nat) : list Z :=
  flat_map (fun t => map (fun k => pa_S p t k) (seq 0 K)) (seq lo (Nat.min hi (pa_T p) - lo)).
Definition zmax (x : Z) (l : list Z) : Z := fold_left Z.max l x.
(** models.py 1141-1143: the data set asked for *)
Definition plot_data (m : dmodel) (index : Z) : result parents :=
  if negb (Z.ltb index (Z.of_nat (length (dm_data m)))) then Raise AssertionError
  else match py_index (length (dm_data m)) index with
       | Some i => match nth_error (dm_data m) i with Some d => Ok d | None => Raise IndexError end
       | None => Raise IndexError
       end.
(** 1176-1180: tk + dt/2 against S[tk,k] for the non-empty bins *)
Definition stems (m : dmodel) (d : parents) (k : nat) : list (R * Z) :=
  map (fun t => (INR t + dm_dt m / 2, pa_S d t k)) (filter (fun t => negb (Z.eqb (pa_S d t k) 0)) (seq 0 (pa_T d))).
(** models.py 1141-1187, [plot_rates].  [T_slice] None is (0, data.T).  Without axs, plt.subplots returns the pair
    (figure, axes), of which axs[0] is the figure, which has no method plot: AttributeError (for K = 0 the loop does not
    run).  The existing curves are given as [lns]; updating sets their data and nothing else (1184-1185). *)
Definition plot_rates (m : dmodel) (lns : option (list axis)) (axs : axs_arg) (draw_events : bool) (index : Z)
  (T_slice : option (nat * nat)) : result (list axis) :=
  do d <- plot_data m index ;;
  do TR <- compute_rate m index None None ;;
  let '(lo, hi) := match T_slice with None => (0%nat, pa_T d) | Some s => s end in
  do ymax <- match slice_counts d (dm_K m) lo hi with [] => Raise ValueError | x :: l => Ok (zmax x l) end ;;   (* 1147 *)
  match lns with
  | None =>
    match axs with
    | NoAxs => if Nat.eqb (dm_K m) 0 then Ok [] else Raise AttributeError
    | AxsList n =>
      do _ <- guard (Nat.eqb n (dm_K m)) AssertionError ;;
      Ok (map (fun k => {| ax_T := pa_T d; ax_x := fun t => dm_dt m * INR t; ax_y := fun t => snd TR t k;
                           ax_stems := if draw_events then stems m d k else [];
                           ax_xlim := (INR lo, INR hi); ax_ylim := (0, 11 / 10 * IZR ymax) |}) (seq 0 (dm_K m)))
    end
  | Some l =>
    (fix upd (ks : list nat) (l : list axis) : result (list axis) :=
       match ks with
       | [] => Ok l
       | k :: ks' =>
         match l with
         | [] => Raise IndexError
         | a :: l' => do rest <- upd ks' l' ;;
                      Ok ({| ax_T := pa_T d; ax_x := fun t => dm_dt m * INR t; ax_y := fun t => snd TR t k;
                             ax_stems := ax_stems a; ax_xlim := ax_xlim a; ax_ylim := ax_ylim a |} :: rest)
         end
       end) (seq 0 (dm_K m)) l
  end.

(** models.py 1021-1054, [plot]: a new drawing of the network and of the rates of one data set on K new axes, or the update
    of the drawing given as handles (its T_slice is not passed on, 1050). *)
Definition plot (m : dmodel) (handles : option (list arrow * list axis)) (index : Z) (T_slice : option (nat * nat))
  : result (list arrow * list axis) :=
  match handles with
  | None => do net <- plot_network m None ;;
            do rates <- plot_rates m None (AxsList (dm_K m)) true index T_slice ;;
            Ok (net, rates)
  | Some (net, rates) =>
            do net' <- plot_network m (Some net) ;;
            do rates' <- plot_rates m (Some rates) NoAxs true index None ;;
            Ok (net', rates')
  end.
