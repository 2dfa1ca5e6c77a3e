(** * M_Basis: model of pyhawkes/utils/basis.py *)
From Verif Require Import Prelude ExtReal Arrays.
Set Implicit Arguments.
Open Scope R_scope.

(** np.linspace(start, stop, num)[i]  (NumPy: a single point is [start]). *)
Definition linspace (start stop : R) (num i : nat) : R :=
  if Nat.eqb num 1 then start else start + INR i * ((stop - start) / INR (num - 1)).

(** Largest j <= n with xp j <= x (0 if there is none): the interval search of
    np.interp. *)
Fixpoint interp_idx (xp : vec) (x : R) (n : nat) : nat :=
  match n with
  | O => O
  | S n' => if Rleb (xp n) x then n else interp_idx xp x n'
  end.

(** np.interp(x, xp, fp) with L sample points: constant outside the grid,
    slope*(x - xp[j]) + fp[j] inside. *)
Definition interp (L : nat) (xp : vec) (fp : nat -> er) (x : R) : er :=
  if Rltb x (xp 0%nat) then fp 0%nat
  else let j := interp_idx xp x (L - 1) in
       if Nat.eqb j (L - 1) then fp (L - 1)%nat
       else eadd (emul (ediv (esub (fp (S j)) (fp j)) (Fin (xp (S j) - xp j)))
                       (Fin (x - xp j)))
                 (fp j).

(** A basis table: rows are lags, columns are basis functions. *)
Record basis_tab := { bt_rows : nat; bt_cols : nat; bt_at : nat -> nat -> er }.

(** utils/basis.py 58-80, [Basis.interpolate_basis]. *)
Definition interpolate_basis (basis : basis_tab) (dt dt_max : R) (norm inst : bool)
  : basis_tab :=
  let L := bt_rows basis in                                       (* 61 *)
  let B := bt_cols basis in
  let n := arange_len dt_max dt in                                (* 62 *)
  let t_int := fun i => INR i * dt in
  let t_bas := fun i => linspace 0 dt_max L i in                  (* 63 *)
  let ibasis := fun i b => interp L t_bas (fun l => bt_at basis l b) (t_int i) in (* 65-67 *)
  let ibasis :=                                                   (* 70-72 *)
    if norm
    then fun i b => ediv (ibasis i b) (emul (Fin dt) (esum n (fun i' => ibasis i' b)))
    else ibasis in
  if inst                                                         (* 74-78 *)
  then {| bt_rows := n; bt_cols := B; bt_at := ibasis |}
  else {| bt_rows := S n; bt_cols := B;
          bt_at := fun i b => match i with O => Fin 0 | S i' => ibasis i' b end |}.

(** utils/basis.py 106-148, [CosineBasis.create_basis] with [orth=False]
    ([scipy.linalg.orth] is not modelled).  [a*t+b] is assumed positive where a
    theorem needs it; [np.log] is [ln] here. *)
Definition cos_u_ir (a b : R) (i : nat) : R := ln (a * INR i + b).          (* 123-124 *)

Definition cos_ctr_idx (n_pts n_eye n_cos i : nat) : nat :=                   (* 125 *)
  Z.to_nat (floorZ (linspace (INR n_eye) (INR n_pts / 2) n_cos i)).

Definition cos_width (a b : R) (n_pts n_eye n_cos : nat) : R :=              (* 126-129 *)
  if Nat.eqb n_cos 1 then cos_u_ir a b (cos_ctr_idx n_pts n_eye n_cos 0) / 2
  else (cos_u_ir a b (cos_ctr_idx n_pts n_eye n_cos (n_cos - 1))
        - cos_u_ir a b (cos_ctr_idx n_pts n_eye n_cos 0)) / INR (n_cos - 1).

Definition basis_fn (u c w : R) : er :=                                       (* 132 *)
  ediv (eadd (ecos (emax (Fin (- PI))
                         (emin (Fin PI)
                               (ediv (ediv (Fin ((u - c) * PI)) (Fin w)) (Fin 2)))))
             (Fin 1))
       (Fin 2).

Definition create_cosine_basis (n_pts B n_eye : nat) (a b : R) (norm : bool)
  : result basis_tab :=
  if Nat.ltb B n_eye then Raise AssertionError                                (* 108-110 *)
  else
  let n_cos := (B - n_eye)%nat in
  if Nat.eqb n_cos 0 then Raise IndexError                                    (* 129: ctrs[-1] of an empty array *)
  else if negb (forall_lt n_cos (fun i => Nat.ltb (cos_ctr_idx n_pts n_eye n_cos i) n_pts))
  then Raise IndexError                                                       (* 125 *)
  else
  let u := cos_u_ir a b in
  let w := cos_width a b n_pts n_eye n_cos in
  let raw := fun i j =>
    if Nat.ltb j n_eye
    then (if Nat.eqb i j then Fin 1 else Fin 0)                               (* 116 *)
    else basis_fn (u i) (u (cos_ctr_idx n_pts n_eye n_cos (j - n_eye))) w in  (* 133-134 *)
  if norm then
    if negb (forall_lt n_pts (fun i => forall_lt B (fun j => negb (elt (raw i j) (Fin 0)))))
    then Raise GenericException                                               (* 142-143 *)
    else Ok {| bt_rows := n_pts; bt_cols := B;
               bt_at := fun i j =>
                 ediv (ediv (raw i j) (esum n_pts (fun i' => raw i' j)))
                      (Fin (1 / INR n_pts)) |}                                (* 146 *)
  else Ok {| bt_rows := n_pts; bt_cols := B; bt_at := raw |}.

(** A basis object as the models use it: [bo_L_int] records whether [self.L] is
    a Python int (it is a float for [IdentityBasis], utils/basis.py 167). *)
Record basis_obj := {
  bo_tab : basis_tab;
  bo_L_int : bool;
  bo_inst : bool
}.

(** utils/basis.py 12-24 and 89-104, [CosineBasis.__init__] ([a], [b], [L]
    keyword arguments with defaults 1/120, 0.5, 100). *)
Definition CosineBasis (B : nat) (dt dt_max : R) (norm inst : bool)
           (n_eye : nat) (a b : R) (L : nat) : result basis_obj :=
  do cb <- create_cosine_basis L B n_eye a b norm ;;
  Ok {| bo_tab := interpolate_basis cb dt dt_max norm inst;
        bo_L_int := true; bo_inst := inst |}.

(** utils/basis.py 150-187, [IdentityBasis]. [dt_max // dt] is [floorZ]; np.eye of a negative size raises ValueError. *)
Definition IdentityBasis (dt dt_max : R) (norm inst : bool) : result basis_obj :=
  let fl := floorZ (dt_max / dt) in
  let Bz := (fl + (if inst then 1 else 0))%Z in                                (* 161-164 *)
  let L := (fl + 1)%Z in                                                       (* 167 *)
  if Z.ltb Bz 0 then Raise ValueError else                                     (* 174 *)
  let B := Z.to_nat Bz in
  let rows := if inst then B else S B in
  let eye := fun i j : nat => if Nat.eqb i j then 1 else 0 in                  (* 174 *)
  let tab := fun i j =>                                                        (* 178-179 *)
    if inst then eye i j else match i with O => 0 | S i' => eye i' j end in
  if negb (Z.eqb (Z.of_nat rows) L) then Raise AssertionError                  (* 181 *)
  else
  let etab := fun i j =>
    if norm then ediv (Fin (tab i j)) (emul (Fin dt) (esum rows (fun i' => Fin (tab i' j))))
    else Fin (tab i j) in                                                      (* 184-185 *)
  Ok {| bo_tab := {| bt_rows := rows; bt_cols := B; bt_at := etab |};
        bo_L_int := false; bo_inst := inst |}.

(** utils/basis.py 30-56, [Basis.convolve_with_basis], for a finite basis table
    [bas] (R x B).  [sig.fftconvolve(..., 'full')] is modelled by the exact full
    convolution (FFT rounding is not modelled, which is what the clip on line 53
    repairs).  An empty basis or data array raises (in [fftconvolve] or
    [np.amin]; the exception class is not significant). *)
Definition conv_full (T R_ : nat) (S_ : nat -> R) (col : nat -> R) (t : nat) : R :=
  Rsum R_ (fun l => if (Nat.leb l t && Nat.ltb (t - l) T)%bool
                    then S_ (t - l)%nat * col l else 0).

Definition convolve_with_basis (T K : nat) (S_ : imat) (R_ B : nat) (bas : mat)
  : result ten :=
  let F := fun t k b => conv_full T R_ (fun s => IZR (S_ s k)) (fun l => bas l b) t in
  if (Nat.eqb R_ 0 || Nat.eqb B 0 || Nat.eqb T 0 || Nat.eqb K 0)%bool then Raise ValueError
  else
  if (forall_lt R_ (fun l => forall_lt B (fun b => Rleb 0 (bas l b)))
      && forall_lt T (fun t => forall_lt K (fun k => Z.leb 0 (S_ t k))))%bool
  then
    let F' := fun t k b => clip_lo 0 (F t k b) in                              (* 53 *)
    if forall_lt T (fun t => forall_lt K (fun k => forall_lt B (fun b => Rleb 0 (F' t k b))))
    then Ok F' else Raise AssertionError                                       (* 54 *)
  else Ok F.
