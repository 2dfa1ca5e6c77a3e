(** * M_BasisArg: the [basis] argument of the discrete-time network models (models.py 556-631). *)
From Verif Require Import Prelude ExtReal Arrays M_Basis M_Parents M_Discrete M_Network M_Sweep.
Set Implicit Arguments.
Open Scope R_scope.

(** The entries of a basis object as numbers (bases with NaN columns, C01, are outside this model). *)
Definition basis_table (bo : basis_obj) : mat := fun l b => fval (bt_at (bo_tab bo) l b).

(** models.py 575-585: a basis object is taken as it is, and its number of columns replaces B; without one, a CosineBasis with the
    default hyperparameters (538: normalised, no instantaneous effect; utils/basis.py 93-99 for the rest) is built. *)
Definition model_basis (basis : option basis_obj) (B : nat) (dt dt_max : R) : result basis_obj :=
  match basis with
  | Some bo => Ok bo
  | None => CosineBasis B dt dt_max true false 0 (1 / 120) (1 / 2) 100
  end.

(** models.py 556-631 with that choice; 619-622 is the assertion on instantaneous self-connections, [allow] being the network's
    allow_self_connections. *)
Definition construct_with_basis (lgam : R -> R) (mix : bool) (K B : nat) (dt dt_max : R) (basis : option basis_obj) (allow : bool)
    (h : hypers) (no : netobj) (d : sweep_draws) : result gibbs :=
  do bo <- model_basis basis B dt dt_max ;;
  do _ <- guard (negb (bo_inst bo && allow)) AssertionError ;;
  let st := construct lgam mix K (bt_cols (bo_tab bo)) dt (bt_rows (bo_tab bo)) (basis_table bo) h no d in
  let m := gi_m st in
  Ok {| gi_m := {| dm_K := dm_K m; dm_B := dm_B m; dm_dt := dm_dt m; dm_L := dm_L m; dm_L_int := bo_L_int bo;  (* 809, 817 *)
                   dm_bas := dm_bas m; dm_mix := dm_mix m; dm_A := dm_A m; dm_W := dm_W m; dm_g := dm_g m; dm_lam := dm_lam m;
                   dm_data := dm_data m |};
        gi_net := gi_net st; gi_h := gi_h st |}.
