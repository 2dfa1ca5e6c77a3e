(** * Spec_Units: the same discrete-time model with time counted in another unit.

    One old unit is c new ones (c > 0): durations are multiplied by c, rates and densities per unit of time divided by c; counts,
    weights, edges and mixing proportions have no unit. *)
From Verif Require Import Prelude ExtReal Arrays M_Parents M_Discrete M_Gibbs M_Network M_MeanField.
Set Implicit Arguments.
Open Scope R_scope.

(** A density, possibly infinite or undefined. *)
Definition per_unit (c : R) (x : er) : er := match x with Fin a => Fin (a / c) | _ => x end.
(** Stored data: the bin width, and the filtered counts (densities per unit of time). *)
Definition data_in (c : R) (p : parents) : parents :=
  {| pa_T := pa_T p; pa_K := pa_K p; pa_B := pa_B p; pa_dt := c * pa_dt p; pa_S := pa_S p;
     pa_F := fun t k b => pa_F p t k b / c; pa_Z := pa_Z p; pa_EZ := pa_EZ p |}.
(** A model: the bin width, the normalised basis and the background rates. *)
Definition model_in (c : R) (m : dmodel) : dmodel :=
  {| dm_K := dm_K m; dm_B := dm_B m; dm_dt := c * dm_dt m; dm_L := dm_L m; dm_L_int := dm_L_int m;
     dm_bas := fun l b => dm_bas m l b / c; dm_mix := dm_mix m; dm_A := dm_A m; dm_W := dm_W m; dm_g := dm_g m;
     dm_lam := fun k => dm_lam m k / c; dm_data := map (data_in c) (dm_data m) |}.
(** A variational model: the Gamma(alpha, beta) prior and posterior of the background rates have rate parameters beta that
    are durations. *)
Definition mf_model_in (c : R) (m : mfmodel) : mfmodel :=
  {| mm_h := {| mh_K := mh_K (mm_h m); mh_B := mh_B (mm_h m); mh_alpha := mh_alpha (mm_h m); mh_beta := c * mh_beta (mm_h m);
                mh_gamma := mh_gamma (mm_h m); mh_kappa0 := mh_kappa0 (mm_h m); mh_nu0 := mh_nu0 (mm_h m) |};
     mm_bias := {| mb_alpha := mb_alpha (mm_bias m); mb_beta := fun k => c * mb_beta (mm_bias m) k |};
     mm_gamma := mm_gamma m; mm_w := mm_w m; mm_net := mm_net m; mm_data := map (data_in c) (mm_data m); mm_off := mm_off m |}.
(** A result under a change of representation of its value. *)
Definition result_map {A B} (f : A -> B) (r : result A) : result B := match r with Ok a => Ok (f a) | Raise e => Raise e end.
(** Events in a T x K table of counts. *)
Definition events (T K : nat) (S_ : imat) : R := Rsum T (fun t => Rsum K (fun k => IZR (S_ t k))).
