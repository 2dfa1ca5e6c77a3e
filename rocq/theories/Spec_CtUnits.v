(** * Spec_CtUnits: the same continuous-time recordings and model with time counted in another unit.

    One old unit is c new ones (c > 0): event times, recording lengths and the response window are multiplied by c, background
    rates divided by c, the rate parameter of their Gamma prior (a duration) multiplied by c.  Processes, parents, counts, weights,
    edges and the parameters of the responses (mu, tau: they describe delays as fractions of the window) have no unit. *)
From Verif Require Import Prelude ExtReal Arrays M_Continuous.
Set Implicit Arguments.
Open Scope R_scope.

Definition recording_in (c : R) (d : ctdata) : ctdata :=
  {| cd_N := cd_N d; cd_S := fun n => c * cd_S d n; cd_C := cd_C d; cd_T := c * cd_T d; cd_Z := cd_Z d;
     cd_bkgd := cd_bkgd d; cd_weight := cd_weight d; cd_imp := cd_imp d |}.
Definition ct_model_in (c : R) (m : ctmodel) : ctmodel :=
  {| cm_K := cm_K m; cm_dtmax := c * cm_dtmax m; cm_lam := fun k => cm_lam m k / c; cm_A := cm_A m; cm_W := cm_W m;
     cm_mu := cm_mu m; cm_tau := cm_tau m; cm_net := cm_net m; cm_data := map (recording_in c) (cm_data m);
     cm_alpha := cm_alpha m; cm_beta := c * cm_beta m; cm_mu0 := cm_mu0 m; cm_lmbda0 := cm_lmbda0 m;
     cm_alpha0 := cm_alpha0 m; cm_beta0 := cm_beta0 m; cm_par := cm_par m |}.

(** A delay that the fixed margins of 1e-8 at both ends of the response window do not concern, in either unit: it is zero, or
    at least 1e-8 old and new units long, and not less than that short of the end of the window. *)
Definition clear_of_margins (c D delta : R) : Prop :=
  delta <= 0 \/ (/ 10 ^ 8 <= Rmin 1 c * delta /\ (D <= delta \/ / 10 ^ 8 < Rmin 1 c * (D - delta))).
(** All delays between events of a recording are. *)
Definition clear_recording (c D : R) (d : ctdata) : Prop :=
  forall p n, (p < n)%nat -> (n < cd_N d)%nat -> clear_of_margins c D (cd_S d n - cd_S d p).
