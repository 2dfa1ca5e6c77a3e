(** * M_Stability: check_stability of the discrete (models.py 755-771) and continuous-time (1666-1683) network models.
    np.linalg.eigvals and scipy.sparse.linalg.eigs are parameters; their contracts are Spec_Stability.spectrum (all eigenvalues)
    and Spec_Stability.dominant (k=1, which='LM': one eigenvalue of largest modulus).  Arithmetic is exact. *)
From Verif Require Import Prelude ExtReal Arrays M_Basis M_Parents M_Discrete M_Continuous M_Sweep.
From Coquelicot Require Import Coquelicot.
Set Implicit Arguments.
Open Scope R_scope.

(** np.amax over the real parts (763, 1674); amax of an empty array raises ValueError. *)
Fixpoint amax (l : list R) : result R :=
  match l with
  | nil => Raise ValueError
  | x :: nil => Ok x
  | x :: r => do y <- amax r ;; Ok (Rmax x y)
  end.
(** NumPy's order on complex numbers is lexicographic: z < 1.0. *)
Definition clt1 (z : C) : bool := (Rltb (fst z) 1 || (Reqb (fst z) 1 && Rltb (snd z) 0))%bool.

(** models.py 761-771: the branch on K, and the comparison with 1.  For K >= 100 the discrete version returns a one-element
    boolean array, here its element. *)
Definition stability_test (eigvals : nat -> mat -> list C) (eigs1 : nat -> mat -> C) (K : nat) (W : mat) : result bool :=
  if Nat.ltb K 100
  then do x <- amax (map fst (eigvals K W)) ;; Ok (Rltb x 1)
  else Ok (clt1 (eigs1 K W)).
(** models.py 755-771 *)
Definition check_stability (eigvals : nat -> mat -> list C) (eigs1 : nat -> mat -> C) (m : dmodel) : result bool :=
  stability_test eigvals eigs1 (dm_K m) (W_effective m).
(** models.py 1666-1683; weights.py 529-531: W_effective is A * W. *)
Definition ct_check_stability (eigvals : nat -> mat -> list C) (eigs1 : nat -> mat -> C) (m : ctmodel) : result bool :=
  stability_test eigvals eigs1 (cm_K m) (fun a b => b2R (cm_A m a b) * cm_W m a b).
