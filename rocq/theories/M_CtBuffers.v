(** * M_CtBuffers: the arrays a continuous-time data set keeps by reference
    (pyhawkes/internals/parents.py 491-543, pyhawkes/models.py 1560-1590, 1703-1766, 1778-1799).

    A ContinuousTimeParents object keeps the arrays S and C it was given (502-503) and copies only the counts per process,
    Ns (507), the length N (506) and T (504).  Later calls read S and C anew. *)
From Verif Require Import Prelude ExtReal Arrays M_Parents M_Discrete M_Network M_Continuous M_Buffers.
Set Implicit Arguments.
Open Scope R_scope.

Record ctmem := { t_times : addr -> vec; t_labels : addr -> nat -> Z }.
Definition put_times (h : ctmem) (a : addr) (x : vec) : ctmem := {| t_times := put (t_times h) a x; t_labels := t_labels h |}.
Definition put_labels (h : ctmem) (a : addr) (x : nat -> Z) : ctmem := {| t_times := t_times h; t_labels := put (t_labels h) a x |}.

(** The arguments of add_data as objects. *)
Record tref := { tr_isarray : bool; tr_dims : list nat; tr_isfloat : bool; tr_addr : addr }.
Record cref := { cr_isarray : bool; cr_dims : list nat; cr_isint : bool; cr_addr : addr }.
Definition tval_in (h : ctmem) (s : tref) : tval :=
  {| tv_isarray := tr_isarray s; tv_dims := tr_dims s; tv_isfloat := tr_isfloat s; tv_at := t_times h (tr_addr s) |}.
Definition ival_in (h : ctmem) (c : cref) : ival :=
  {| iv_isarray := cr_isarray c; iv_dims := cr_dims c; iv_isint := cr_isint c; iv_at := t_labels h (cr_addr c) |}.

(** parents.py 491-513 *)
Record ctlive := { cl_N : nat; cl_S : addr; cl_C : addr; cl_T : R; cl_Ns : nat -> Z;
                   cl_Z : nat -> Z; cl_bkgd : vec; cl_weight : mat; cl_imp : ten }.
(** data.C as read later *)
Definition live_C (h : ctmem) (d : ctlive) : nat -> nat := fun n => Z.to_nat (t_labels h (cl_C d) n).
(** The data set with the present contents of its arrays. *)
Definition ctdata_in (h : ctmem) (d : ctlive) : ctdata :=
  {| cd_N := cl_N d; cd_S := t_times h (cl_S d); cd_C := live_C h d; cd_T := cl_T d; cd_Z := cl_Z d;
     cd_bkgd := cl_bkgd d; cd_weight := cl_weight d; cd_imp := cl_imp d |}.
(** models.py 1560-1590 with the constructor, when the checks of [ct_add_data] pass: the data set that is appended. *)
Definition mk_ctlive (h : ctmem) (N : nat) (s : tref) (c : cref) (T : R) : ctlive :=
  let C := fun i => Z.to_nat (t_labels h (cr_addr c) i) in
  {| cl_N := N; cl_S := tr_addr s; cl_C := cr_addr c; cl_T := T; cl_Ns := ct_Ns N C; cl_Z := fun _ => (-1)%Z;
     cl_bkgd := fun k => IZR (ct_Ns N C k); cl_weight := fun _ _ => 0; cl_imp := fun _ _ _ => 0 |}.

(** parents.py 521-543: S, C are read anew, the last assertion compares with the stored counts. *)
Definition ctlive_resample (h : ctmem) (m : ctmodel) (order : list nat) (u : vec) (d : ctlive) : result ctlive :=
  do Z_ <- ct_resample_Z order (t_times h (cl_S d)) (live_C h d) (cm_dtmax m) (cm_lam m) (ct_W_effective m) (cm_mu m) (cm_tau m) u (cl_Z d) ;;
  do _ <- guard (forall_lt (cl_N d) (fun n => Z.ltb (-2) (Z_ n))) AssertionError ;;
  do _ <- guard (forall_lt (cl_N d) (fun n => Z.ltb (Z_ n) (Z.of_nat n))) AssertionError ;;
  do ss <- ct_suff_stats (cl_N d) (t_times h (cl_S d)) (live_C h d) Z_ (cm_dtmax m) ;;
  let '(bk, ws, im) := ss in
  do _ <- guard (forall_lt (cm_K m) (fun k => Reqb (bk k + Rsum (cm_K m) (fun k1 => ws k1 k)) (IZR (cl_Ns d k)))) AssertionError ;;
  Ok {| cl_N := cl_N d; cl_S := cl_S d; cl_C := cl_C d; cl_T := cl_T d; cl_Ns := cl_Ns d;
        cl_Z := Z_; cl_bkgd := bk; cl_weight := ws; cl_imp := im |}.

(** models.py 1744-1766: data.Ns; 1703-1742: data.S, data.C; 1778-1799. *)
Definition ctlive_integrated (m : ctmodel) (d : ctlive) (k : nat) : R :=
  cm_lam m k * cl_T d + Rsum (cm_K m) (fun k1 => ct_W_effective m k1 k * IZR (cl_Ns d k1)).
Definition ctlive_ll (h : ctmem) (order : list nat) (m : ctmodel) (d : ctlive) : er :=
  eadd (Fin (- Rsum (cm_K m) (ctlive_integrated m d)))
       (esum (cl_N d) (fun n => elog (Fin (ct_rate_at_events order (t_times h (cl_S d)) (live_C h d) (cm_dtmax m) (cm_lam m)
                                             (ct_W_effective m) (cm_mu m) (cm_tau m) n)))).
