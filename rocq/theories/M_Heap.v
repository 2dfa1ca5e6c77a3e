(** * M_Heap: objects, references and in-place writes.

    The properties about aliasing (C29, C40, C41, C42, C49) need Python's
    object graph, which the value-level model files abstract away.  A heap
    maps locations to objects: attribute records, NumPy arrays (C-order
    contents) and Python lists.  Simplifications: strings, tuples, Booleans
    and dtypes are not represented, a missing attribute is [None]. *)
From Verif Require Import Prelude Arrays.
From Coq Require Import String.
Set Implicit Arguments.
Open Scope R_scope.
Open Scope string_scope.

Definition loc := nat.
Inductive val := VNone | VNum (r : R) | VRef (l : loc).
Inductive obj :=
| Rec (fields : string -> option val)
| Arr (dims : list nat) (data : nat -> R)
| Lst (items : list val).

Record heap := { h_next : loc; h_at : loc -> option obj }.

Definition alloc (h : heap) (o : obj) : heap * loc :=
  ({| h_next := S (h_next h); h_at := fun x => if Nat.eqb x (h_next h) then Some o else h_at h x |}, h_next h).
Definition store (h : heap) (l : loc) (o : obj) : heap :=
  {| h_next := h_next h; h_at := fun x => if Nat.eqb x l then Some o else h_at h x |}.
Definition set_field (fs : string -> option val) (f : string) (v : val) : string -> option val :=
  fun g => if String.eqb g f then Some v else fs g.

(** x.f = v *)
Definition set_attr (h : heap) (l : loc) (f : string) (v : val) : result heap :=
  match h_at h l with
  | Some (Rec fs) => Ok (store h l (Rec (set_field fs f v)))
  | _ => Raise AttributeError
  end.

(** An access path: attribute and list-index steps. *)
Inductive step := Fld (f : string) | Idx (i : nat).
Definition step_from (h : heap) (v : val) (s : step) : option val :=
  match v with
  | VRef l =>
      match h_at h l, s with
      | Some (Rec fs), Fld f => fs f
      | Some (Lst vs), Idx i => nth_error vs i
      | _, _ => None
      end
  | _ => None
  end.
Fixpoint walk (h : heap) (v : val) (p : list step) : option val :=
  match p with
  | [] => Some v
  | s :: p' => match step_from h v s with Some v' => walk h v' p' | None => None end
  end.

(** What a program can see at the end of a path, identity apart. *)
Inductive seen := SNone | SNum (r : R) | SArr (dims : list nat) (data : nat -> R) | SLst (len : nat) | SRec.
Definition look (h : heap) (v : val) : option seen :=
  match v with
  | VNone => Some SNone
  | VNum r => Some (SNum r)
  | VRef l => match h_at h l with
              | Some (Rec _) => Some SRec
              | Some (Arr d x) => Some (SArr d x)
              | Some (Lst vs) => Some (SLst (List.length vs))
              | None => None
              end
  end.
Definition observe (h : heap) (l : loc) (p : list step) : option seen :=
  match walk h (VRef l) p with Some v => look h v | None => None end.

(** References held by an object, and reachability. *)
Definition refers (o : obj) (y : loc) : Prop :=
  match o with
  | Rec fs => exists f, fs f = Some (VRef y)
  | Arr _ _ => False
  | Lst vs => In (VRef y) vs
  end.
Inductive reach (h : heap) (l : loc) : loc -> Prop :=
| reach_refl : reach h l l
| reach_step : forall x y o, reach h l x -> h_at h x = Some o -> refers o y -> reach h l y.

(** No dangling references, and nothing allocated beyond [h_next]. *)
Definition heap_wf (h : heap) : Prop :=
  (forall l, h_at h l <> None <-> (l < h_next h)%nat) /\
  (forall l o y, h_at h l = Some o -> refers o y -> (y < h_next h)%nat).

Definition rename_val (rho : loc -> loc) (v : val) : val :=
  match v with VRef l => VRef (rho l) | _ => v end.
Definition rename (rho : loc -> loc) (o : obj) : obj :=
  match o with
  | Rec fs => Rec (fun f => option_map (rename_val rho) (fs f))
  | Arr d x => Arr d x
  | Lst vs => Lst (map (rename_val rho) vs)
  end.

(** copy.deepcopy(x): contract of the standard library function.  A fresh,
    isomorphic copy of everything reachable from [l] (the memo dictionary makes
    the renaming a function, cycles included); existing objects are untouched. *)
Definition deepcopied (h : heap) (l : loc) (h' : heap) (l' : loc) : Prop :=
  exists rho : loc -> loc,
    l' = rho l /\
    (forall x, reach h l x -> h_at h' (rho x) = option_map (rename rho) (h_at h x)) /\
    (forall x, reach h l x -> (h_next h <= rho x < h_next h')%nat) /\
    (forall x y, reach h l x -> reach h l y -> rho x = rho y -> x = y) /\
    (forall y, (y < h_next h)%nat -> h_at h' y = h_at h y) /\
    (h_next h <= h_next h')%nat /\
    (forall y, (h_next h' <= y)%nat -> h_at h' y = None).

(** _DiscreteTimeNetworkHawkesModelBase.copy_sample (models.py 773-789), also
    the text of DiscreteTimeStandardHawkesModel.copy_sample (210-226) and
    ContinuousTimeNetworkHawkesModel.copy_sample (1685-1701): shallow-copy the
    data list, blank it, deep copy, put the shallow copy back. *)
Definition copy_sample (h : heap) (m : loc) (h' : heap) (c : loc) : Prop :=
  exists fs dl items h3 h4,
    h_at h m = Some (Rec fs) /\ fs "data_list" = Some (VRef dl) /\ h_at h dl = Some (Lst items) /\
    let (h1, dl2) := alloc h (Lst items) in        (* copy.copy(self.data_list) *)
    let (h2, e) := alloc h1 (Lst []) in            (* self.data_list = [] *)
    set_attr h2 m "data_list" (VRef e) = Ok h3 /\
    deepcopied h3 m h4 c /\                        (* copy.deepcopy(self) *)
    set_attr h4 m "data_list" (VRef dl2) = Ok h'.  (* self.data_list = data_list *)

(** Right-hand sides that build a new object. *)
Inductive rhs := NewNum (r : R) | NewArr (dims : list nat) (data : nat -> R)
               | NewLst (arrs : list (list nat * (nat -> R))).
Fixpoint alloc_all (h : heap) (xs : list (list nat * (nat -> R))) : heap * list val :=
  match xs with
  | [] => (h, [])
  | (d, x) :: xs' => let (h1, l) := alloc h (Arr d x) in
                     let (h2, vs) := alloc_all h1 xs' in (h2, VRef l :: vs)
  end.
Definition build (h : heap) (x : rhs) : heap * val :=
  match x with
  | NewNum r => (h, VNum r)
  | NewArr d a => let (h1, l) := alloc h (Arr d a) in (h1, VRef l)
  | NewLst xs => let (h1, vs) := alloc_all h xs in let (h2, l) := alloc h1 (Lst vs) in (h2, VRef l)
  end.

(** Heap effects of the update methods, relative to the model object.
    - [Rebind p f x]:  p.f = (a newly built number, array or list of arrays)
    - [Inplace p x]:   p[...] = x, for an array p
    - [Append p fs]:   p.append(obj), for a list p and a new object whose
                       attributes are new arrays/numbers plus `model` = the model *)
Inductive hop :=
| Rebind (p : list step) (f : string) (x : rhs)
| Inplace (p : list step) (data : nat -> R)
| Append (p : list step) (fs : list (string * rhs)).

Fixpoint build_rec (h : heap) (fs : list (string * rhs)) (acc : string -> option val) : heap * (string -> option val) :=
  match fs with
  | [] => (h, acc)
  | (f, x) :: fs' => let (h1, v) := build h x in build_rec h1 fs' (set_field acc f v)
  end.
Definition exec (o : hop) (h : heap) (m : loc) : result heap :=
  match o with
  | Rebind p f x =>
      match walk h (VRef m) p with
      | Some (VRef l) => let (h1, v) := build h x in set_attr h1 l f v
      | _ => Raise AttributeError
      end
  | Inplace p x =>
      match walk h (VRef m) p with
      | Some (VRef l) => match h_at h l with
                         | Some (Arr d _) => Ok (store h l (Arr d x))
                         | _ => Raise TypeError
                         end
      | _ => Raise AttributeError
      end
  | Append p fs =>
      match walk h (VRef m) p with
      | Some (VRef l) => match h_at h l with
                         | Some (Lst vs) =>
                             let (h1, r) := build_rec h fs (set_field (fun _ => None) "model" (VRef m)) in
                             let (h2, n) := alloc h1 (Rec r) in
                             Ok (store h2 l (Lst (vs ++ [VRef n])))
                         | _ => Raise AttributeError
                         end
      | _ => Raise AttributeError
      end
  end.
Fixpoint exec_all (os : list hop) (h : heap) (m : loc) : result heap :=
  match os with
  | [] => Ok h
  | o :: os' => do h1 <- exec o h m ;; exec_all os' h1 m
  end.

(** The heap effects of one Gibbs sweep, update by update. *)
(** GammaBias.resample (bias.py 77-78) *)
Definition op_lambda0 (K : nat) (d : nat -> R) : hop := Rebind [Fld "bias_model"] "lambda0" (NewArr [K] d).
(** DirichletImpulseResponses.resample (impulses.py 88): rows of self.g overwritten in place *)
Definition op_g (d : nat -> R) : hop := Inplace [Fld "impulse_model"; Fld "g"] d.
(** SpikeAndSlabGammaWeights._resample_A_given_W (weights.py 126,130,141): in place *)
Definition op_A_serial (d : nat -> R) : hop := Inplace [Fld "weight_model"; Fld "A"] d.
(** _joblib_resample_A_given_W (weights.py 102,110), GammaMixtureWeights._resample_A (467): rebound *)
Definition op_A_fresh (K : nat) (d : nat -> R) : hop := Rebind [Fld "weight_model"] "A" (NewArr [K; K] d).
(** resample_W_given_A_and_z (weights.py 157), GammaMixtureWeights._resample_W_given_A (478-481): rebound *)
Definition op_W (K : nat) (d : nat -> R) : hop := Rebind [Fld "weight_model"] "W" (NewArr [K; K] d).
(** GibbsSBM.resample_p, resample_v, resample_c (network.py 227, 240, 284): in place *)
Definition op_p (d : nat -> R) : hop := Inplace [Fld "network"; Fld "p"] d.
Definition op_v (d : nat -> R) : hop := Inplace [Fld "network"; Fld "v"] d.
Definition op_c (d : nat -> R) : hop := Inplace [Fld "network"; Fld "c"] d.
(** GibbsSBM.resample_m (network.py 291): rebound *)
Definition op_m (C : nat) (d : nat -> R) : hop := Rebind [Fld "network"] "m" (NewArr [C] d).
(** ErdosRenyiFixedSparsity.resample_v (network.py 976): self.v is a number *)
Definition op_v_er (r : R) : hop := Rebind [Fld "network"] "v" (NewNum r).
(** DiscreteTimeParents.Z (parents.py 83-90) creates the i-th data set's list of parent count arrays;
    resample (219-282) overwrites them in place. *)
Definition op_Z (i : nat) (xs : list (list nat * (nat -> R))) : hop := Rebind [Fld "data_list"; Idx i] "_Z" (NewLst xs).
Definition op_Z_inplace (i k : nat) (d : nat -> R) : hop := Inplace [Fld "data_list"; Idx i; Fld "_Z"; Idx k] d.
(** add_data (models.py 740-753): append a DiscreteTimeParents object *)
Definition op_add_data (fs : list (string * rhs)) : hop := Append [Fld "data_list"] fs.

(** The Gibbs updates and data additions, as a predicate on heap operations. *)
Definition gibbs_op (o : hop) : Prop :=
  (exists K d, o = op_lambda0 K d) \/ (exists d, o = op_g d) \/ (exists d, o = op_A_serial d) \/
  (exists K d, o = op_A_fresh K d) \/ (exists K d, o = op_W K d) \/
  (exists d, o = op_p d \/ o = op_v d \/ o = op_c d) \/ (exists C d, o = op_m C d) \/ (exists r, o = op_v_er r) \/
  (exists i xs, o = op_Z i xs) \/ (exists i k d, o = op_Z_inplace i k d) \/ (exists fs, o = op_add_data fs).

(** get_parameters (models.py 855-865): the attribute values themselves, in this order. *)
Definition param_paths : list (list step) :=
  [[Fld "weight_model"; Fld "A"]; [Fld "weight_model"; Fld "W"]; [Fld "impulse_model"; Fld "g"];
   [Fld "bias_model"; Fld "lambda0"]; [Fld "network"; Fld "p"]; [Fld "network"; Fld "v"]].
Fixpoint read_all (h : heap) (m : loc) (ps : list (list step)) : result (list val) :=
  match ps with
  | [] => Ok []
  | p :: ps' => match walk h (VRef m) p with
                | Some v => do vs <- read_all h m ps' ;; Ok (v :: vs)
                | None => Raise AttributeError
                end
  end.
Definition get_parameters (h : heap) (m : loc) : result (list val) := read_all h m param_paths.

(** set_parameters (models.py 867-898). [K], [B] are self.K and self.basis.B. *)
Definition is_arr (h : heap) (v : val) (dims : list nat) (ok : (nat -> R) -> bool) : bool :=
  match v with
  | VRef l => match h_at h l with
              | Some (Arr d x) => if list_eq_dec Nat.eq_dec d dims then ok x else false
              | _ => false
              end
  | _ => false
  end.
(** np.amin(x) >= 0 over n entries *)
Definition amin_nonneg (n : nat) (x : nat -> R) : bool := forall_lt n (fun i => Rleb 0 (x i)).
(** np.allclose(beta.sum(axis=2), 1.0), defaults rtol=1e-5, atol=1e-8 *)
Definition close1 (x : R) : bool := Rleb (Rabs (x - 1)) (/ 10 ^ 8 + / 10 ^ 5 * 1).
Definition rows_close1 (K B : nat) (x : nat -> R) : bool :=
  forall_lt (K * K) (fun i => close1 (Rsum B (fun b => x (i * B + b)%nat))).
Definition set_at (h : heap) (m : loc) (p : list step) (f : string) (v : val) : result heap :=
  match walk h (VRef m) p with
  | Some (VRef l) => set_attr h l f v
  | _ => Raise AttributeError
  end.
Definition set_parameters (K B : nat) (h : heap) (m : loc) (params : list val) : result heap :=
  match params with
  | [A; W; beta; lambda0; c; p; v; mm] =>
      do _ <- guard (is_arr h A [K; K] (fun _ => true)) AssertionError ;;
      do _ <- guard (is_arr h W [K; K] (amin_nonneg (K * K))) AssertionError ;;
      do _ <- guard (is_arr h beta [K; K; B] (rows_close1 K B)) AssertionError ;;
      do _ <- guard (is_arr h lambda0 [K] (amin_nonneg K)) AssertionError ;;
      do h1 <- set_at h m [Fld "weight_model"] "A" A ;;
      do h2 <- set_at h1 m [Fld "weight_model"] "W" W ;;
      do h3 <- set_at h2 m [Fld "impulse_model"] "g" beta ;;
      do h4 <- set_at h3 m [Fld "bias_model"] "lambda0" lambda0 ;;
      do h5 <- set_at h4 m [Fld "network"] "c" c ;;
      do h6 <- set_at h5 m [Fld "network"] "p" p ;;
      do h7 <- set_at h6 m [Fld "network"] "v" v ;;
      set_at h7 m [Fld "network"] "m" mm
  | _ => Raise ValueError       (* too many / not enough values to unpack (expected 8) *)
  end.

(** NumPy views: a base array, an offset and strides (in elements). *)
Record view := { v_loc : loc; v_off : nat; v_dims : list nat; v_strides : list nat }.
Fixpoint dot_idx (ix st : list nat) : nat :=
  match ix, st with i :: ix', s :: st' => (i * s + dot_idx ix' st')%nat | _, _ => 0%nat end.
Definition v_get (h : heap) (v : view) (ix : list nat) : R :=
  match h_at h (v_loc v) with
  | Some (Arr _ x) => x (v_off v + dot_idx ix (v_strides v))%nat
  | _ => 0
  end.

(** self.weights (K x (1+KB)), self.weights[:,1:], and its reshape to (K,K,B).
    NumPy's reshape of a strided array splits one axis (here the last, of
    length KB, into K and B) without copying, so the result is a view. *)
Definition weights_view (l : loc) (K B : nat) : view :=
  {| v_loc := l; v_off := 0; v_dims := [K; 1 + K * B]%nat; v_strides := [1 + K * B; 1]%nat |}.
Definition slice_from1 (v : view) : view :=
  match v_dims v, v_strides v with
  | [a; b], [s; t] => {| v_loc := v_loc v; v_off := (v_off v + t)%nat; v_dims := [a; b - 1]%nat; v_strides := [s; t] |}
  | _, _ => v
  end.
Definition split_last (v : view) (K B : nat) : view :=
  match v_dims v, v_strides v with
  | [a; _], [s; t] => {| v_loc := v_loc v; v_off := v_off v; v_dims := [a; K; B]; v_strides := [s; B * t; t]%nat |}
  | _, _ => v
  end.

(** In-place write through a (K,K,B) view: view[k,k',b] = x k k' b for all indices.
    The element of the base array at flat position [i] is rewritten when it is the image of an index. *)
Definition w_pos (K B k k' b : nat) : nat := (k * (1 + K * B) + 1 + (k' * B + b))%nat.
Definition v_set3 (h : heap) (v : view) (x : nat -> nat -> nat -> R) : heap :=
  match h_at h (v_loc v), v_dims v, v_strides v with
  | Some (Arr d a), [n0; n1; n2], [s0; s1; s2] =>
      store h (v_loc v)
        (Arr d (fun i =>
           match find (fun t => Nat.eqb i (v_off v + (fst (fst t) * s0 + (snd (fst t) * s1 + snd t * s2)))%nat)
                      (list_prod (list_prod (seq 0 n0) (seq 0 n1)) (seq 0 n2)) with
           | Some t => x (fst (fst t)) (snd (fst t)) (snd t)
           | None => a i
           end))
  | _, _, _ => h
  end.

(** DiscreteTimeStandardHawkesModel.G (models.py 136-148): returns the transposed view, after `G /= W`. *)
Definition std_read_G (K B : nat) (h : heap) (m : loc) : result (heap * (nat -> nat -> nat -> R)) :=
  match walk h (VRef m) [Fld "weights"] with
  | Some (VRef l) =>
      let G := split_last (slice_from1 (weights_view l K B)) K B in
      let W k k' := Rsum B (fun b => v_get h G [k; k'; b]) in
      let h' := v_set3 h G (fun k k' b => v_get h G [k; k'; b] / W k k') in
      Ok (h', fun k' k b => v_get h' G [k; k'; b])
  | _ => Raise AttributeError
  end.
(** .W (models.py 114-130): sums into a new array; the assertions compare a view with itself.
    [WB[0,0,B-1]] etc. need K, B >= 1 or raise IndexError. *)
Definition std_read_W (K B : nat) (h : heap) (m : loc) : result (heap * (nat -> nat -> R)) :=
  match walk h (VRef m) [Fld "weights"] with
  | Some (VRef l) =>
      let WB := split_last (slice_from1 (weights_view l K B)) K B in
      if (Nat.eqb K 0 || Nat.eqb B 0)%bool then Raise IndexError
      else let W k' k := Rsum B (fun b => v_get h WB [k; k'; b]) in
           let (h', _) := alloc h (Arr [K; K] (fun i => W (i / K) (i mod K))%nat) in
           Ok (h', W)
  | _ => Raise AttributeError
  end.
(** .bias (models.py 132-134): the view weights[:,0] *)
Definition std_read_bias (K B : nat) (h : heap) (m : loc) : result (heap * (nat -> R)) :=
  match walk h (VRef m) [Fld "weights"] with
  | Some (VRef l) => Ok (h, fun k => v_get h (weights_view l K B) [k; 0%nat])
  | _ => Raise AttributeError
  end.

(** _StochasticBlockModelBase.P, .V (network.py 139-157): fancy indexing copies; fill_diagonal acts on the copy.
    [net] is the network object; labels are stored as numbers. *)
Definition label_at (x : nat -> R) (k : nat) : nat := Z.to_nat (Int_part (x k)).
Definition gather (C K : nat) (p c : nat -> R) (i : nat) : R :=
  p (label_at c (i / K) * C + label_at c (i mod K))%nat.
Definition read_block (C K : nat) (f : string) (zero_diag : bool) (h : heap) (net : loc) : result (heap * loc) :=
  match walk h (VRef net) [Fld f], walk h (VRef net) [Fld "c"] with
  | Some (VRef lp), Some (VRef lc) =>
      match h_at h lp, h_at h lc with
      | Some (Arr _ p), Some (Arr _ c) =>
          let (h1, l) := alloc h (Arr [K; K] (gather C K p c)) in
          if zero_diag
          then Ok (store h1 l (Arr [K; K] (fun i => if Nat.eqb (i / K) (i mod K) then 0 else gather C K p c i)), l)
          else Ok (h1, l)
      | _, _ => Raise TypeError
      end
  | _, _ => Raise AttributeError
  end.
(** ErdosRenyiFixedSparsity.P, .V (network.py 929-946): self.p * np.ones((K,K)) *)
Definition read_er (K : nat) (f : string) (zero_diag : bool) (h : heap) (net : loc) : result (heap * loc) :=
  match walk h (VRef net) [Fld f] with
  | Some (VNum p) =>
      let (h1, l) := alloc h (Arr [K; K] (fun _ => p)) in
      if zero_diag
      then Ok (store h1 l (Arr [K; K] (fun i => if Nat.eqb (i / K) (i mod K) then 0 else p)), l)
      else Ok (h1, l)
  | _ => Raise TypeError
  end.
