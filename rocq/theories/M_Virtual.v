(** Model of dune/geometry/virtualrefinement.cc: the builder and the iterators. *)
From Coq Require Import NArith PeanoNat Bool List.
From Verif Require Import M_Type.
Import ListNotations.

(** ** the builder *)
(** an instance of VirtualRefinementImp< topologyId, CoordType, coerceToId, dimension > *)
Record VRImp := mkVR { vr_topology : N; vr_coerce : N; vr_dim : nat }.
(** a reference to an instance, or DUNE_THROW(NotImplemented) *)
Inductive Built := BInstance (i : VRImp) | BNotImplemented.

(** & ~1 on unsigned integers (virtualrefinement.cc:525-526) *)
Definition clear1 (id : N) : N := N.ldiff id 1.
(** the constexpr labels (528-529, 601-604) *)
Definition idSimplex (dim : nat) : N := clear1 (gt_id (simplex dim)).
Definition idCube (dim : nat) : N := clear1 (gt_id (cube dim)).
Definition idPrism : N := clear1 (gt_id prism).
Definition idPyramid : N := clear1 (gt_id pyramid).

(** lines 517-565: the general RefinementBuilder *)
Definition build_general (dim : nat) (topologyId coerceToId : N) : Built :=
  let topologyId := clear1 topologyId in
  let coerceToId := clear1 coerceToId in
  if N.eqb topologyId (idSimplex dim) then
    (if N.eqb coerceToId (idSimplex dim) then BInstance (mkVR (idSimplex dim) (idSimplex dim) dim) else BNotImplemented)
  else if N.eqb topologyId (idCube dim) then
    (if N.eqb coerceToId (idSimplex dim) then BInstance (mkVR (idCube dim) (idSimplex dim) dim)
     else if N.eqb coerceToId (idCube dim) then BInstance (mkVR (idCube dim) (idCube dim) dim) else BNotImplemented)
  else BNotImplemented.
(** lines 567-587: dimension 1 *)
Definition build_one (topologyId coerceToId : N) : Built :=
  let topologyId := clear1 topologyId in
  let coerceToId := clear1 coerceToId in
  if N.eqb topologyId 0 && N.eqb coerceToId 0 then BInstance (mkVR (idSimplex 1) (idSimplex 1) 1) else BNotImplemented.
(** lines 589-666: dimension 3 *)
Definition build_three (topologyId coerceToId : N) : Built :=
  let topologyId := clear1 topologyId in
  let coerceToId := clear1 coerceToId in
  if N.eqb topologyId (idSimplex 3) then
    (if N.eqb coerceToId (idSimplex 3) then BInstance (mkVR (idSimplex 3) (idSimplex 3) 3) else BNotImplemented)
  else if N.eqb topologyId (idCube 3) then
    (if N.eqb coerceToId (idSimplex 3) then BInstance (mkVR (idCube 3) (idSimplex 3) 3)
     else if N.eqb coerceToId (idCube 3) then BInstance (mkVR (idCube 3) (idCube 3) 3) else BNotImplemented)
  else if N.eqb topologyId idPrism then
    (if N.eqb coerceToId (idSimplex 3) then BInstance (mkVR idPrism (idSimplex 3) 3) else BNotImplemented)
  else if N.eqb topologyId idPyramid then
    (if N.eqb coerceToId (idSimplex 3) then BInstance (mkVR idPyramid (idSimplex 3) 3) else BNotImplemented)
  else BNotImplemented.
(** lines 502-512: the function; the assertion is active *)
Definition buildRefinement (dim : nat) (t c : GeometryType) : option Built :=
  if Nat.eqb (gt_dim t) dim && Nat.eqb (gt_dim c) dim then
    Some (match dim with 1%nat => build_one | 3%nat => build_three | _ => build_general dim end (gt_id t) (gt_id c))
  else None.
(** the case labels of one switch have to be different for the program to compile *)
Definition labels (dim : nat) : list N :=
  match dim with 1%nat => [] | 3%nat => [idSimplex 3; idCube 3; idPrism; idPyramid] | _ => [idSimplex dim; idCube dim] end.

(** ** which implementation an instance wraps: the specialisations of RefinementImp::Traits *)
Inductive Impl := ISimplex | IHCube | IHCubeTriangulation | IPrismTriangulation | IPyramidTriangulation.
Definition sh1 (id : N) : N := N.shiftr id 1.
(** refinement/simplex.cc:736-747, hcube.cc:431-443, hcubetriangulation.cc:400-412,
    prismtriangulation.cc:396-406, pyramidtriangulation.cc:399-409: the conditions of enable_if *)
Definition enabled (i : Impl) (topologyId coerceToId : N) (dim : nat) : bool :=
  match i with
  | ISimplex => N.eqb (sh1 (gt_id (simplex dim))) (sh1 topologyId) && N.eqb (sh1 (gt_id (simplex dim))) (sh1 coerceToId)
  | IHCube => (2 <=? dim)%nat && N.eqb (sh1 (gt_id (cube dim))) (sh1 topologyId) && N.eqb (sh1 (gt_id (cube dim))) (sh1 coerceToId)
  | IHCubeTriangulation => (2 <=? dim)%nat && N.eqb (sh1 (gt_id (cube dim))) (sh1 topologyId) && N.eqb (sh1 (gt_id (simplex dim))) (sh1 coerceToId)
  | IPrismTriangulation => (dim =? 3)%nat && N.eqb (sh1 (gt_id prism)) (sh1 topologyId) && N.eqb (sh1 (gt_id (simplex 3))) (sh1 coerceToId)
  | IPyramidTriangulation => (dim =? 3)%nat && N.eqb (sh1 (gt_id pyramid)) (sh1 topologyId) && N.eqb (sh1 (gt_id (simplex 3))) (sh1 coerceToId)
  end.

(** ** the iterators *)
Section Iterators.
(** The backend iterators of all implementations: [Val] is the state of one, with the
    instance it belongs to; increment, comparison of two of the same instance, index. *)
Variables (Kind St : Type) (kind_eqb : Kind -> Kind -> bool) (step : Kind -> St -> St) (same : Kind -> St -> St -> bool) (indexOf : Kind -> St -> nat).
Record Back := mkBack { bk_kind : Kind; bk_state : St }.

(** The heap: objects created with new, [None] once deleted.  Addresses are not reused, so
    that any later access is noticed.  The iterator objects are variables; [None]: not
    constructed (or destroyed); the value is the member backend, a pointer. *)
Record VMem := mkMem { vm_heap : list (option Back); vm_var : nat -> option nat }.
Definition setVar (m : VMem) (x : nat) (p : option nat) : VMem := mkMem (vm_heap m) (fun y => if Nat.eqb y x then p else vm_var m y).

(** new *)
Definition alloc (m : VMem) (b : Back) : VMem * nat := (mkMem (vm_heap m ++ [Some b]) (vm_var m), length (vm_heap m)).
(** reading an object: None if it has been deleted *)
Definition load (m : VMem) (p : nat) : option Back := match nth_error (vm_heap m) p with Some (Some b) => Some b | _ => None end.
Fixpoint setNth {A} (l : list A) (k : nat) (a : A) : list A :=
  match l, k with [], _ => [] | _ :: l, O => a :: l | x :: l, S k => x :: setNth l k a end.
Definition write (m : VMem) (p : nat) (b : Back) : option VMem :=
  match load m p with Some _ => Some (mkMem (setNth (vm_heap m) p (Some b)) (vm_var m)) | None => None end.
(** delete: of something deleted is undefined *)
Definition free (m : VMem) (p : nat) : option VMem :=
  match load m p with Some _ => Some (mkMem (setNth (vm_heap m) p None) (vm_var m)) | None => None end.
Definition bind {A B} (o : option A) (f : A -> option B) : option B := match o with Some a => f a | None => None end.

(** lines 34-64, 131-137: vBegin and the others: construct x from new SubEntityIteratorBack.
    Returning the temporary does not copy (C++17). *)
Definition op_make (m : VMem) (x : nat) (b : Back) : option VMem :=
  match vm_var m x with Some _ => None | None => let (m, p) := alloc m b in Some (setVar m x (Some p)) end.
(** lines 139-144 and 438-443: copy constructor, clone *)
Definition op_copy (m : VMem) (x y : nat) : option VMem :=
  match vm_var m x with Some _ => None | None =>
  bind (vm_var m y) (fun q => bind (load m q) (fun b => let (m, p) := alloc m b in Some (setVar m x (Some p)))) end.
(** lines 146-152: destructor *)
Definition op_destroy (m : VMem) (x : nat) : option VMem :=
  bind (vm_var m x) (fun p => bind (free m p) (fun m => Some (setVar m x None))).
(** lines 154-163: assignment: delete backend; backend = other.backend->clone(); *)
Definition op_assign (m : VMem) (x y : nat) : option VMem :=
  bind (vm_var m x) (fun p => bind (vm_var m y) (fun q =>
  bind (free m p) (fun m => bind (load m q) (fun b => let (m, p) := alloc m b in Some (setVar m x (Some p)))))).
(** the same if clone() throws (std::bad_alloc) *)
Definition op_assign_throw (m : VMem) (x y : nat) : option VMem :=
  bind (vm_var m x) (fun p => bind (vm_var m y) (fun q => bind (free m p) (fun m => bind (load m q) (fun _ => Some m)))).
(** lines 172-179 and 460-468: increment *)
Definition op_increment (m : VMem) (x : nat) : option VMem :=
  bind (vm_var m x) (fun p => bind (load m p) (fun b => write m p (mkBack (bk_kind b) (step (bk_kind b) (bk_state b))))).
(** lines 165-170 and 445-458: equals; dynamic_cast fails for a different class *)
Definition op_equals (m : VMem) (x y : nat) : option bool :=
  bind (vm_var m x) (fun p => bind (vm_var m y) (fun q => bind (load m p) (fun a => bind (load m q) (fun b =>
  Some (if kind_eqb (bk_kind a) (bk_kind b) then same (bk_kind a) (bk_state a) (bk_state b) else false))))).
(** lines 181-186 *)
Definition op_index (m : VMem) (x : nat) : option nat :=
  bind (vm_var m x) (fun p => bind (load m p) (fun b => Some (indexOf (bk_kind b) (bk_state b)))).

(** histories *)
Inductive Op := OMake (x : nat) (b : Back) | OCopy (x y : nat) | OAssign (x y : nat) | OIncrement (x : nat) | ODestroy (x : nat) | OEquals (x y : nat) | OIndex (x : nat).
Inductive Obs := ONone | OBool (b : bool) | ONat (n : nat).
Definition exec (m : VMem) (o : Op) : option (VMem * Obs) :=
  match o with
  | OMake x b => option_map (fun m => (m, ONone)) (op_make m x b)
  | OCopy x y => option_map (fun m => (m, ONone)) (op_copy m x y)
  | OAssign x y => option_map (fun m => (m, ONone)) (op_assign m x y)
  | OIncrement x => option_map (fun m => (m, ONone)) (op_increment m x)
  | ODestroy x => option_map (fun m => (m, ONone)) (op_destroy m x)
  | OEquals x y => option_map (fun b => (m, OBool b)) (op_equals m x y)
  | OIndex x => option_map (fun n => (m, ONat n)) (op_index m x)
  end.
Fixpoint run (m : VMem) (os : list Op) : option (VMem * list Obs) :=
  match os with
  | [] => Some (m, [])
  | o :: os => bind (exec m o) (fun '(m, r) => option_map (fun '(m, rs) => (m, r :: rs)) (run m os))
  end.
Definition emptyMem : VMem := mkMem [] (fun _ => None).
End Iterators.
