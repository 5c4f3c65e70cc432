(** Model of referenceelements.hh (ReferenceElementContainer, ReferenceElements), of the value
    class ReferenceElement (referenceelement.hh) and of the range checks of the Python interface
    (dune/python/geometry/referenceelements.hh:24-91).

    Simplifications: of a ReferenceElementImplementation the topological part ([re_infos]) is
    kept; an address is the position in [implementations_] of the one container of a dimension
    (function-local static, constructed once); [1u << dim] is not truncated (dim <= 31). *)
From Coq Require Import NArith ZArith PeanoNat Bool List.
From Verif Require Import M_Type M_RefTopo.
Import ListNotations.

(** referenceelements.hh:44 *)
Definition rc_numTopologies (dim : nat) : nat := 2 ^ dim.

(** ReferenceElementImplementation: [None] as default constructed. *)
Definition Implementation := option RefElement.
(** referenceelement.hh:304: the pointer [_impl]; [None] is nullptr (lines 254-256). *)
Definition RefEl := option nat.

(** referenceelements.hh:101-102 *)
Record Container := mkContainer { rc_implementations : list Implementation; rc_elements : list RefEl }.

Fixpoint lset {A} (l : list A) (k : nat) (a : A) : option (list A) :=
  match l, k with
  | [], _ => None
  | _ :: r, 0 => Some (a :: r)
  | x :: r, S k' => option_map (cons x) (lset r k' a)
  end.

(** referenceelements.hh:54-61: the body of the loop of the constructor; initialize is
    referenceelementimplementation.hh:571-582, its assert is the first test. *)
Definition rc_step (dim topologyId : nat) (c : Container) : option Container :=
  if N.ltb (N.of_nat topologyId) (numTopologies dim) then
    obind (re_infos (N.of_nat topologyId) dim) (fun r =>
    obind (lset (rc_implementations c) topologyId (Some r)) (fun im =>
    obind (lset (rc_elements c) topologyId (Some topologyId)) (fun el =>
    Some (mkContainer im el))))
  else None.
Fixpoint rc_loop (dim count from : nat) (c : Container) : option Container :=
  match count with
  | 0 => Some c
  | S k => obind (rc_step dim from c) (rc_loop dim k (S from))
  end.
Definition container (dim : nat) : option Container :=
  rc_loop dim (rc_numTopologies dim) 0
    (mkContainer (repeat None (rc_numTopologies dim)) (repeat None (rc_numTopologies dim))).

(** array access; outside of the array: undefined *)
Definition rc_at (c : Container) (id : N) : option RefEl := nth_error (rc_elements c) (N.to_nat id).
(** referenceelements.hh:63-67 operator(); the assert is kept *)
Definition rc_general (dim : nat) (c : Container) (type : GeometryType) : option RefEl :=
  if Nat.eqb (gt_dim type) dim then rc_at c (gt_id type) else None.
(** referenceelements.hh:69-87 *)
Definition rc_simplex (dim : nat) (c : Container) := rc_at c (gt_id (simplex dim)).
Definition rc_cube (dim : nat) (c : Container) := rc_at c (gt_id (cube dim)).
Definition rc_pyramid (c : Container) := rc_at c (gt_id pyramid).
Definition rc_prism (c : Container) := rc_at c (gt_id prism).
(** referenceelements.hh:89-97: the elements from begin() to end() *)
Definition rc_range (c : Container) : list RefEl := rc_elements c.

(** referenceelement.hh:263-266 impl(): undefined on an empty reference element *)
Definition impl (c : Container) (r : RefEl) : option RefElement :=
  obind r (fun a => match nth_error (rc_implementations c) a with Some (Some x) => Some x | _ => None end).
(** referenceelement.hh:175-178 type() = _impl->type() = type(0,0) *)
Definition el_type (c : Container) (r : RefEl) : option GeometryType := obind (impl c r) (fun x => re_type x 0 0).
Definition el_size (c : Container) (r : RefEl) (cc : nat) : option nat := option_map (fun x => re_size x cc) (impl c r).
(** referenceelement.hh:269-278 operator== *)
Definition el_eqb (a b : RefEl) : bool :=
  match a, b with Some x, Some y => Nat.eqb x y | None, None => true | _, _ => false end.
(** referenceelement.hh:281-284 hash_value: the address *)
Definition el_hash (base : nat -> N) (a : RefEl) : N := match a with Some x => base x | None => 0%N end.

(** ** Range checks of the Python interface *)
Inductive Py (A : Type) := PyValueError | PyReturn (a : A) | PyUndefined.
Arguments PyValueError {A}. Arguments PyReturn {A} _. Arguments PyUndefined {A}.
Definition py_of {A} (o : option A) : Py A := match o with Some a => PyReturn a | None => PyUndefined end.
Definition py_bind {A B} (o : Py A) (f : A -> Py B) : Py B :=
  match o with PyReturn a => f a | PyValueError => PyValueError | PyUndefined => PyUndefined end.
Local Open Scope Z_scope.
(** lines 32-38 referenceElementSize(c) *)
Definition py_size (dim : nat) (r : RefElement) (c : Z) : Py nat :=
  if (c <? 0) || (Z.of_nat dim <? c) then PyValueError else PyReturn (re_size r (Z.to_nat c)).
(** lines 40-49 referenceElementSize(i,c,cc) *)
Definition py_size3 (dim : nat) (r : RefElement) (i c cc : Z) : Py nat :=
  py_bind (py_size dim r c) (fun size =>
    if (i <? 0) || (Z.of_nat size <=? i) then PyValueError
    else if (cc <? c) || (Z.of_nat dim <? cc) then PyValueError
    else py_of (re_size3 r (Z.to_nat i) (Z.to_nat c) (Z.to_nat cc))).
(** lines 56-63 referenceElementSubEntity *)
Definition py_subEntity (dim : nat) (r : RefElement) (i c ii cc : Z) : Py nat :=
  py_bind (py_size3 dim r i c cc) (fun size =>
    if (ii <? 0) || (Z.of_nat size <=? ii) then PyValueError
    else py_of (re_subEntity r (Z.to_nat i) (Z.to_nat c) (Z.to_nat ii) (Z.to_nat cc))).
(** lines 83-90 referenceElementType *)
Definition py_type (dim : nat) (r : RefElement) (i c : Z) : Py GeometryType :=
  py_bind (py_size dim r c) (fun size =>
    if (i <? 0) || (Z.of_nat size <=? i) then PyValueError
    else py_of (re_type r (Z.to_nat i) (Z.to_nat c))).
Fixpoint py_all {A} (f : Z -> Py A) (count : nat) (from : Z) : Py (list A) :=
  match count with
  | O => PyReturn []
  | S k => py_bind (f from) (fun a => py_bind (py_all f k (from + 1)) (fun l => PyReturn (a :: l)))
  end.
(** lines 126-132 types(codim) and 149-155 subEntities(i,c,cc): tuples *)
Definition py_types (dim : nat) (r : RefElement) (c : Z) : Py (list GeometryType) :=
  py_bind (py_size dim r c) (fun size => py_all (fun i => py_of (re_type r (Z.to_nat i) (Z.to_nat c))) size 0).
Definition py_subEntities (dim : nat) (r : RefElement) (i c cc : Z) : Py (list nat) :=
  py_bind (py_size3 dim r i c cc) (fun size =>
    py_all (fun ii => py_of (re_subEntity r (Z.to_nat i) (Z.to_nat c) (Z.to_nat ii) (Z.to_nat cc))) size 0).
(** lines 237-242 general: None for none types *)
Definition py_general (dim : nat) (c : Container) (type : GeometryType) : option (option RefEl) :=
  if gt_none type then Some None else option_map Some (rc_general dim c type).
