(** Model of dune/geometry/typeindex.hh and utility/typefromvertexcount.hh. *)
From Coq Require Import NArith PeanoNat Bool List.
From Verif Require Import M_Type.
Import ListNotations.
Local Open Scope N_scope.

(** typeindex.hh:32-53 LocalGeometryTypeIndex::regular_size. *)
Definition regular_size (dim : nat) : N := bit dim - N.shiftr (bit dim) 1.

(** typeindex.hh:61-65 LocalGeometryTypeIndex::size. *)
Definition local_size (dim : nat) : N := regular_size dim + 1.

(** typeindex.hh:73-76 LocalGeometryTypeIndex::index. *)
Definition local_index (t : GeometryType) : N :=
  if gt_none t then regular_size (gt_dim t) else N.shiftr (gt_id t) 1.

(** typeindex.hh:79-85 LocalGeometryTypeIndex::type. *)
Definition local_type (dim : nat) (index : N) : GeometryType :=
  if index =? regular_size dim then none dim else GT2 (N.shiftl index 1) dim.

(** typeindex.hh:98-106 GlobalGeometryTypeIndex::regular_offset. *)
Definition regular_offset (dim : nat) : N := N.shiftr (bit dim) 1.

(** typeindex.hh:113-117 GlobalGeometryTypeIndex::offset. *)
Definition global_offset (dim : nat) : N := regular_offset dim + N.of_nat dim.

(** typeindex.hh:125-128 GlobalGeometryTypeIndex::size. *)
Definition global_size (maxdim : nat) : N := global_offset (maxdim + 1).

(** typeindex.hh:138-141 GlobalGeometryTypeIndex::index. *)
Definition global_index (t : GeometryType) : N :=
  global_offset (gt_dim t) + local_index t.

(** Dune::Hybrid::switchCases (dune-common, not in /repo): the cases are tried in
    order; the first equal one runs the branch, otherwise the fallback runs. *)
Fixpoint switchCases {A} (cases : list N) (value : N) (branch : N -> A) (fallback : A) : A :=
  match cases with
  | [] => fallback
  | c :: rest => if c =? value then branch c else switchCases rest value branch fallback
  end.

(** [std::make_index_sequence<n>]. *)
Definition make_index_sequence (n : N) : list N :=
  map N.of_nat (seq 0 (N.to_nat n)).

(** typeindex.hh:148-159 Impl::toGeometryTypeIdConstant<dim>: the id handed to f. *)
Definition toGeometryTypeIdConstant (dim : nat) (gt : GeometryType) : N :=
  let callWithId i := toId (local_type dim i) in
  switchCases (make_index_sequence (local_size dim - 1)) (local_index gt)
              callWithId (callWithId 0).

(** utility/typefromvertexcount.hh:17-50; [None] is the DUNE_THROW. *)
Definition geometryTypeFromVertexCount (dim vertices : nat) : option GeometryType :=
  match dim with
  | 0 => Some vertex
  | 1 => Some line
  | 2 => match vertices with
         | 3 => Some triangle
         | 4 => Some quadrilateral
         | _ => None
         end
  | 3 => match vertices with
         | 4 => Some tetrahedron
         | 5 => Some pyramid
         | 6 => Some prism
         | 8 => Some hexahedron
         | _ => None
         end
  | _ => None
  end%nat.
