(** The test programs of the geometry types. *)
From Coq Require Import NArith PeanoNat Bool List.
From Verif Require Import M_Type M_TypeIndex.
Import ListNotations.

(** ** test-fromvertexcount.cc *)

(** test-fromvertexcount.cc:31-45 guessTopologyId with six arguments: the ids appended to
    [ids].  [n] is dim - d, the recursion ends at d = dim.  The unsigned arithmetic is not
    reduced: for dim <= 31 it does not overflow, see [guessTopologyId]. *)
Fixpoint guessIds (n vertices v : nat) (id : N) (d : nat) : list N :=
  match n with
  | O => if Nat.eqb v vertices then [id] else []
  | S n' => guessIds n' vertices (v + 1) id (d + 1)
            ++ guessIds n' vertices (v * 2) (id + N.shiftl 1 (N.of_nat d))%N (d + 1)
  end.

(** test-fromvertexcount.cc:47-60 guessTopologyId with two arguments; [None] is an exception,
    or for dim >= 32 the undefined shift of line 52. *)
Definition guessTopologyId (dim vertices : nat) : option N :=
  if Nat.eqb dim 0 || Nat.eqb dim 1 then Some 0%N
  else if Nat.leb 32 dim then None
  else if Nat.ltb vertices (dim + 1) || Nat.ltb (2 ^ dim) vertices then None
  else match guessIds (dim - 1) vertices 2 1 1 with
       | [id] => Some id
       | _ => None
       end.

(** test-fromvertexcount.cc:62-71 testGuess for the function [f] in the place of
    geometryTypeFromVertexCount; [false] is an exception.  The output is left out. *)
Definition testGuess (f : nat -> nat -> option GeometryType) (dim vertices : nat) : bool :=
  match guessTopologyId dim vertices, f dim vertices with
  | Some id, Some gt => negb (gt_neqb (GT2 id dim) gt)
  | _, _ => false
  end.

(** test-fromvertexcount.cc:73-84 main; all exceptions end in return 1. *)
Definition vc_configurations : list (list nat) := [[1]; [2]; [3; 4]; [4; 5; 6; 8]].
Definition vc_main (f : nat -> nat -> option GeometryType) : bool :=
  forallb (fun d => forallb (testGuess f d) (nth d vc_configurations [])) (seq 0 4).

(** ** test-nonetype.cc *)

(** test-nonetype.cc:8-22 main for the function [f] in the place of GeometryTypes::none. *)
Definition nt_main (f : nat -> GeometryType) : bool := forallb (fun dim => gt_none (f dim)) (seq 0 10).

(** ** test-geometrytype-id.cc *)

Section Id.
  (** toId(), the constructor from an Id, and prismaticExtension *)
  Variables (to : GeometryType -> N) (of : N -> GeometryType) (ext : GeometryType -> GeometryType).
  (** test-geometrytype-id.cc:8-17 Foo<gtid>::gt and Foo<gtid>::apply *)
  Definition foo_gt (gtid : N) : GeometryType := of gtid.
  Definition foo_apply (gtid : N) : N := gt_id (foo_gt (to (ext (foo_gt gtid)))).
  (** test-geometrytype-id.cc:19-45 main: two static assertions and one test *)
  Definition id_main : bool :=
    let gt2a := triangle in
    let foo2 := to gt2a in
    let gt2b := foo_gt foo2 in
    let foo3 := to (ext gt2b) in
    let gt3 := foo_gt foo3 in
    gt_eqb gt2a gt2b && gt_eqb gt3 prism && (foo_apply foo2 =? gt_id (foo_gt foo3))%N.
End Id.

(** ** test-constexpr-geometrytype.cc *)

(** test-constexpr-geometrytype.cc:8-18 main for the default constructor [d0], GeometryTypes::none
    and the constructor from a topology id and a dimension *)
Definition ce_main (d0 : GeometryType) (f : nat -> GeometryType) (gt2 : N -> nat -> GeometryType) : bool :=
  gt_none d0 && gt_eqb d0 (f 0) && gt_eqb (gt2 1%N 1) line.
