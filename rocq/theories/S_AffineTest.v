(** The element types an AffineGeometry can be built from corners for. *)
From Coq Require Import PeanoNat NArith Reals.
From Verif Require Import M_Type M_RefGeo.

(** the base of the element is a simplex: below the last step the construction has used cones only
    (the first step, bit 0, from a point to a line, may be either).  These are the simplices and the prisms over
    simplices: line, triangle, quadrilateral, tetrahedron, prism, ... *)
Definition simplexBase (id : N) (dim : nat) : Prop :=
  forall j, (1 <= j)%nat -> (S j < dim)%nat -> N.testbit id (N.of_nat j) = false.
