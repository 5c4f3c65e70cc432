(** Quadrilaterals in the plane: the bilinear map, its Jacobian determinant, convexity. *)
From Coq Require Import Reals.
From Verif Require Import M_RefGeo.
Local Open Scope R_scope.

Section Quad.
Variables c0 c1 c2 c3 : Vec.
Definition bilinear (x : Vec) (k : nat) : R :=
  (1 - x 0%nat) * (1 - x 1%nat) * c0 k + x 0%nat * (1 - x 1%nat) * c1 k + (1 - x 0%nat) * x 1%nat * c2 k + x 0%nat * x 1%nat * c3 k.
(** derivatives in the two directions *)
Definition bx (x : Vec) (k : nat) : R := (1 - x 1%nat) * (c1 k - c0 k) + x 1%nat * (c3 k - c2 k).
Definition by_ (x : Vec) (k : nat) : R := (1 - x 0%nat) * (c2 k - c0 k) + x 0%nat * (c3 k - c1 k).
Definition jdet (x : Vec) : R := bx x 0%nat * by_ x 1%nat - bx x 1%nat * by_ x 0%nat.
(** how far it is from a parallelogram *)
Definition mixed (k : nat) : R := c0 k - c1 k - c2 k + c3 k.
Definition pt (a b : R) : Vec := fun k => match k with O => a | _ => b end.
(** the determinant has one sign and is at least m at the corners; for a quadrilateral this is
    strict convexity *)
Definition convex (m : R) : Prop :=
  0 < m /\ ((m <= jdet (pt 0 0) /\ m <= jdet (pt 1 0) /\ m <= jdet (pt 0 1) /\ m <= jdet (pt 1 1)) \/
            (jdet (pt 0 0) <= - m /\ jdet (pt 1 0) <= - m /\ jdet (pt 0 1) <= - m /\ jdet (pt 1 1) <= - m)).
Definition center : Vec := pt (1 / 2) (1 / 2).
Definition in_square (x : Vec) : Prop := 0 <= x 0%nat <= 1 /\ 0 <= x 1%nat <= 1.
End Quad.
