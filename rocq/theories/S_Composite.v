(** Vocabulary for the composite quadrature rule. *)
From Coq Require Import NArith ZArith PeanoNat Bool List Reals.
From Verif Require Import M_Type M_RefTopo M_RefGeo M_Quadrature S_Topo S_RefGeo S_MultiLinear M_Refine.
Import ListNotations.
Local Open Scope R_scope.

(** A point at which the geometries of the elements do not lose accuracy: away from the
    apexes of the simplex by more than the tolerance, or inside and, if it is closer to an
    apex than that, equal to it. *)
Definition evaluable (dim : nat) (tol : R) (x : Vec) : Prop :=
  smooth tol (topo_of simplexId dim) x
  \/ (regular tol (topo_of simplexId dim) x /\ in_hull dim (referenceCorners simplexId dim) x).

(** a rule for the simplex of dimension dim *)
Definition simplexRule (dim : nat) (tol : R) (b : Rule) : Prop :=
  isSimplex (ru_type b) = true /\ gt_dim (ru_type b) = dim /\ forall q, In q (ru_points b) -> evaluable dim tol (fst q).

Fixpoint weightSum (pts : list QPoint) : R := match pts with [] => 0 | q :: pts => snd q + weightSum pts end.
