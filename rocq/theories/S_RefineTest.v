(** The exit code of a sequence of tests, and the refinements of the library with the elements they refine. *)
From Coq Require Import PeanoNat NArith Bool List Reals.
From Verif Require Import M_Matrix S_RefGeo M_MultiLinear M_GaussNewton M_LocalFE S_Topo S_MultiLinear S_Agree M_Type M_RefGeo M_Virtual M_Refine M_RefineTest S_Refine.
Import ListNotations.

(** 1 after a failure, 0 once a test has been passed, otherwise what it was *)
Definition verdict (result : nat) (tests : list bool) : nat :=
  if existsb negb tests then 1
  else match tests with [] => result | _ => if Nat.eqb result 77 then 0 else result end.
(** implementation, dimension, topology ids of the refined element and of the parts *)
Inductive Refines : Impl -> nat -> N -> N -> Prop :=
| R_simplex : forall dim, 0 < dim < 256 -> Refines ISimplex dim 0 0
| R_cube : forall dim, 1 < dim < 256 -> Refines IHCube dim (gt_id (cube dim)) (gt_id (cube dim))
| R_triang : forall dim, 1 < dim < 256 -> Refines IHCubeTriangulation dim (gt_id (cube dim)) 0
| R_prism : Refines IPrismTriangulation 3 (gt_id prism) 0
| R_pyramid : Refines IPyramidTriangulation 3 (gt_id pyramid) 0.
(** the iterators of a refinement for n intervals: nE elements st 0, st 1, ..; nV vertices vs 0, vs 1, .. *)
Definition iterates (rf : Refinement) (n nE : nat) (st : nat -> rf_E rf) (nV : nat) (vs : nat -> rf_V rf) : Prop :=
  visits (rf_eIncrement rf) (fun s => rf_eEquals rf s (rf_eEnd rf n)) (rf_eBegin rf n) nE st /\
  visits (rf_vIncrement rf) (fun s => rf_vEquals rf s (rf_vEnd rf n)) (rf_vBegin rf n) nV vs.
(** nElements() and nVertices() *)
Definition elementCount (i : Impl) (dim n : nat) : nat :=
  match i with
  | ISimplex => sx_nElements dim n
  | IHCube => hc_nElements dim n
  | IHCubeTriangulation => tr_nElements dim (tr_cube dim) n
  | IPrismTriangulation => tr_nElements dim tr_prism n
  | IPyramidTriangulation => tr_nElements dim tr_pyramid n
  end.
Definition vertexCount (i : Impl) (dim n : nat) : nat :=
  match i with
  | ISimplex => sx_nVertices dim n
  | IHCube => hc_nVertices dim n
  | IHCubeTriangulation => tr_nVertices dim (tr_cube dim) n
  | IPrismTriangulation => tr_nVertices dim tr_prism n
  | IPyramidTriangulation => tr_nVertices dim tr_pyramid n
  end.
(** a rule exists and its points are ones at which multilinear maps are evaluated properly *)
Definition goodRule (tol : R) (rule : N -> nat -> option Rule) (id : N) (d : nat) : Prop :=
  exists q, rule id d = Some q /\ forall x w, In (x, w) q -> usable tol id d x.
