(** Vocabulary: the outer normal of a facet of a mapped element, formed as a user of the code
    forms it, by applying jacobianInverseTransposed to integrationOuterNormal(i). *)
From Coq Require Import NArith PeanoNat List Reals.
From Verif Require Import M_Type M_RefTopo M_RefGeo M_Matrix M_MultiLinear S_Matrix.
Local Open Scope R_scope.

Definition mapped_normal (mydim cdim : nat) (tol : R) (jm jk j1 j2 : Mat) (g : MLGeo) (i : nat) (x n : Vec) : Prop :=
  exists N D X, nth_error (referenceIntegrationOuterNormals (ml_id g) mydim) i = Some N
    /\ mlg_jacobianInverseTransposed mydim cdim tol jm jk j1 j2 g x = Some (D, X)
    /\ n = mvec mydim X N.
Definition vdot (n : nat) (a b : Vec) : R := rsum n (fun k => a k * b k).
Definition vlen (n : nat) (a : Vec) : R := sqrt (vdot n a a).
