(** Linear algebra vocabulary for the statements about M_Matrix and the geometries. *)
From Coq Require Import PeanoNat Reals.
From Verif Require Import M_RefGeo.
Local Open Scope R_scope.

Definition mmul (n : nat) (A B : Mat) : Mat := fun i j => rsum n (fun k => A i k * B k j).
Definition mtr (A : Mat) : Mat := fun i j => A j i.
Definition mone : Mat := fun i j => if Nat.eqb i j then 1 else 0.
Definition mvec (n : nat) (A : Mat) (x : Vec) : Vec := fun i => rsum n (fun j => A i j * x j).
Definition meq (m n : nat) (A B : Mat) : Prop := forall i j, (i < m)%nat -> (j < n)%nat -> A i j = B i j.
Definition veq (n : nat) (x y : Vec) : Prop := forall i, (i < n)%nat -> x i = y i.
(** the n x n block is symmetric, positive definite *)
Definition symmetric (n : nat) (A : Mat) : Prop := meq n n A (mtr A).
Definition qform (n : nat) (A : Mat) (x : Vec) : R := rsum n (fun i => x i * mvec n A x i).
Definition SPD (n : nat) (A : Mat) : Prop :=
  symmetric n A /\ forall x : Vec, (exists i, (i < n)%nat /\ x i <> 0) -> 0 < qform n A x.
Definition lower_triangular (n : nat) (L : Mat) : Prop := forall i j, (i < j < n)%nat -> L i j = 0.
(** what remains of L when everything above the diagonal is ignored *)
Definition low (L : Mat) : Mat := fun i j => if Nat.leb j i then L i j else 0.
(** the m rows (the n columns) of an m x n matrix are linearly independent *)
Definition row_independent (m n : nat) (A : Mat) : Prop :=
  forall x : Vec, (forall j, (j < n)%nat -> mvec m (mtr A) x j = 0) -> forall i, (i < m)%nat -> x i = 0.
Definition col_independent (m n : nat) (A : Mat) : Prop :=
  forall x : Vec, (forall i, (i < m)%nat -> mvec n A x i = 0) -> forall j, (j < n)%nat -> x j = 0.
(** X (n x m) is the Moore-Penrose inverse of A (m x n) *)
Definition moore_penrose (m n : nat) (A X : Mat) : Prop :=
  meq m n (mmul m (mmul n A X) A) A /\ meq n m (mmul n (mmul m X A) X) X /\
  symmetric m (mmul n A X) /\ symmetric n (mmul m X A).

(** squared euclidean distance of A y and x *)
Definition residual (m n : nat) (A : Mat) (x y : Vec) : R :=
  rsum m (fun i => (mvec n A y i - x i) * (mvec n A y i - x i)).
