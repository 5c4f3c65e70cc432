(** Specification vocabulary for gaussNewton and the geometries built on it. *)
From Coq Require Import PeanoNat Reals List.
From Verif Require Import M_RefGeo M_GaussNewton S_Matrix.
Local Open Scope R_scope.

Section D.
Variables (mydim cdim : nat) (f : Vec -> option Vec) (df : Vec -> option Mat) (y : Vec) (theta : R) (inner : nat).

(** the residual norm of the point x is r *)
Definition residual_is (x : Vec) (r : R) : Prop := exists fx, f x = Some fx /\ r = two_norm cdim (fun k => fx k - y k).
(** dx solves the linearised least squares problem at x: J J^T dx = J (f x - y) with J of full rank *)
Definition gn_direction (x dx : Vec) : Prop :=
  exists fx J, f x = Some fx /\ df x = Some J /\ row_independent mydim cdim J /\
    veq mydim (mvec mydim (mmul cdim J (mtr J)) dx) (mvec cdim J (fun k => fx k - y k)).
(** the step length theta^j was tried and did not help *)
Definition no_gain (x dx : Vec) (j : nat) : Prop :=
  exists r r', residual_is x r /\ residual_is (fun k => x k - theta ^ j * dx k) r' /\ r <= r'.
(** one accepted step *)
Definition accepted (x x' : Vec) : Prop :=
  exists dx j r r', gn_direction x dx /\ (j < inner)%nat /\ x' = (fun k => x k - theta ^ j * dx k) /\
    residual_is x r /\ residual_is x' r' /\ r' < r /\ forall i, (i < j)%nat -> no_gain x dx i.
Inductive descent : nat -> Vec -> Vec -> Prop :=
  | descent_0 : forall x, descent 0 x x
  | descent_S : forall n x x' z, accepted x x' -> descent n x' z -> descent (S n) x z.
End D.

(** D (n x m) is the derivative of F : R^m -> R^n at p *)
Definition frechet (m n : nat) (F : Vec -> option Vec) (p : Vec) (D : Mat) : Prop :=
  exists Fp, F p = Some Fp /\
  forall eps, 0 < eps -> exists delta, 0 < delta /\
    forall h : Vec, (forall j, (m <= j)%nat -> h j = 0) -> (forall j, (j < m)%nat -> Rabs (h j) < delta) ->
      exists Fq, F (fun j => p j + h j) = Some Fq /\
        forall k, (k < n)%nat -> Rabs (Fq k - Fp k - rsum m (fun j => D k j * h j)) <= eps * rsum m (fun j => Rabs (h j)).
(** F looks at m coordinates only *)
Definition respects (m n : nat) (F : Vec -> Vec) : Prop := forall p q, veq m p q -> veq n (F p) (F q).
