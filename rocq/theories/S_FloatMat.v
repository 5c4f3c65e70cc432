(** Specification vocabulary for the error bounds of the matrix helper (C71). *)
From Coq Require Import PeanoNat ZArith Bool List Reals.
From Flocq Require Import Core IEEE754.BinarySingleNaN.
From Verif Require Import S_RefGeo.
Local Open Scope R_scope.

Section D.
Variables (prec emax : Z).
Notation float := (binary_float prec emax).
(** unit roundoff and half the smallest positive number *)
Definition uro : R := bpow radix2 (- prec).
Definition tiny : R := bpow radix2 (2 - emax - prec).
(** k relative errors *)
Definition grow (k : nat) : R := (1 + uro) ^ k.
Definition gam (k : nat) : R := grow k - 1.
(** the lower triangular matrix in real numbers *)
Definition low (L : nat -> nat -> float) (i j : nat) : R := if Nat.leb j i then B2R (L i j) else 0.
(** all entries on and below the diagonal are finite *)
Definition low_finite (n : nat) (L : nat -> nat -> float) : Prop := forall i j, (j <= i < n)%nat -> is_finite (L i j) = true.
Definition all_finite (n : nat) (x : nat -> float) : Prop := forall i, (i < n)%nat -> is_finite (x i) = true.
Definition mat_finite (m n : nat) (A : nat -> nat -> float) : Prop := forall i j, (i < m)%nat -> (j < n)%nat -> is_finite (A i j) = true.
(** the symmetric matrix whose lower triangle is stored *)
Definition symm (A : nat -> nat -> float) (i j : nat) : R := if Nat.leb j i then B2R (A i j) else B2R (A j i).
Definition adot (n : nat) (a b : nat -> R) : R := Ssum n (fun k => Rabs (a k * b k)).
Definition rdot (n : nat) (a b : nat -> R) : R := Ssum n (fun k => a k * b k).

(** the bound on the residual of spdInvAx: [Q] is the computed factor, [x] the computed solution *)
Definition chol_G (n : nat) (Q : nat -> nat -> float) (x : nat -> R) (i : nat) : R :=
  Ssum n (fun j => Rabs (low Q i j) * Ssum n (fun k => Rabs (low Q k j) * Rabs (x k))).
Definition chol_K (n : nat) (Q : nat -> nat -> float) : R := INR n + 2 * Ssum n (fun j => Rabs (B2R (Q j j))).
Definition solve_bound (n : nat) (Q : nat -> nat -> float) (x : nat -> R) (i : nat) : R :=
  gam (n + 2) * (3 + gam (n + 2)) * chol_G n Q x i +
  grow (n + 2) * chol_K n Q * (1 + grow (n + 2) * Ssum n (fun j => Rabs (low Q i j)) + Ssum n (fun k => Rabs (x k))) * tiny.
End D.
