(** Orientation of a simplex with numbered corners. *)
From Coq Require Import PeanoNat List Reals Factorial.
From Verif Require Import M_RefGeo P_Det.
Import ListNotations.
Local Open Scope R_scope.

(** the determinant of the edges that start in corner 0; for the reference simplex it is 1 *)
Definition orientation (dim : nat) (v : nat -> Vec) : R := detR dim (fun i j => v (S i) j - v 0%nat j).

(** simplex.cc:180-210: permutation number m is a product of transpositions T_i, where T_i
    exchanges the entries i and t_i, and i - t_i = (m / i!) % (i+1).  The number of those that
    are no identity: *)
Definition transpositions (dim m : nat) : nat :=
  length (filter (fun i => negb (Nat.eqb ((m / fact i) mod S i) 0)) (seq 0 dim)).
(** the orientation of vertexIndices() that follows; an odd m reverses the order of the corners by
    (dim+1)/2 exchanges *)
Definition indexSign (dim m : nat) : R :=
  (-1) ^ (transpositions dim m + if Nat.odd m then (dim + 1) / 2 else 0).
