(** Vocabulary for the refinements: permutations, the points of the refined simplex, the
    loop `for (it = begin; it != end; ++it)`, simplices and their interiors. *)
From Coq Require Import PeanoNat List Reals.
From Verif Require Import M_RefGeo S_RefGeo.
Import ListNotations.

Definition isPerm (n : nat) (p : nat -> nat) : Prop :=
  (forall i, i < n -> p i < n) /\ (forall i j, i < n -> j < n -> p i = p j -> i = j).
(** equal as vectors of length n *)
Definition agree {A} (n : nat) (v w : nat -> A) : Prop := forall i, i < n -> v i = w i.

(** [n >= v 0 >= v 1 >= .. >= v (dim-1)]: the grid points of the Kuhn simplex of width n *)
Definition gridPoint (dim n : nat) (v : nat -> nat) : Prop :=
  (0 < dim -> v 0 <= n) /\ forall i, S i < dim -> v (S i) <= v i.

(** The loop `for (it = begin; !(it == end); ++it)` makes exactly N rounds, in round k
    the iterator is [st k]; no call is undefined. *)
Definition visits {S} (step : S -> option S) (atEnd : S -> bool) (begin : S) (N : nat) (st : nat -> S) : Prop :=
  st 0 = begin
  /\ (forall k, k < N -> atEnd (st k) = false /\ step (st k) = Some (st (k + 1)))
  /\ atEnd (st N) = true.

Local Open Scope R_scope.
(** the reference simplex in [dim] coordinates *)
Definition inSimplex (dim : nat) (x : Vec) : Prop :=
  (forall i, (i < dim)%nat -> 0 <= x i) /\ Ssum dim x <= 1.
(** The Kuhn simplex of the permutation p: 1 >= y(p 0) >= y(p 1) >= .. >= y(p (dim-1)) >= 0 *)
Definition inKuhn (dim : nat) (p : nat -> nat) (y : Vec) : Prop :=
  (forall i, (i < dim)%nat -> 0 <= y (p i) <= 1)
  /\ (forall i, (S i < dim)%nat -> y (p (S i)) <= y (p i)).
(** a convex combination with all weights positive: in the interior of the simplex of the corners *)
Definition in_interior (n : nat) (cs : list (nat -> R)) (x : nat -> R) : Prop :=
  exists w : nat -> R,
    (forall i, (i < length cs)%nat -> 0 < w i)
    /\ Ssum (length cs) w = 1
    /\ forall k, (k < n)%nat -> x k = Ssum (length cs) (fun i => w i * nth i cs (fun _ => 0) k).
