(** Vocabulary for vertex orders. *)
From Coq Require Import PeanoNat Bool List Permutation.
Import ListNotations.

(** the comparison of the ids is a strict total order *)
Definition strictTotal {A} (ltb : A -> A -> bool) : Prop :=
  (forall x, ltb x x = false)
  /\ (forall x y z, ltb x y = true -> ltb y z = true -> ltb x z = true)
  /\ (forall x y, ltb x y = true \/ x = y \/ ltb y x = true).

(** two sequences of the same length whose entries compare in the same way *)
Definition sameOrder {A B} (ltA : A -> A -> bool) (ltB : B -> B -> bool) (l : list A) (m : list B) : Prop :=
  length l = length m /\ forall i j a a' b b', nth_error l i = Some a -> nth_error l j = Some a' -> nth_error m i = Some b -> nth_error m j = Some b' ->
    ltA a a' = ltB b b'.

(** the entries of a sequence at given positions *)
Fixpoint pick {A} (l : list A) (ks : list nat) : option (list A) :=
  match ks with
  | [] => Some []
  | k :: ks => match nth_error l k, pick l ks with Some a, Some m => Some (a :: m) | _, _ => None end
  end.
