(** Conforming meshes: two elements meet in the convex hull of common corners. *)
From Coq Require Import PeanoNat List Reals.
From Verif Require Import M_RefGeo S_RefGeo S_Refine.
Import ListNotations.
Local Open Scope R_scope.

(** Whenever a point of the element with corners [cs] also lies in the element with corners
    [cs'], every corner of [cs] that takes part in writing down the point is a corner of [cs']. *)
Definition conform (m : nat) (cs cs' : list Vec) : Prop :=
  forall (X : Vec) (w : nat -> R),
    (forall i, (i < length cs)%nat -> 0 <= w i) -> Ssum (length cs) w = 1 ->
    (forall k, (k < m)%nat -> X k = Ssum (length cs) (fun i => w i * nth i cs (fun _ => 0) k)) ->
    in_hull m cs' X ->
    forall i, (i < length cs)%nat -> 0 < w i -> exists c', In c' cs' /\ agree m (nth i cs (fun _ => 0)) c'.

(** barycentric coordinates of a local position in the reference simplex *)
Definition bary (dim : nat) (x : Vec) (l : nat) : R := match l with O => 1 - Ssum dim x | S k => x k end.
(** the point of the simplex with corners [cs] at local position x *)
Definition simplexPoint (dim : nat) (cs : list Vec) (x : Vec) : Vec :=
  fun k => Ssum (S dim) (fun l => bary dim x l * nth l cs (fun _ => 0) k).
(** weights with sum 1 are determined by the point *)
Definition independent (m : nat) (cs : list Vec) : Prop :=
  forall u v : nat -> R, Ssum (length cs) u = 1 -> Ssum (length cs) v = 1 ->
    (forall k, (k < m)%nat -> Ssum (length cs) (fun i => u i * nth i cs (fun _ => 0) k) = Ssum (length cs) (fun i => v i * nth i cs (fun _ => 0) k)) ->
    forall i, (i < length cs)%nat -> u i = v i.
