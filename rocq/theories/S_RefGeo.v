(** Specifications for the reference element geometry: convex hulls, exact iterated
    integrals over the polytopes, and their volumes. *)
From Coq Require Import PeanoNat List Reals.
From Coquelicot Require Import Coquelicot.
From Verif Require Import S_Topo.
Import ListNotations.
Local Open Scope R_scope.

Fixpoint Ssum (n : nat) (f : nat -> R) : R :=
  match n with O => 0 | S n' => Ssum n' f + f n' end.

(** [x] (first [n] coordinates) is a convex combination of the points [cs] *)
Definition in_hull (n : nat) (cs : list (nat -> R)) (x : nat -> R) : Prop :=
  exists w : nat -> R,
    (forall i, (i < length cs)%nat -> 0 <= w i)
    /\ Ssum (length cs) w = 1
    /\ forall k, (k < n)%nat -> x k = Ssum (length cs) (fun i => w i * nth i cs (fun _ => 0) k).

(** [f] integrated over the polytope [T] in coordinates 0 .. tdim T - 1: a prism is
    base x [0,1]; the slice of a pyramid at height t is the base scaled by 1-t. *)
Fixpoint Iint (T : Topo) (f : (nat -> R) -> R) : R :=
  match T with
  | Pt => f (fun _ => 0)
  | Pri b => RInt (fun t => Iint b (fun y => f (fun k => if Nat.eqb k (tdim b) then t else y k))) 0 1
  | Pyr b => RInt (fun t => (1 - t) ^ tdim b
                 * Iint b (fun y => f (fun k => if Nat.eqb k (tdim b) then t else (1 - t) * y k))) 0 1
  end.

Definition volumeT (T : Topo) : R := Iint T (fun _ => 1).
(** centre of gravity *)
Definition centroidT (T : Topo) (k : nat) : R := Iint T (fun x => x k) / volumeT T.
