(** Vocabulary: partial derivatives of functions of a vector. *)
From Coq Require Import PeanoNat Reals.
From Coquelicot Require Import Coquelicot.
From Verif Require Import M_RefGeo.
Local Open Scope R_scope.

(** [G] is the partial derivative of [F] in direction [k] *)
Definition is_partial (k : nat) (F G : Vec -> R) : Prop :=
  forall x, is_derive (fun t => F (fun j => if Nat.eqb j k then t else x j)) (x k) (G x).
