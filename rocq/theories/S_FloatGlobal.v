(** Specification of the mappings in floating point arithmetic (C68). *)
From Coq Require Import PeanoNat NArith ZArith Bool List Reals.
From Flocq Require Import Core IEEE754.BinarySingleNaN.
From Verif Require Import S_Topo M_Type M_RefTopo M_RefGeo M_MultiLinear S_MultiLinear M_Float.
Import ListNotations.
Local Open Scope R_scope.

(** number of cones in the construction of a topology; the line is not counted *)
Fixpoint ncones (T : Topo) : nat :=
  match T with
  | Pt => 0
  | Pri b => ncones b
  | Pyr b => match b with Pt => 0 | _ => S (ncones b) end
  end.

(** topologies for which an error bound is claimed: all of dimension at most three, all cubes
    and simplices, prisms over these with one cone, ... *)
Definition tame (id : N) (dim : nat) : Prop :=
  (ncones (topo_of id dim) <= 1)%nat \/ isSimplex (GT2 id dim) = true.

(** the geometry with the values of the stored corners *)
Definition exactly {prec emax} (corners : list (nat -> binary_float prec emax)) : list Vec :=
  List.map (fun c k => B2R (c k)) corners.

(** a floating point number and its value, up to the sign of zero *)
Definition same_value {prec emax} (a b : binary_float prec emax) : Prop :=
  is_finite a = true /\ B2R a = B2R b /\ (B2R b <> 0 -> a = b).

(** w1*c1 + w2*c2 + ... in coordinate k, rounded after each operation, from left to right *)
Definition weighted (prec emax : Z) (Hp : FLX.Prec_gt_0 prec) (He : Prec_lt_emax prec emax)
    (l : list (binary_float prec emax * (nat -> binary_float prec emax))) (k : nat) : option (binary_float prec emax) :=
  match l with
  | [] => None
  | p :: l => Some (fold_left (fun s p => fadd prec emax Hp He s (fmul prec emax Hp He (fst p) (snd p k))) l
                              (fmul prec emax Hp He (fst p) (snd p k)))
  end.

(** the exact image of a point: the corners weighted with the shape functions *)
Definition image (id : N) (dim : nat) (corners : list Vec) (x : Vec) (k : nat) : R :=
  rsum (nv (topo_of id dim)) (fun i => shape (topo_of id dim) x i * nth i corners vzero k).
