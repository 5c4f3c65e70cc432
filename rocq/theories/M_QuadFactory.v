(** Model of the order bookkeeping of quadraturerules.hh, tensorproductquadrature.hh and
    jacobiNquadrature.hh: which rule is built for a request, and which further rules its
    construction requests.  The points and weights are in M_Quadrature.v.

    [unsigned] and [int] are [Z]; the wrap-around of the one unsigned subtraction is kept. *)
From Coq Require Import NArith ZArith PeanoNat Bool List.
From Verif Require Import M_Type M_TypeIndex.
Import ListNotations.
Local Open Scope Z_scope.

(** quadraturerules.hh:132-195 QuadratureType::Enum. *)
Definition qtLegendre : nat := 0.
Definition qtJacobi1 : nat := 1.
Definition qtJacobi2 : nat := 2.
Definition qtJacobiN : nat := 3.
Definition qtLobatto : nat := 4.
Definition qtRadauLeft : nat := 5.
Definition qtRadauRight : nat := 6.
Definition qtSize : nat := 7.

(** The [highest_order] constants: gaussquadrature.hh:35, jacobi1quadrature.hh:35,
    jacobi2quadrature.hh:35, gausslobattoquadrature.hh:35, gaussradauleftquadrature.hh:35,
    gaussradaurightquadrature.hh:35, simplexquadrature.hh:33, 47, prismquadrature.hh:33. *)
Definition highestGauss : Z := 61.
Definition highestJacobi1 : Z := 61.
Definition highestJacobi2 : Z := 61.
Definition highestLobatto : Z := 31.
Definition highestRadauLeft : Z := 30.
Definition highestRadauRight : Z := 30.
Definition highestTriangle : Z := 12.
Definition highestTetrahedron : Z := 5.
Definition highestPrism : Z := 2.
(** jacobiNquadrature.hh:64-67 *)
Definition maxOrderJacobiN : Z := 127.

Definition INT_MAX : Z := 2147483647.
Definition uint (z : Z) : Z := z mod 2 ^ 32.

(** quadraturerules.hh:411-435: the switch of QuadratureRuleFactory<ctype,1>::maxOrder;
    [None] is the DUNE_THROW. *)
Definition maxOrder1 (qt : nat) : option Z :=
  match qt with
  | 0 => Some highestGauss
  | 1 => Some highestJacobi1
  | 2 => Some highestJacobi2
  | 3 => Some maxOrderJacobiN
  | 4 => Some highestLobatto
  | 5 => Some highestRadauLeft
  | 6 => Some highestRadauRight
  | _ => None
  end%nat.

(** tensorproductquadrature.hh:42-46, 160-164: the base type of a product of dimension
    [S d]: bit [d] of the topology id is reset. *)
Definition tpBase (id : N) (d : nat) : GeometryType := GT2 (N.clearbit id (N.of_nat d)) d.
(** tensorproductquadrature.hh:44, 162: [isPrism = baseId[dim-1]]. *)
Definition tpPrism (id : N) (d : nat) : bool := N.testbit id (N.of_nat d).

(** quadraturerules.hh:373-376, 388-395, 411-435, 468-476, 494-505 QuadratureRuleFactory::
    maxOrder and tensorproductquadrature.hh:158-176 TensorProductQuadratureRule::maxOrder
    (through QuadratureRules::maxOrder, quadraturerules.hh:316-321). *)
Fixpoint maxOrder (dim : nat) (t : GeometryType) (qt : nat) : option Z :=
  match dim with
  | O => if isVertex t then Some INT_MAX else None
  | S d =>
      match d with
      | O => if isLine t then maxOrder1 qt else None
      | S _ =>
          match maxOrder d (tpBase (gt_id t) d) qt, maxOrder1 qt with
          | Some b, Some l =>
              let tensor :=
                if tpPrism (gt_id t) d then Z.min b l
                else if Nat.eqb qt qtJacobiN then Z.min b l
                else Z.min b (uint (l - Z.of_nat d)) in
              Some
                match dim with
                | 2%nat => if isSimplex t then Z.max tensor highestTriangle else tensor
                | 3%nat =>
                    let order :=
                      if isSimplex t then Z.max tensor highestTetrahedron else tensor in
                    if isPrismT t then Z.max order highestPrism else order
                | _ => tensor
                end
          | _, _ => None
          end
      end
  end.

(** Which rule QuadratureRuleFactory::rule (quadraturerules.hh:377-380, 396-403, 436-460,
    477-486, 506-523) returns. *)
Inductive Choice :=
| ChPoint
| Ch1D (qt : nat)
| ChSimplex
| ChPrism
| ChTensor (base : GeometryType) (isPrism : bool)
| ChThrow.

Definition choose (dim : nat) (t : GeometryType) (p : Z) (qt : nat) : Choice :=
  match dim with
  | O => if isVertex t then ChPoint else ChThrow
  | S O => if isLine t then (if Nat.ltb qt qtSize then Ch1D qt else ChThrow) else ChThrow
  | S d =>
      let tensor := ChTensor (tpBase (gt_id t) d) (tpPrism (gt_id t) d) in
      match dim with
      | 2%nat =>
          if isSimplex t && (Nat.eqb qt qtLegendre || Nat.eqb qt qtJacobiN)
             && (p <=? highestTriangle) then ChSimplex else tensor
      | 3%nat =>
          if isSimplex t && (Nat.eqb qt qtLegendre || Nat.eqb qt qtJacobiN)
             && (p <=? highestTetrahedron) then ChSimplex
          else if isPrismT t && Nat.eqb qt qtLegendre && (p <=? highestPrism) then ChPrism
          else tensor
      | _ => tensor
      end
  end.

(** A call of QuadratureRules<ctype,dim>::rule(t,p,qt). *)
Record Req := mkReq { rq_dim : nat; rq_t : GeometryType; rq_p : Z; rq_qt : nat }.

(** GeometryTypes::line *)
Definition lineT : GeometryType := line.

(** jacobiNquadrature.hh:69-76, 98-123: the table that JacobiNQuadratureRule1D(p,alpha)
    copies, if it does not use LAPACK. *)
Definition jacobiTable (p : Z) (alpha : nat) : option nat :=
  if p <? Z.min highestGauss (Z.min highestJacobi1 highestJacobi2)
  then match alpha with
       | 0 => Some qtLegendre
       | 1 => Some qtJacobi1
       | 2 => Some qtJacobi2
       | _ => None
       end%nat
  else None.

Definition jacobiSubs (p : Z) (alpha : nat) : list Req :=
  match jacobiTable p alpha with
  | Some q => [mkReq 1 lineT p q]
  | None => []
  end.

(** The calls of QuadratureRules::rule made while the rule of a request is constructed, in
    order: tensorproductquadrature.hh:47, 64-65, 122-128, jacobiNquadrature.hh:102-121. *)
Definition subs (r : Req) : list Req :=
  match choose (rq_dim r) (rq_t r) (rq_p r) (rq_qt r) with
  | ChPoint | ChSimplex | ChPrism | ChThrow => []
  | Ch1D qt => if Nat.eqb qt qtJacobiN then jacobiSubs (rq_p r) 0 else []
  | ChTensor base isPrism =>
      let d := (rq_dim r - 1)%nat in
      mkReq d base (rq_p r) (rq_qt r) ::
      (if isPrism then [mkReq 1 lineT (rq_p r) (rq_qt r)]
       else if Nat.eqb (rq_qt r) qtJacobiN then jacobiSubs (rq_p r) d
       else [mkReq 1 lineT (rq_p r + Z.of_nat d) (rq_qt r)])
  end.
