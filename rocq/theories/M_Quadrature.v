(** Model of the construction of the quadrature rules: the table classes, simplexquadrature.hh,
    prismquadrature.hh, pointquadrature.hh, jacobiNquadrature.hh, tensorproductquadrature.hh and
    QuadratureRuleFactory (quadraturerules.hh).

    Simplification: [ct] is [R]; the literals are converted exactly.  The eigenvalue
    computation that jacobiNquadrature.hh:127-170 delegates to LAPACK is the parameter [lapack];
    a build without LAPACK is [fun _ _ => None] (the constructor throws). *)
From Coq Require Import NArith ZArith QArith PeanoNat Bool List Reals Qreals.
From Verif Require Import M_Type M_TypeIndex M_RefGeo M_QuadFactory M_Tab M_TabGauss M_TabLobatto M_TabRadauLeft
  M_TabRadauRight M_TabJacobi1 M_TabJacobi2 M_TabSimplex.
Import ListNotations.
Local Open Scope R_scope.

(** quadraturerules.hh:66-125 QuadraturePoint and 213-252 QuadratureRule: geometry_type,
    delivered_order and the vector of (position, weight). *)
Definition QPoint : Type := Vec * R.
Record Rule := mkRule { ru_type : GeometryType; ru_order : Z; ru_points : list QPoint }.

(** FieldVector<ct,1>(x) *)
Definition vec1 (x : R) : Vec := fun k => match k with O => x | S _ => 0 end.

(** gaussquadrature.hh:1305-1321 (and the same lines at the end of the five other headers): the
    constructor copies points and weights of the init helper; [None] if that throws. *)
Definition tableRule (tab : list Entry) (p : Z) : option Rule :=
  match switchOn tab p with
  | Some e => Some (mkRule line (en_order e) (map (fun xw => (vec1 (Q2R (fst xw)), Q2R (snd xw))) (en_data e)))
  | None => None
  end.

Section WithLapack.
(** jacobiNodesWeights(degree, alpha): positions and weights *)
Variable lapack : Z -> nat -> option (list (R * R)).

(** jacobiNquadrature.hh:98-123 decideRuleExponent with the tables it reads through
    QuadratureRules::rule, and the scaling of the weights by 1/2 and 1/4. *)
Definition scaleWeights (s : R) (pts : list QPoint) : list QPoint :=
  map (fun q => (fst q, s * snd q)) pts.
Definition decideRule (p : Z) (alpha : nat) : option (list QPoint) :=
  match jacobiTable p alpha with
  | Some q =>
      match q with
      | 0 => option_map ru_points (tableRule gaussTable p)
      | 1 => option_map (fun r => scaleWeights (/ 2) (ru_points r)) (tableRule jacobi1Table p)
      | _ => option_map (fun r => scaleWeights (/ 4) (ru_points r)) (tableRule jacobi2Table p)
      end%nat
  | None => option_map (map (fun xw => (vec1 (fst xw), snd xw))) (lapack p alpha)
  end.
(** jacobiNquadrature.hh:50-61 *)
Definition jacobiN (p : Z) (alpha : nat) : option Rule :=
  if (p <? 0)%Z || (maxOrderJacobiN <? p)%Z then None
  else option_map (fun pts => mkRule line (2 * Z.of_nat (length pts) - 1)%Z pts) (decideRule p alpha).

(** quadraturerules.hh:436-460: the one dimensional factory *)
Definition rule1D (p : Z) (qt : nat) : option Rule :=
  match qt with
  | 0 => tableRule gaussTable p
  | 1 => tableRule jacobi1Table p
  | 2 => tableRule jacobi2Table p
  | 3 => jacobiN p 0
  | 4 => tableRule lobattoTable p
  | 5 => tableRule radauLeftTable p
  | 6 => tableRule radauRightTable p
  | _ => None
  end%nat.

(** pointquadrature.hh:24-31 *)
Definition pointRule : Rule := mkRule vertex INT_MAX [((fun _ => 0) : Vec, 1)].

(** The loops simplexquadrature.hh:834-841, 1071-1078 and prismquadrature.hh:173-180 over the
    points of rule [m]. *)
Definition storeRule (t : GeometryType) (s : Store) (m : nat) : Rule :=
  mkRule t (st_O s m)
    (map (fun i => ((fun k => Q2R (st_G s m i k)) : Vec, Q2R (st_W s m i))) (seq 0 m)).
(** simplexquadrature.hh:785-831: which rule is used for order [p] on the triangle *)
Definition triangleM (p : Z) : nat :=
  (match p with
   | 0%Z => 1 | 1%Z => 1 | 2%Z => 3 | 3%Z => 4 | 4%Z => 6 | 5%Z => 7 | 6%Z => 12 | 7%Z => 12
   | 8%Z => 16 | 9%Z => 19 | 10%Z => 25 | 11%Z => 28 | 12%Z => 33 | _ => 33
   end)%nat.
(** simplexquadrature.hh:1049-1068 *)
Definition tetrahedronM (p : Z) : nat :=
  (match p with
   | 0%Z => 1 | 1%Z => 1 | 2%Z => 4 | 3%Z => 8 | 4%Z => 15 | 5%Z => 15 | _ => 15
   end)%nat.
(** simplexquadrature.hh:775-842, 1040-1080; throws above the highest order *)
Definition simplexRule (dim : nat) (p : Z) : option Rule :=
  match dim with
  | 2 => if (highestTriangle <? p)%Z then None else Some (storeRule triangle (run triangleInit) (triangleM p))
  | 3 => if (highestTetrahedron <? p)%Z then None else Some (storeRule tetrahedron (run tetrahedronInit) (tetrahedronM p))
  | _ => None
  end%nat.
(** prismquadrature.hh:165-181 *)
Definition prismRule : Rule := storeRule prism (run prismInit) 6.

(** tensorproductquadrature.hh:61-86 tensorProduct: [d] is dim-1. *)
Definition tensorProduct (d : nat) (base oned : list QPoint) : list QPoint :=
  flat_map (fun b => map (fun o =>
    ((fun k => if Nat.eqb k d then fst o 0%nat else fst b k) : Vec, snd b * snd o)) oned) base.
(** tensorproductquadrature.hh:116-156 conicalProduct; [respect] is respectWeightFunction. *)
Definition conicalProduct (d : nat) (respect : bool) (base oned : list QPoint) : list QPoint :=
  flat_map (fun b => map (fun o =>
    let z := fst o 0%nat in
    let scale := 1 - z in
    let weight := snd b * snd o in
    ((fun k => if Nat.eqb k d then z else scale * fst b k) : Vec,
     if respect then weight else Nat.iter d (fun w => w * scale) weight)) oned) base.

(** QuadratureRules::rule (quadraturerules.hh:324-327): the vector of orders has
    maxOrder+1 entries; outside of it the behaviour is undefined. *)
Definition inRange (dim : nat) (t : GeometryType) (p : Z) (qt : nat) : bool :=
  match dim with
  | O => true
  | S _ => match maxOrder dim t qt with Some m => (0 <=? p)%Z && (p <=? m)%Z | None => false end
  end.
Definition fetch1D (p : Z) (qt : nat) : option Rule :=
  if inRange 1 lineT p qt then rule1D p qt else None.

(** QuadratureRuleFactory::rule (quadraturerules.hh:377-380, 396-403, 436-460, 477-486,
    506-523) and the constructor tensorproductquadrature.hh:39-52. *)
Fixpoint factory (dim : nat) (t : GeometryType) (p : Z) (qt : nat) : option Rule :=
  match choose dim t p qt with
  | ChPoint => Some pointRule
  | Ch1D q => rule1D p q
  | ChSimplex => simplexRule dim p
  | ChPrism => Some prismRule
  | ChThrow => None
  | ChTensor base isPrism =>
      match dim with
      | O => None
      | S d =>
          match (if inRange d base p qt then factory d base p qt else None) with
          | None => None
          | Some b =>
              option_map (mkRule (GT2 (gt_id t) dim) p)
                (if isPrism then
                   option_map (fun o => tensorProduct d (ru_points b) (ru_points o)) (fetch1D p qt)
                 else if Nat.eqb qt qtJacobiN then
                   option_map (fun o => conicalProduct d true (ru_points b) (ru_points o)) (jacobiN p d)
                 else
                   option_map (fun o => conicalProduct d false (ru_points b) (ru_points o))
                     (fetch1D (p + Z.of_nat d) qt))
          end
      end
  end.

(** The rule that QuadratureRules<ctype,dim>::rule(t,p,qt) returns. *)
Definition quadRule (r : Req) : option Rule :=
  if inRange (rq_dim r) (rq_t r) (rq_p r) (rq_qt r) then factory (rq_dim r) (rq_t r) (rq_p r) (rq_qt r) else None.

End WithLapack.
