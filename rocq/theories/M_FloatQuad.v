(** The construction of the quadrature rules with floating point numbers; the exact counterpart is
    M_Quadrature.v, the number type is that of M_Float.v.

    Parameters: [lit] is what a literal (or a quotient of literals) of the tables becomes as [ct]:
    numberfromstring.hh:15-27 passes a double on to [ct], and the C++ standard leaves open to which
    neighbour a literal is rounded.  [lapack] returns positions and weights that
    jacobiNquadrature.hh:127-170 computes, converted to [ct]. *)
From Coq Require Import NArith ZArith QArith PeanoNat Bool List.
From Flocq Require Import IEEE754.BinarySingleNaN.
From Verif Require Import M_Type M_TypeIndex M_QuadFactory M_Quadrature M_Tab M_TabGauss M_TabLobatto M_TabRadauLeft
  M_TabRadauRight M_TabJacobi1 M_TabJacobi2 M_TabSimplex M_Float.
Import ListNotations.

Section FPQuad.
Variables (prec emax : Z).
Context (Hp : FLX.Prec_gt_0 prec) (He : Prec_lt_emax prec emax).
Notation float := (binary_float prec emax).
Notation "a - b" := (fsub prec emax Hp He a b).
Notation "a * b" := (fmul prec emax Hp He a b).
Notation one := (ofZ prec emax Hp He 1).
Notation fzero := (B754_zero false : float).

(** quadraturerules.hh:66-125, 213-252 *)
Definition FQPoint : Type := (nat -> float) * float.
Record FRule := mkFRule { fr_type : GeometryType; fr_order : Z; fr_points : list FQPoint }.
Definition fvec1 (x : float) : nat -> float := fun k => match k with O => x | S _ => fzero end.

Variable lit : Q -> float.
Variable lapack : Z -> nat -> option (list (float * float)).

(** gaussquadrature.hh:1305-1321 and the five other headers *)
Definition tableRuleF (tab : list Entry) (p : Z) : option FRule :=
  match switchOn tab p with
  | Some e => Some (mkFRule line (en_order e) (map (fun xw => (fvec1 (lit (fst xw)), lit (snd xw))) (en_data e)))
  | None => None
  end.

(** ct( 0.5 ), ct( 0.25 ) *)
Definition fquarter : float := binary_normalize prec emax Hp He mode_NE 1 (-2) false.
(** jacobiNquadrature.hh:98-123 *)
Definition scaleWeightsF (s : float) (pts : list FQPoint) : list FQPoint :=
  map (fun q => (fst q, s * snd q)) pts.
Definition decideRuleF (p : Z) (alpha : nat) : option (list FQPoint) :=
  match jacobiTable p alpha with
  | Some q =>
      match q with
      | 0 => option_map fr_points (tableRuleF gaussTable p)
      | 1 => option_map (fun r => scaleWeightsF (fhalf prec emax Hp He) (fr_points r)) (tableRuleF jacobi1Table p)
      | _ => option_map (fun r => scaleWeightsF fquarter (fr_points r)) (tableRuleF jacobi2Table p)
      end%nat
  | None => option_map (map (fun xw => (fvec1 (fst xw), snd xw))) (lapack p alpha)
  end.
(** jacobiNquadrature.hh:50-61 *)
Definition jacobiNF (p : Z) (alpha : nat) : option FRule :=
  if (p <? 0)%Z || (maxOrderJacobiN <? p)%Z then None
  else option_map (fun pts => mkFRule line (Z.sub (Z.mul 2 (Z.of_nat (length pts))) 1) pts) (decideRuleF p alpha).

(** quadraturerules.hh:436-460 *)
Definition rule1DF (p : Z) (qt : nat) : option FRule :=
  match qt with
  | 0 => tableRuleF gaussTable p
  | 1 => tableRuleF jacobi1Table p
  | 2 => tableRuleF jacobi2Table p
  | 3 => jacobiNF p 0
  | 4 => tableRuleF lobattoTable p
  | 5 => tableRuleF radauLeftTable p
  | 6 => tableRuleF radauRightTable p
  | _ => None
  end%nat.

(** pointquadrature.hh:24-31 *)
Definition pointRuleF : FRule := mkFRule vertex INT_MAX [((fun _ => fzero), one)].

(** simplexquadrature.hh:834-841, 1071-1078 and prismquadrature.hh:173-180 *)
Definition storeRuleF (t : GeometryType) (s : Store) (m : nat) : FRule :=
  mkFRule t (st_O s m) (map (fun i => ((fun k => lit (st_G s m i k)), lit (st_W s m i))) (seq 0 m)).
(** simplexquadrature.hh:775-842, 1040-1080 *)
Definition simplexRuleF (dim : nat) (p : Z) : option FRule :=
  match dim with
  | 2 => if (highestTriangle <? p)%Z then None else Some (storeRuleF triangle (run triangleInit) (triangleM p))
  | 3 => if (highestTetrahedron <? p)%Z then None else Some (storeRuleF tetrahedron (run tetrahedronInit) (tetrahedronM p))
  | _ => None
  end%nat.
(** prismquadrature.hh:165-181 *)
Definition prismRuleF : FRule := storeRuleF prism (run prismInit) 6.

(** tensorproductquadrature.hh:61-86: [d] is dim-1 *)
Definition tensorProductF (d : nat) (base oned : list FQPoint) : list FQPoint :=
  flat_map (fun b => map (fun o =>
    ((fun k => if Nat.eqb k d then fst o 0%nat else fst b k), snd b * snd o)) oned) base.
(** tensorproductquadrature.hh:116-156 *)
Definition conicalProductF (d : nat) (respect : bool) (base oned : list FQPoint) : list FQPoint :=
  flat_map (fun b => map (fun o =>
    let z := fst o 0%nat in
    let scale := one - z in
    let weight := snd b * snd o in
    ((fun k => if Nat.eqb k d then z else scale * fst b k),
     if respect then weight else Nat.iter d (fun w => w * scale) weight)) oned) base.

Definition fetch1DF (p : Z) (qt : nat) : option FRule :=
  if inRange 1 lineT p qt then rule1DF p qt else None.

(** quadraturerules.hh:377-380, 396-403, 436-460, 477-486, 506-523 and
    tensorproductquadrature.hh:39-52 *)
Fixpoint factoryF (dim : nat) (t : GeometryType) (p : Z) (qt : nat) : option FRule :=
  match choose dim t p qt with
  | ChPoint => Some pointRuleF
  | Ch1D q => rule1DF p q
  | ChSimplex => simplexRuleF dim p
  | ChPrism => Some prismRuleF
  | ChThrow => None
  | ChTensor base isPrism =>
      match dim with
      | O => None
      | S d =>
          match (if inRange d base p qt then factoryF d base p qt else None) with
          | None => None
          | Some b =>
              option_map (mkFRule (GT2 (gt_id t) dim) p)
                (if isPrism then
                   option_map (fun o => tensorProductF d (fr_points b) (fr_points o)) (fetch1DF p qt)
                 else if Nat.eqb qt qtJacobiN then
                   option_map (fun o => conicalProductF d true (fr_points b) (fr_points o)) (jacobiNF p d)
                 else
                   option_map (fun o => conicalProductF d false (fr_points b) (fr_points o))
                     (fetch1DF (p + Z.of_nat d) qt))
          end
      end
  end.
(** QuadratureRules<ct,dim>::rule(t,p,qt) *)
Definition quadRuleF (r : Req) : option FRule :=
  if inRange (rq_dim r) (rq_t r) (rq_p r) (rq_qt r) then factoryF (rq_dim r) (rq_t r) (rq_p r) (rq_qt r) else None.
End FPQuad.
