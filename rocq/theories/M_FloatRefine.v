(** Coordinates of refined elements in IEEE 754 arithmetic.

    The integer parts of the refinements (indices, permutations, lattice points) are those of
    M_Refine.v; this file has the functions that produce floating point coordinates. *)
From Coq Require Import PeanoNat NArith ZArith Bool List.
From Flocq Require Import IEEE754.BinarySingleNaN.
From Verif Require Import M_Type M_RefTopo M_Matrix M_Affine M_Float M_Refine.
Import ListNotations.

(** ** refinement/hcube.cc

    The code computes with double and assigns the result to a component of type CoordType:
    [pd], [ed] are the digits and the largest exponent of double, [prec], [emax] those of CoordType. *)
Section HCubeF.
Variables (pd ed : Z).
Context (Hpd : FLX.Prec_gt_0 pd) (Hed : Prec_lt_emax pd ed).
Variables (prec emax : Z).
Context (Hp : FLX.Prec_gt_0 prec) (He : Prec_lt_emax prec emax).
Notation double := (binary_float pd ed).
Notation float := (binary_float prec emax).
Notation dbl := (ofZ pd ed Hpd Hed).

(** conversion between floating point types *)
Definition fconv (x : double) : float :=
  match x with
  | B754_zero s => B754_zero s
  | B754_infinity s => B754_infinity s
  | B754_nan => B754_nan
  | B754_finite s m e _ => binary_normalize prec emax Hp He mode_NE (if s then Zneg m else Zpos m) e s
  end.

(** lines 200-211: v[d]*1.0 / _nIntervals *)
Definition hv_coordsF (dim : nat) (s : HIter) : nat -> float := fun d =>
  fconv (fdiv pd ed Hpd Hed (fmul pd ed Hpd Hed (dbl (Z.of_nat (hi_vertexCoord dim s d))) (dbl 1)) (dbl (Z.of_nat (hi_n s)))).
(** lines 259-270: (v[d]*1.0 + 0.5) / _nIntervals *)
Definition he_coordsF (dim : nat) (s : HIter) : nat -> float := fun d =>
  fconv (fdiv pd ed Hpd Hed
    (fadd pd ed Hpd Hed (fmul pd ed Hpd Hed (dbl (Z.of_nat (hi_cellCoord dim s d))) (dbl 1)) (fhalf pd ed Hpd Hed))
    (dbl (Z.of_nat (hi_n s)))).
(** lines 390-410, codimension 0 *)
Definition he_geometryF (dim : nat) (s : HIter) : AACubeF prec emax :=
  let intCoords := idx2coord dim (hi_index s) (hi_n s) in
  fac_make2 prec emax dim
    (fun j => fconv (fdiv pd ed Hpd Hed (dbl (Z.of_nat (intCoords j))) (dbl (Z.of_nat (hi_n s)))))
    (fun j => fconv (fdiv pd ed Hpd Hed (dbl (Z.of_nat (intCoords j + 1))) (dbl (Z.of_nat (hi_n s))))).
End HCubeF.

(** ** refinement/simplex.cc *)
Section SimplexF.
Variables (prec emax : Z).
Context (Hp : FLX.Prec_gt_0 prec) (He : Prec_lt_emax prec emax).
Notation float := (binary_float prec emax).
Notation add := (fadd prec emax Hp He).
Notation sub := (fsub prec emax Hp He).
Notation div := (fdiv prec emax Hp He).
Notation ofZ := (ofZ prec emax Hp He).

(** lines 510-518 *)
Definition sv_coordsF (dim : nat) (s : SVert) : option (nat -> float) :=
  obind (getPermutation dim 0) (fun perm =>
  let ref := kuhnToReference Z.sub dim (fun i => Z.of_nat (sv_vertex s i)) perm in
  Some (fun i => div (ofZ (ref i)) (ofZ (Z.of_nat (sv_size s))))).
(** lines 688-694 *)
Definition se_globalF (dim : nat) (s : SElem) (local : nat -> float) : option (nat -> float) :=
  obind (getPermutation dim (se_kuhn s)) (fun perm =>
  let v := referenceToKuhn add dim local perm in
  let v := fun i => add (v i) (ofZ (Z.of_nat (se_origin s i))) in
  let v := fun i => div (v i) (ofZ (Z.of_nat (se_size s))) in
  obind (getPermutation dim 0) (fun perm0 => Some (kuhnToReference sub dim v perm0))).
(** position(i,dim) of the reference simplex, computed by referenceCorners
    (referenceelementimplementation.hh:113-144, 584-587): ct(0) and ct(1) are assigned, there is no
    arithmetic.  The exact positions are computed in M_RefGeo.v *)
Definition fcornerpos (i : nat) : nat -> float := fun k => if Nat.eqb i (S k) then ofZ 1 else ofZ 0.
(** lines 676-683 *)
Definition se_cornersF (dim : nat) (s : SElem) : option (list (nat -> float)) :=
  sequence (map (fun i => se_globalF dim s (fcornerpos i)) (seq 0 (dim + 1))).

(** ** the triangulations; [ft] is transformCoordinate with floating point operations *)
(** prismtriangulation.cc:48-57 *)
Definition fprismTransform (p : nat -> float) : nat -> float :=
  fun i => match i with 0%nat => p 1%nat | 1%nat => sub (ofZ 1) (p 0%nat) | _ => p i end.
(** pyramidtriangulation.cc:49-58 *)
Definition fpyramidTransform (p : nat -> float) : nat -> float :=
  fun i => match i with 0%nat => sub (ofZ 1) (p 0%nat) | 1%nat => sub (ofZ 1) (p 1%nat) | _ => p i end.

Section TriangF.
Variables (dim : nat) (t : Triang) (ft : (nat -> float) -> nat -> float).
(** hcubetriangulation.cc:210-216 and the corresponding parts of the others *)
Definition tv_coordsF (s : TVert) : option (nat -> float) :=
  obind (sv_coordsF dim (tv_backend s)) (fun c =>
  obind (getPermutation dim (tr_perm t (tv_kuhn s))) (fun perm =>
  Some (ft (referenceToKuhn add dim c perm)))).
(** hcubetriangulation.cc:340-346 *)
Definition te_globalF (s : TElem) (local : nat -> float) : option (nat -> float) :=
  obind (getPermutation dim (tr_perm t (te_kuhn s))) (fun perm =>
  Some (ft (referenceToKuhn add dim local perm))).
(** hcubetriangulation.cc:326-337; bgeo.corner(i) is the corner that was stored *)
Definition te_cornersF (s : TElem) : option (list (nat -> float)) :=
  obind (se_cornersF dim (te_backend s)) (fun bcorners =>
  sequence (map (fun i => obind (nth_error bcorners i) (te_globalF s)) (seq 0 (dim + 1)))).
End TriangF.
End SimplexF.
