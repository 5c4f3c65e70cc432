(** Functions of the library in IEEE 754 arithmetic.

    The coordinate type [ct] is a binary floating point type with [prec] digits and largest
    exponent [emax] (float: 24, 128; double: 53, 1024): Flocq's [binary_float], which has signed
    zeros, subnormal numbers, infinities and (one) NaN.  Every operation of the C++ code is one
    correctly rounded operation (round to nearest, ties to even); comparisons with NaN are
    false.  Contraction to fused operations and excess precision are not modelled. *)
From Coq Require Import PeanoNat NArith ZArith Bool List.
From Flocq Require Import IEEE754.BinarySingleNaN.
From Verif Require Import M_Type M_RefTopo M_Matrix M_Affine.
Import ListNotations.

Section FP.
Variables (prec emax : Z).
Context (Hp : FLX.Prec_gt_0 prec) (He : Prec_lt_emax prec emax).
Notation float := (binary_float prec emax).

(** conversion of an integer, ct( n ) *)
Definition ofZ (n : Z) : float := binary_normalize prec emax Hp He mode_NE n 0 false.
(** std::numeric_limits< ct >::epsilon() *)
Definition epsilon : float := binary_normalize prec emax Hp He mode_NE 1 (1 - prec) false.

Definition fsub (a b : float) : float := @Bminus prec emax Hp He mode_NE a b.
Definition fadd (a b : float) : float := @Bplus prec emax Hp He mode_NE a b.
Definition fmul (a b : float) : float := @Bmult prec emax Hp He mode_NE a b.
(** a > b *)
Definition fgt (a b : float) : bool := Bltb b a.

(** referenceelementimplementation.hh:89-106 [checkInside]. *)
Fixpoint checkInsideF (topologyId : N) (dim : nat) (x : nat -> float) (tolerance factor : float) : bool :=
  match dim with
  | O => true
  | S d =>
      let baseFactor := if isPrism topologyId dim 0 then factor else fsub factor (x d) in
      if fgt (x d) (Bopp tolerance) && fgt (fsub factor (x d)) (Bopp tolerance)
      then checkInsideF (baseTopologyId topologyId dim 1) d x tolerance baseFactor
      else false
  end.
(** referenceelementimplementation.hh:528-532, the member function *)
Definition re_checkInside (topologyId : N) (dim : nat) (x : nat -> float) : bool :=
  checkInsideF topologyId dim x (fmul (ofZ 64) epsilon) (ofZ 1).
End FP.

(** ** AxisAlignedCubeGeometry (axisalignedcubegeometry.hh:48-365) with floating point coordinates

    The exact counterpart is [AACube] in M_Affine.v. *)
Section FPCube.
Variables (prec emax : Z).
Context (Hp : FLX.Prec_gt_0 prec) (He : Prec_lt_emax prec emax).
Notation float := (binary_float prec emax).
Notation "a + b" := (fadd prec emax Hp He a b).
Notation "a - b" := (fsub prec emax Hp He a b).
Notation "a * b" := (fmul prec emax Hp He a b).
Definition fdiv (a b : float) : float := @Bdiv prec emax Hp He mode_NE a b.
Notation "a / b" := (fdiv a b).
Definition fupd (v : nat -> float) (k : nat) (x : float) : nat -> float := fun j => if Nat.eqb j k then x else v j.
(** CoordType( 0.5 ) *)
Definition fhalf : float := binary_normalize prec emax Hp He mode_NE 1 (-1) false.
Definition fvzero : nat -> float := fun _ => B754_zero false.

Record AACubeF := { fc_lower : nat -> float; fc_upper : nat -> float; fc_axes : nat -> bool }.

(** lines 124-133 *)
Definition fac_make2 (coorddim : nat) (lower upper : nat -> float) : AACubeF :=
  {| fc_lower := lower; fc_upper := upper; fc_axes := fun i => Nat.ltb i coorddim |}.
(** lines 142-153 *)
Definition fac_make3 (dim coorddim : nat) (lower upper : nat -> float) (axes : nat -> bool) : option AACubeF :=
  if Nat.eqb (bcount coorddim axes) dim then
    Some {| fc_lower := lower;
            fc_upper := forN coorddim (fun i u => if axes i then u else fupd u i (lower i)) upper;
            fc_axes := axes |}
  else None.

(** lines 170-186 *)
Definition fac_global (dim coorddim : nat) (g : AACubeF) (local : nat -> float) : nat -> float :=
  if Nat.eqb dim coorddim then
    forN coorddim (fun i result => fupd result i (fc_lower g i + local i * (fc_upper g i - fc_lower g i))) fvzero
  else if Nat.eqb dim 0 then fc_lower g
  else snd (forN coorddim (fun i '(lc, result) =>
         if fc_axes g i
         then (S lc, fupd result i (fc_lower g i + local lc * (fc_upper g i - fc_lower g i)))
         else (lc, fupd result i (fc_lower g i))) (O, fvzero)).
(** lines 189-202 *)
Definition fac_local (dim coorddim : nat) (g : AACubeF) (global : nat -> float) : nat -> float :=
  if Nat.eqb dim coorddim then
    forN dim (fun i result => fupd result i ((global i - fc_lower g i) / (fc_upper g i - fc_lower g i))) fvzero
  else if negb (Nat.eqb dim 0) then
    snd (forN coorddim (fun i '(lc, result) =>
      if fc_axes g i
      then (S lc, fupd result lc ((global i - fc_lower g i) / (fc_upper g i - fc_lower g i)))
      else (lc, result)) (O, fvzero))
  else fvzero.
(** lines 249-260 *)
Definition fac_center (dim coorddim : nat) (g : AACubeF) : nat -> float :=
  if Nat.eqb dim 0 then fc_lower g
  else forN coorddim (fun i result => fupd result i (fhalf * (fc_lower g i + fc_upper g i))) fvzero.
(** lines 269-292; the mask of the slow case is 2^lc *)
Definition fac_corner (dim coorddim : nat) (g : AACubeF) (k : nat) : nat -> float :=
  if Nat.eqb dim coorddim then
    forN coorddim (fun i result => fupd result i (if Nat.testbit k i then fc_upper g i else fc_lower g i)) fvzero
  else if Nat.eqb dim 0 then fc_lower g
  else snd (forN coorddim (fun i '(lc, result) =>
         if negb (fc_axes g i) then (lc, fupd result i (fc_lower g i))
         else (S lc, fupd result i (if Nat.testbit k lc then fc_upper g i else fc_lower g i))) (O, fvzero)).
(** lines 295-308 *)
Definition fac_volume (dim coorddim : nat) (g : AACubeF) : float :=
  if Nat.eqb dim coorddim then
    forN dim (fun i vol => vol * (fc_upper g i - fc_lower g i)) (ofZ prec emax Hp He 1)
  else if negb (Nat.eqb dim 0) then
    forN coorddim (fun i vol => if fc_axes g i then vol * (fc_upper g i - fc_lower g i) else vol) (ofZ prec emax Hp He 1)
  else ofZ prec emax Hp He 1.
End FPCube.
