(** Model of dune/geometry/affinegeometry.hh (AffineGeometry) and
    dune/geometry/axisalignedcubegeometry.hh (AxisAlignedCubeGeometry). *)
From Coq Require Import PeanoNat NArith Bool List Reals.
From Verif Require Import M_Type M_RefTopo M_RefGeo M_Matrix.
Import ListNotations.
Local Open Scope R_scope.

(** ** AffineGeometry (affinegeometry.hh:47-257) *)

(** the data members, lines 252-256; the reference element is its topology id together with
    the subentity tables [re_infos] built by ReferenceElementImplementation::initialize *)
Record AffGeo := {
  ag_id : N;
  ag_ref : RefElement;
  ag_origin : Vec;
  ag_jt : Mat;
  ag_jit : Mat;
  ag_intel : R }.

(** lines 101-106; [None] when the assertion in the Cholesky factorization fails *)
Definition affine_from_jacobian (mydim cdim : nat) (id : N) (r : RefElement) (origin : Vec) (jt : Mat)
    (ret j1 j2 : Mat) : option AffGeo :=
  obind (rightInvA mydim cdim jt ret j1 j2) (fun '(det, jit) =>
    Some {| ag_id := id; ag_ref := r; ag_origin := origin; ag_jt := jt; ag_jit := jit; ag_intel := det |}).

(** lines 115-122; reading past the end of coordVector is undefined ([None]) *)
Fixpoint corner_rows (mydim : nat) (coords : list Vec) (origin : Vec) (jt : Mat) : option Mat :=
  match mydim with
  | O => Some jt
  | S i => obind (corner_rows i coords origin jt) (fun jt =>
           obind (nth_error coords (i + 1)) (fun c =>
           Some (fun a => if Nat.eqb a i then fun k => c k - origin k else jt a)))
  end.
Definition affine_from_corners (mydim cdim : nat) (id : N) (r : RefElement) (coords : list Vec)
    (junk ret j1 j2 : Mat) : option AffGeo :=
  obind (nth_error coords 0) (fun origin =>
  obind (corner_rows mydim coords origin junk) (fun jt =>
  affine_from_jacobian mydim cdim id r origin jt ret j1 j2)).

(** lines 154-159 (FieldMatrix::umtv is y += A^T x) *)
Definition ag_global (mydim : nat) (g : AffGeo) (local : Vec) : Vec :=
  fun k => ag_origin g k + rsum mydim (fun i => ag_jt g i k * local i).
(** lines 174-179 *)
Definition ag_local (cdim : nat) (g : AffGeo) (global : Vec) : Vec :=
  mtv cdim 0 (ag_jit g) (fun k => global k - ag_origin g k).
(** line 137 *)
Definition ag_corners (mydim : nat) (g : AffGeo) : nat := size (ag_id g) mydim mydim.
(** lines 140-143 *)
Definition ag_corner (mydim : nat) (g : AffGeo) (i : nat) : option Vec :=
  obind (re_position (ag_id g) mydim (ag_ref g) i mydim) (fun p => Some (ag_global mydim g p)).
(** line 146 *)
Definition ag_center (mydim : nat) (g : AffGeo) : option Vec :=
  obind (re_position (ag_id g) mydim (ag_ref g) 0 0) (fun p => Some (ag_global mydim g p)).
(** lines 191-194 and 197-200 *)
Definition ag_integrationElement (g : AffGeo) (local : Vec) : R := ag_intel g.
Definition ag_volume (mydim : nat) (g : AffGeo) : R := ag_intel g * referenceVolume (ag_id g) mydim.
(** lines 208-244 *)
Definition ag_jacobianTransposed (g : AffGeo) (local : Vec) : Mat := ag_jt g.
Definition ag_jacobianInverseTransposed (g : AffGeo) (local : Vec) : Mat := ag_jit g.
Definition ag_jacobian (g : AffGeo) (local : Vec) : Mat := fun i j => ag_jt g j i.
Definition ag_jacobianInverse (g : AffGeo) (local : Vec) : Mat := fun i j => ag_jit g j i.

(** ** AxisAlignedCubeGeometry (axisalignedcubegeometry.hh:48-365)

    std::bitset is a function to bool; the int shifts [1<<i] are taken without overflow
    (coorddim below 31).  FieldVector and FieldMatrix default constructors zero their
    entries (dune-common, not in /repo). *)
Record AACube := { ac_lower : Vec; ac_upper : Vec; ac_axes : nat -> bool }.

(** lines 124-133 *)
Definition aac_make2 (coorddim : nat) (lower upper : Vec) : AACube :=
  {| ac_lower := lower; ac_upper := upper; ac_axes := fun i => Nat.ltb i coorddim |}.
(** bitset::count *)
Fixpoint bcount (n : nat) (axes : nat -> bool) : nat :=
  match n with O => O | S n' => bcount n' axes + if axes n' then 1 else 0 end.
(** lines 142-153 *)
Definition aac_make3 (dim coorddim : nat) (lower upper : Vec) (axes : nat -> bool) : option AACube :=
  if Nat.eqb (bcount coorddim axes) dim then
    Some {| ac_lower := lower;
            ac_upper := forN coorddim (fun i u => if axes i then u else upd u i (lower i)) upper;
            ac_axes := axes |}
  else None.
(** lines 159-161 *)
Definition aac_make1 (lower : Vec) : AACube :=
  {| ac_lower := lower; ac_upper := vzero; ac_axes := fun _ => false |}.

(** lines 170-186 *)
Definition aac_global (dim coorddim : nat) (g : AACube) (local : Vec) : Vec :=
  if Nat.eqb dim coorddim then
    forN coorddim (fun i result => upd result i (ac_lower g i + local i * (ac_upper g i - ac_lower g i))) vzero
  else if Nat.eqb dim 0 then ac_lower g
  else snd (forN coorddim (fun i '(lc, result) =>
         if ac_axes g i
         then (S lc, upd result i (ac_lower g i + local lc * (ac_upper g i - ac_lower g i)))
         else (lc, upd result i (ac_lower g i))) (O, vzero)).
(** lines 189-202 *)
Definition aac_local (dim coorddim : nat) (g : AACube) (global : Vec) : Vec :=
  if Nat.eqb dim coorddim then
    forN dim (fun i result => upd result i ((global i - ac_lower g i) / (ac_upper g i - ac_lower g i))) vzero
  else if negb (Nat.eqb dim 0) then
    snd (forN coorddim (fun i '(lc, result) =>
      if ac_axes g i
      then (S lc, upd result lc ((global i - ac_lower g i) / (ac_upper g i - ac_lower g i)))
      else (lc, result)) (O, vzero))
  else vzero.
(** lines 205-214 with 323-339; a DiagonalMatrix is represented by its dense form *)
Definition aac_jacobianTransposed (dim coorddim : nat) (g : AACube) : Mat :=
  if Nat.eqb dim coorddim then
    forN dim (fun i m => mupd m i i (ac_upper g i - ac_lower g i)) mzero
  else if Nat.eqb dim 0 then mzero
  else snd (forN coorddim (fun i '(lc, m) =>
         if ac_axes g i then (S lc, mupd m lc i (ac_upper g i - ac_lower g i)) else (lc, m)) (O, mzero)).
(** lines 217-226 with 342-358 *)
Definition aac_jacobianInverseTransposed (dim coorddim : nat) (g : AACube) : Mat :=
  if Nat.eqb dim coorddim then
    forN dim (fun i m => mupd m i i (1 / (ac_upper g i - ac_lower g i))) mzero
  else if Nat.eqb dim 0 then mzero
  else snd (forN coorddim (fun i '(lc, m) =>
         if ac_axes g i then (S lc, mupd m i lc (1 / (ac_upper g i - ac_lower g i))) else (lc, m)) (O, mzero)).
(** lines 295-308 *)
Definition aac_volume (dim coorddim : nat) (g : AACube) : R :=
  if Nat.eqb dim coorddim then
    forN dim (fun i vol => vol * (ac_upper g i - ac_lower g i)) 1
  else if negb (Nat.eqb dim 0) then
    forN coorddim (fun i vol => if ac_axes g i then vol * (ac_upper g i - ac_lower g i) else vol) 1
  else 1.
(** lines 243-246 *)
Definition aac_integrationElement (dim coorddim : nat) (g : AACube) (local : Vec) : R := aac_volume dim coorddim g.
(** lines 249-260 *)
Definition aac_center (dim coorddim : nat) (g : AACube) : Vec :=
  if Nat.eqb dim 0 then ac_lower g
  else forN coorddim (fun i result => upd result i (1 / 2 * (ac_lower g i + ac_upper g i))) vzero.
(** lines 263-266 *)
Definition aac_corners (dim : nat) : nat := 2 ^ dim.
(** lines 269-292; the mask of the slow case is 2^lc *)
Definition aac_corner (dim coorddim : nat) (g : AACube) (k : nat) : Vec :=
  if Nat.eqb dim coorddim then
    forN coorddim (fun i result => upd result i (if Nat.testbit k i then ac_upper g i else ac_lower g i)) vzero
  else if Nat.eqb dim 0 then ac_lower g
  else snd (forN coorddim (fun i '(lc, result) =>
         if negb (ac_axes g i) then (lc, upd result i (ac_lower g i))
         else (S lc, upd result i (if Nat.testbit k lc then ac_upper g i else ac_lower g i))) (O, vzero)).
