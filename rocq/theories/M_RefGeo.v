(** Model of the geometric part of the reference elements:
    dune/geometry/referenceelementimplementation.{hh,cc}.

    Simplifications common to this file: the coordinate type [ct] is the exact real
    numbers; [FieldVector<ct,cdim>] is a function [nat -> R] of which the first cdim
    entries are meaningful, [FieldMatrix] a function row -> column -> entry; output
    arrays that are filled from the front ([origins+n], [corners+nBaseCorners], ..) are
    lists, i.e. the returned count is the length of the list. *)
From Coq Require Import NArith PeanoNat Bool List Reals.
From Verif Require Import M_Type M_RefTopo.
Import ListNotations.
Local Open Scope R_scope.

(** FieldVector / FieldMatrix (dune-common, not in /repo). *)
Definition Vec := nat -> R.
Definition Mat := nat -> nat -> R.
Definition vzero : Vec := fun _ => 0.
Definition mzero : Mat := fun _ _ => 0.
Definition upd (v : Vec) (k : nat) (x : R) : Vec := fun j => if Nat.eqb j k then x else v j.
Definition mupd (m : Mat) (i k : nat) (x : R) : Mat :=
  fun i' => if Nat.eqb i' i then upd (m i') k x else m i'.
(** finite sum over k < n and the scalar product of FieldVector *)
Fixpoint rsum (n : nat) (f : nat -> R) : R :=
  match n with O => 0 | S n' => rsum n' f + f n' end.
Definition dot (n : nat) (v w : Vec) : R := rsum n (fun k => v k * w k).
Definition vadd (v w : Vec) : Vec := fun k => v k + w k.
Definition vscale (a : R) (v : Vec) : Vec := fun k => a * v k.

Definition Rltb (a b : R) : bool := if Rlt_dec a b then true else false.

(** referenceelementimplementation.hh:89-106 [checkInside]. *)
Fixpoint checkInside (topologyId : N) (dim : nat) (x : Vec) (tolerance factor : R) : bool :=
  match dim with
  | O => true
  | S d =>
      let baseFactor := if isPrism topologyId dim 0 then factor else factor - x d in
      if Rltb (- tolerance) (x d) && Rltb (- tolerance) (factor - x d)
      then checkInside (baseTopologyId topologyId dim 1) d x tolerance baseFactor
      else false
  end.

(** referenceelementimplementation.hh:113-144 [referenceCorners]. *)
Fixpoint referenceCorners (topologyId : N) (dim : nat) : list Vec :=
  match dim with
  | O => [vzero]
  | S d =>
      let base := referenceCorners (baseTopologyId topologyId dim 1) d in
      if isPrism topologyId dim 0
      then base ++ map (fun v => upd v d 1) base
      else base ++ [upd vzero d 1]
  end.

(** referenceelementimplementation.cc:175-186 [referenceVolumeInverse]: the recursive
    value is stored in an [unsigned int] (32 bits), the result is an [unsigned long]
    (64 bits). *)
Fixpoint referenceVolumeInverse (topologyId : N) (dim : nat) : N :=
  match dim with
  | O => 1%N
  | S d =>
      let baseValue := N.modulo (referenceVolumeInverse (baseTopologyId topologyId dim 1) d) (2 ^ 32) in
      if isPrism topologyId dim 0 then baseValue
      else N.modulo (baseValue * N.of_nat dim) (2 ^ 64)
  end.

(** referenceelementimplementation.hh:153-157 [referenceVolume]. *)
Definition referenceVolume (topologyId : N) (dim : nat) : R :=
  1 / IZR (Z.of_N (referenceVolumeInverse topologyId dim)).

(** referenceelementimplementation.hh:164-204 [referenceOrigins]. *)
Fixpoint referenceOrigins (topologyId : N) (dim codim : nat) : list Vec :=
  match codim, dim with
  | S codim1, S d =>
      let baseId := baseTopologyId topologyId dim 1 in
      let ms := referenceOrigins baseId d codim1 in
      if isPrism topologyId dim 0 then
        let ns := if Nat.ltb codim dim then referenceOrigins baseId d codim else [] in
        ns ++ ms ++ map (fun v => upd v d 1) ms
      else if Nat.eqb codim dim then ms ++ [upd vzero d 1]
      else ms ++ referenceOrigins baseId d codim
  | _, _ => [vzero]
  end.

(** the loop of referenceelementimplementation.hh:251-253:
    row [row] gets -origin in the columns k < n *)
Fixpoint neg_row (n : nat) (row : nat) (origin : Vec) (jt : Mat) : Mat :=
  match n with
  | O => jt
  | S n' => mupd (neg_row n' row origin jt) row n' (- origin n')
  end.

(** the identity in the first [dim] rows and columns (hh:265-266) *)
Definition midentity (dim : nat) : Mat :=
  fun i j => if Nat.eqb i j && Nat.ltb i dim then 1 else 0.

(** referenceelementimplementation.hh:211-273 [referenceEmbeddings]: the pairs
    (origin, jacobianTransposed). *)
Fixpoint referenceEmbeddings (topologyId : N) (dim codim : nat) : list (Vec * Mat) :=
  match codim, dim with
  | S codim1, S d =>
      let baseId := baseTopologyId topologyId dim 1 in
      let ms := referenceEmbeddings baseId d codim1 in
      if isPrism topologyId dim 0 then
        let ns := if Nat.ltb codim dim then referenceEmbeddings baseId d codim else [] in
        map (fun '(o, jt) => (o, mupd jt (dim - codim - 1) d 1)) ns
        ++ ms ++ map (fun '(o, jt) => (upd o d 1, jt)) ms
      else if Nat.eqb codim dim then ms ++ [(upd vzero d 1, mzero)]
      else
        let ns := referenceEmbeddings baseId d codim in
        ms ++ map (fun '(o, jt) =>
                     (o, mupd (neg_row d (dim - codim - 1) o jt) (dim - codim - 1) d 1)) ns
  | _, _ => [(vzero, midentity dim)]
  end.

(** referenceelementimplementation.hh:280-328 [referenceIntegrationOuterNormals] with given
    origins; [cdim] is the length of the vectors (scalar product in line 312). *)
Fixpoint referenceNormals (cdim : nat) (topologyId : N) (dim : nat) (origins : list Vec) : list Vec :=
  match dim with
  | S (S _ as d) =>
      let baseId := baseTopologyId topologyId dim 1 in
      if isPrism topologyId dim 0 then
        referenceNormals cdim baseId d origins
        ++ [upd vzero d (-1); upd vzero d 1]
      else
        upd vzero d (-1)
        :: map (fun '(n, o) => upd n d (dot cdim n o))
               (combine (referenceNormals cdim baseId d (tl origins)) (tl origins))
  | _ => [upd vzero 0 (-1); upd vzero 0 1]
  end.

(** referenceelementimplementation.hh:330-348 [referenceIntegrationOuterNormals]; here
    cdim = dim as in initialize (line 610). *)
Definition referenceIntegrationOuterNormals (topologyId : N) (dim : nat) : list Vec :=
  referenceNormals dim topologyId dim (referenceOrigins topologyId dim 1).

(** AffineGeometry::global for the geometries of CreateGeometries (hh:784-816 and
    affinegeometry.hh:154-159): global = origin + jacobianTransposed^T * local. *)
Definition emb_global (mydim : nat) (e : Vec * Mat) (local : Vec) : Vec :=
  fun k => fst e k + rsum mydim (fun j => snd e j k * local j).

(** referenceelementimplementation.hh:541-545 geometry<codim>(i). *)
Definition re_geometry (topologyId : N) (dim codim i : nat) : option (Vec * Mat) :=
  nth_error (referenceEmbeddings topologyId dim codim) i.

(** the accumulation loop of referenceelementimplementation.hh:596-599; an access to a
    missing subentity or corner is undefined ([None]) *)
Fixpoint sum_corners (get : nat -> option Vec) (n : nat) : option Vec :=
  match n with
  | O => Some vzero
  | S n' => obind (sum_corners get n') (fun a => obind (get n') (fun v => Some (vadd a v)))
  end.

(** referenceelementimplementation.hh:584-602: baryCenters_[codim][i], what position(i,codim)
    (hh:514-518) returns. *)
Definition re_position (topologyId : N) (dim : nat) (r : RefElement) (i codim : nat) : option Vec :=
  let corners := referenceCorners topologyId dim in
  if Nat.eqb codim dim then nth_error corners i
  else obind (re_size3 r i codim dim) (fun numCorners =>
       obind (sum_corners (fun j => obind (re_subEntity r i codim j dim) (nth_error corners)) numCorners)
             (fun s => Some (vscale (1 / INR numCorners) s))).
