(** Model of dune/geometry/test/checkgeometry.hh.

    Scalars are exact real numbers.  The geometry enters through the member functions used
    there ([GeoI] of M_LocalFE and [local]); [None] is an exception or a failed assertion.
    [junk] is the uninitialised matrix of line 29. *)
From Coq Require Import PeanoNat NArith ZArith Bool List Reals.
From Verif Require Import M_Type M_RefTopo M_RefGeo M_Matrix M_Affine M_MultiLinear M_GaussNewton M_LocalFE.
Import ListNotations.
Local Open Scope R_scope.

(** lines 27-39, a matrix seen through its mv method *)
Definition toFieldMatrix (rows cols : nat) (junk : Mat) (mv : Vec -> Vec) : Mat :=
  forN cols (fun j result =>
    let column := mv (upd vzero j 1) in
    forN rows (fun k result => mupd result k j (column k)) result) junk.
(** DenseMatrix::mv (dune-common) *)
Definition fm_mv (cols : nat) (A : Mat) (x : Vec) : Vec := fun i => rsum cols (fun j => A i j * x j).

(** lines 42-51: rows i .. and the columns of one row *)
Fixpoint id_row (tolerance : R) (m : Mat) (i : nat) (n j : nat) : bool :=
  match n with
  | O => true
  | S n => if negb (Rltb (Rabs (m i j - (if Nat.eqb i j then 1 else 0))) tolerance) then false else id_row tolerance m i n (S j)
  end.
Fixpoint id_rows (tolerance : R) (m : Mat) (cols : nat) (n i : nat) : bool :=
  match n with
  | O => true
  | S n => if id_row tolerance m i cols 0 then id_rows tolerance m cols n (S i) else false
  end.
Definition isIdentity (rows cols : nat) (m : Mat) (tolerance : R) : bool :=
  if negb (Nat.eqb rows cols) then false else id_rows tolerance m rows rows 0.

(** DenseMatrix::infinity_norm (dune-common): the largest sum of a row *)
Definition infinity_norm (rows cols : nat) (A : Mat) : R :=
  forN rows (fun i a => Rmax (rsum cols (fun j => Rabs (A i j))) a) 0.
(** [a != 0] *)
Definition nonzero (a : R) : bool := Rltb a 0 || Rltb 0 a.

Section Check.
Variables (mydim cdim : nat) (tolerance : R) (junk : Mat) (g : GeoI) (local : Vec -> option Vec).
(** FieldMatrix<ctype,mydim,mydim>::determinant (dune-common) *)
Variable determinant : Mat -> R.

(** lines 112-115, corners i .. i+n-1 *)
Fixpoint cg_sum (n i : nat) (acc : Vec) : option Vec :=
  match n with
  | O => Some acc
  | S n => obind (gi_corner g i) (fun c => cg_sum n (S i) (fun k => acc k + c k))
  end.
(** lines 122-136 *)
Fixpoint cg_corners (center cornerAvg : Vec) (n i : nat) (pass : bool) : option bool :=
  match n with
  | O => Some pass
  | S n =>
      obind (gi_corner g i) (fun corner =>
      let pass := if negb (Rltb tolerance (two_norm cdim (fun k => corner k - center k))) then false else pass in
      let pass := if negb (Rltb tolerance (two_norm cdim (fun k => corner k - cornerAvg k))) then false else pass in
      cg_corners center cornerAvg n (S i) pass)
  end.
(** lines 176-183 *)
Fixpoint cg_place (id : N) (r : RefElement) (n i : nat) (pass : bool) : option bool :=
  match n with
  | O => Some pass
  | S n =>
      obind (gi_corner g i) (fun c =>
      obind (re_position id mydim r i mydim) (fun p =>
      obind (gi_global g p) (fun y =>
      let pass := if Rltb tolerance (two_norm cdim (fun k => c k - y k)) then false else pass in
      cg_place id r n (S i) pass)))
  end.
(** lines 197-285 *)
Definition cg_point (id : N) (x : Vec) (pass : bool) : option bool :=
  obind (gi_global g x) (fun y =>
  obind (local y) (fun z =>
  let pass := if Rltb tolerance (two_norm mydim (fun k => x k - z k)) then false else pass in
  obind (gi_jacobianTransposed g x) (fun Jt =>
  obind (gi_jacobianInverseTransposed g x) (fun Jit =>
  obind (gi_jacobian g x) (fun J =>
  obind (gi_jacobianInverse g x) (fun Ji =>
  let JtF := toFieldMatrix mydim cdim junk (fm_mv cdim Jt) in
  let JitF := toFieldMatrix cdim mydim junk (fm_mv mydim Jit) in
  let JF := toFieldMatrix cdim mydim junk (fm_mv mydim J) in
  let JiF := toFieldMatrix mydim cdim junk (fm_mv cdim Ji) in
  let pass := if negb (isIdentity mydim mydim (fun i j => rsum cdim (fun k => JtF i k * JitF k j)) tolerance) then false else pass in
  let pass := if negb (isIdentity mydim mydim (fun i j => rsum cdim (fun k => JiF i k * JF k j)) tolerance) then false else pass in
  let pass := if nonzero (infinity_norm mydim cdim (fun i j => JtF i j - JF j i)) then false else pass in
  let pass := if nonzero (infinity_norm cdim mydim (fun i j => JitF i j - JiF j i)) then false else pass in
  obind (gi_integrationElement g x) (fun ie =>
  let pass := if Rltb ie 0 then false else pass in
  let jtj := forN mydim (fun i jtj => forN mydim (fun j jtj => forN cdim (fun k jtj =>
               mupd jtj i j (jtj i j + JtF i k * JtF j k)) jtj) jtj) mzero in
  let pass := if Rltb tolerance (Rabs (sqrt (determinant jtj) - ie)) then false else pass in
  obind (gi_affine g) (fun aff =>
  if aff then
    obind (gi_volume g) (fun volume =>
    Some (if Rltb tolerance (Rabs (volume - referenceVolume id mydim * ie)) then false else pass))
  else Some pass)))))))).
Fixpoint cg_points (id : N) (q : Rule) (pass : bool) : option bool :=
  match q with
  | [] => Some pass
  | (x, _) :: q => obind (cg_point id x pass) (cg_points id q)
  end.
(** lines 67-289; [rule] is the rule of order 2 for the type of the geometry.  The exceptions of
    lines 110 and 167 are [None]. *)
Definition checkGeometry (rule : option Rule) : option bool :=
  let corners := gi_corners g in
  if Nat.eqb corners 0 then None
  else
    obind (cg_sum corners 0 vzero) (fun s =>
    let cornerAvg := fun k => s k / INR corners in
    obind (gi_center g) (fun center =>
    obind (if Nat.ltb 1 corners then cg_corners center cornerAvg corners 0 true
           else Some (if Rltb tolerance (two_norm cdim (fun k => center k - cornerAvg k)) then false else true)) (fun pass =>
    obind (gi_volume g) (fun volume =>
    let pass := if Rltb volume tolerance then false else pass in
    let type := gi_type g in
    if gt_none type then Some pass
    else
      let id := gt_id type in
      obind (re_infos id mydim) (fun r =>
      obind (re_position id mydim r 0 0) (fun p =>
      obind (gi_global g p) (fun y =>
      if Rltb tolerance (two_norm cdim (fun k => center k - y k)) then None
      else
        obind (if Nat.eqb (size id mydim mydim) corners then cg_place id r corners 0 pass else Some false) (fun pass =>
        obind rule (fun q => cg_points id q pass))))))))).
End Check.
