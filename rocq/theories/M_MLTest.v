(** Model of dune/geometry/test/test-multilineargeometry.cc.

    Scalars are exact real numbers.  [None] is an exception, undefined behaviour or a loop that does not end.
    The comparisons of a vector with itself (lines 193, 211, 231, 310, 327, 343, 360: NaN) cannot fail on real
    numbers and are left out, as is the output.  The class under test is a parameter [make]: what the
    constructor with reference element and corners builds, seen through the interface that checkGeometry
    uses, and its local(). *)
From Coq Require Import PeanoNat NArith ZArith Bool List Reals.
From Verif Require Import M_Type M_RefTopo M_RefGeo M_Matrix M_Affine M_MultiLinear M_GaussNewton M_LocalFE M_CheckGeo M_AffineTest.
Import ListNotations.
Local Open Scope R_scope.

Definition Made := (GeoI * (Vec -> option Vec))%type.
Definition Make := N -> RefElement -> list Vec -> Made.

Section Test.
Variables (mydim cdim : nat).
Variables (epsilon tolerance : R) (rule : N -> nat -> option Rule) (junk : Mat).
(** FieldMatrix::determinant *)
Variable determinant : nat -> Mat -> R.

(** lines 189-203 *)
Fixpoint mt_corners (g : Made) (id : N) (r : RefElement) (n c : nat) (pass : bool) : option bool :=
  match n with
  | O => Some pass
  | S n => obind (re_position id mydim r c mydim) (fun local =>
           obind (gi_global (fst g) local) (fun global =>
           obind (snd g global) (fun local2 =>
           mt_corners g id r n (S c) (if Rltb epsilon (two_norm mydim (fun k => local k - local2 k)) then false else pass))))
  end.
(** lines 225-245; the rows are compared as in lines 206-223, which are those of test-affinegeometry.cc *)
Fixpoint mt_jacobians (g : Made) (id : N) (r : RefElement) (A B : Mat) (n c : nat) (pass : bool) : option bool :=
  match n with
  | O => Some pass
  | S n => obind (re_position id mydim r c mydim) (fun local =>
           obind (gi_jacobianTransposed (fst g) local) (fun cornerJT =>
           mt_jacobians g id r A B n (S c) (ta_rows mydim cdim epsilon A B cornerJT pass)))
  end.
(** lines 159-249, after the construction; [detA] is the determinant of A *)
Definition mt_checks (g : Made) (id : N) (r : RefElement) (A B : Mat) (localCenter : Vec) (detA : R) : option bool :=
  obind (gi_affine (fst g)) (fun affine =>
  let pass := affine in
  obind (gi_integrationElement (fst g) localCenter) (fun integrationElement =>
  let pass := if Rltb epsilon (Rabs (integrationElement - Rabs detA)) then false else pass in
  obind (gi_volume (fst g)) (fun volume =>
  let pass := if Rltb epsilon (Rabs (volume - referenceVolume id mydim * Rabs detA)) then false else pass in
  obind (gi_center (fst g)) (fun center =>
  let pass := if Rltb epsilon (two_norm cdim (fun k => center k - ta_map mydim cdim A B localCenter k)) then false else pass in
  obind (mt_corners g id r (size id mydim mydim) 0 pass) (fun pass =>
  obind (gi_jacobianTransposed (fst g) localCenter) (fun JT =>
  let pass := ta_rows mydim cdim epsilon A B JT pass in
  obind (mt_jacobians g id r A B (size id mydim mydim) 0 pass) (fun pass =>
  obind (checkGeometry mydim cdim tolerance junk (fst g) (snd g) (determinant mydim) (rule id mydim))
    (fun passed => Some (pass && passed))))))))).
(** lines 136-250; map and the corners (lines 29-48 and 152-155) are those of test-affinegeometry.cc *)
Definition mt_test (make : Make) (id : N) (r : RefElement) (A B : Mat) : option bool :=
  obind (re_position id mydim r 0 0) (fun localCenter =>
  let detA := determinant mydim A in
  if Rltb epsilon (Rabs (Rabs (determinant cdim B) - 1)) then None
  else
    obind (ta_corners mydim cdim id r A B (size id mydim mydim) 0) (fun corners =>
    mt_checks (make id r corners) id r A B localCenter detA)).
(** lines 253-284 *)
Definition mt_type (make : Make) (id : N) : option bool :=
  obind (re_infos id mydim) (fun r =>
  obind (mt_test make id r (ta_scaled mydim 1) (ta_scaled cdim 1)) (fun passId =>
  obind (mt_test make id r (ta_scaled mydim 42) (ta_scaled cdim 1)) (fun passScaledId => Some (passId && passScaledId)))).
End Test.

Definition vec2 (a b : R) : Vec := fun k => match k with O => a | _ => b end.
(** lines 286-374; [epsilon16] is the number of line 292 *)
Section NonLinear.
Variables (epsilon16 : R).
(** lines 307-320 and 340-353: the corners from number c on *)
Fixpoint mt_global (g : Made) (id : N) (r : RefElement) (corners : list Vec) (c : nat) (pass : bool) : option bool :=
  match corners with
  | [] => Some pass
  | corner :: corners =>
      obind (re_position id 2 r c 2) (fun local =>
      obind (gi_global (fst g) local) (fun global =>
      mt_global g id r corners (S c) (if Rltb epsilon16 (two_norm 2 (fun k => global k - corner k)) then false else pass)))
  end.
Fixpoint mt_local (g : Made) (id : N) (r : RefElement) (corners : list Vec) (c : nat) (pass : bool) : option bool :=
  match corners with
  | [] => Some pass
  | corner :: corners =>
      obind (re_position id 2 r c 2) (fun local =>
      obind (snd g corner) (fun local2 =>
      mt_local g id r corners (S c) (if Rltb epsilon16 (two_norm 2 (fun k => local k - local2 k)) then false else pass)))
  end.
Definition mt_nonlinear_corners : list Vec := [vec2 0 0; vec2 2 0; vec2 0 1; vec2 1 1].
Definition mt_nonlinear (make : Make) : option bool :=
  let id := gt_id quadrilateral in
  obind (re_infos id 2) (fun r =>
  let corners := mt_nonlinear_corners in
  let g := make id r corners in
  obind (mt_global g id r corners 0 true) (fun pass =>
  obind (gi_global (fst g) (vec2 (-1) 0)) (fun global2 =>
  let pass := if Rltb epsilon16 (two_norm 2 (fun k => vec2 (-2) 0 k - global2 k)) then false else pass in
  obind (mt_local g id r corners 0 pass) (fun pass =>
  obind (snd g (vec2 (-2) 0)) (fun local2 =>
  Some (if Rltb epsilon16 (two_norm 2 (fun k => vec2 (-1) 0 k - local2 k)) then false else pass)))))).
End NonLinear.

(** lines 50-77; [toli] is the tolerance of ReferenceElement::checkInside *)
Definition mt_inside (toli : R) (g : Made) (id : N) (global : Vec) (testResult : bool) : option bool :=
  obind (snd g global) (fun local =>
  if negb (Bool.eqb (checkInside id 2 local toli 1) testResult) then Some false
  else if testResult then
    obind (gi_global (fst g) local) (fun globalCheck =>
    Some (if Rltb (1 / 10 ^ 8) (two_norm 2 (fun k => globalCheck k - global k)) then false else true))
  else Some true).
(** lines 79-133 *)
Definition mt_triangle_corners : list Vec := [vec2 (1 / 2) 0; vec2 (1 / 2) (1 / 2); vec2 0 (1 / 2)].
Definition mt_quadrilateral_corners : list Vec := [vec2 0 0; vec2 (1 / 2) (1 / 2); vec2 0 1; vec2 (1 / 2) 1].
Definition mt_localMethod (toli : R) (make : Make) : option bool :=
  let id := gt_id (simplex 2) in
  obind (re_infos id 2) (fun r =>
  let geometry := make id r mt_triangle_corners in
  obind (mt_inside toli geometry id (fun _ => 4 / 10) true) (fun p1 =>
  obind (mt_inside toli geometry id (fun _ => - (1 / 10)) false) (fun p2 =>
  obind (mt_inside toli geometry id (fun _ => 0) false) (fun p3 =>
  let pass := p1 && p2 && p3 in
  let id := gt_id (cube 2) in
  obind (re_infos id 2) (fun r =>
  let geometry := make id r mt_quadrilateral_corners in
  obind (mt_inside toli geometry id (vec2 (1 / 4) (3 / 4)) true) (fun p1 =>
  obind (mt_inside toli geometry id (vec2 1 0) false) (fun p2 =>
  obind (mt_inside toli geometry id (fun _ => 4) false) (fun p3 =>
  Some (pass && p1 && p2 && p3))))))))).

(** lines 396-442: (type, mydim, cdim) in the order of the calls *)
Definition mt_calls : list (GeometryType * nat * nat) :=
  [(simplex 0, 0, 0); (simplex 0, 0, 1); (simplex 0, 0, 2); (simplex 0, 0, 3); (simplex 0, 0, 4);
   (cube 0, 0, 0); (cube 0, 0, 1); (cube 0, 0, 2); (cube 0, 0, 3); (cube 0, 0, 4);
   (simplex 1, 1, 1); (simplex 1, 1, 2); (simplex 1, 1, 3); (simplex 1, 1, 4);
   (cube 1, 1, 3); (cube 1, 1, 1); (cube 1, 1, 2); (cube 1, 1, 4);
   (simplex 2, 2, 2); (simplex 2, 2, 3); (simplex 2, 2, 4);
   (cube 2, 2, 2); (cube 2, 2, 3); (cube 2, 2, 4);
   (simplex 3, 3, 3); (simplex 3, 3, 4); (pyramid, 3, 3); (pyramid, 3, 4);
   (prism, 3, 3); (prism, 3, 4); (cube 3, 3, 3); (cube 3, 3, 4);
   (simplex 4, 4, 4); (simplex 4, 4, 5); (cube 4, 4, 4); (cube 4, 4, 5)]%nat.
Section Main.
Variables (epsilon epsilon16 tolerance toli : R) (rule : N -> nat -> option Rule) (junk : Mat) (determinant : nat -> Mat -> R).
Fixpoint mt_types (make : nat -> nat -> Make) (calls : list (GeometryType * nat * nat)) (pass : bool) : option bool :=
  match calls with
  | [] => Some pass
  | (gt, mydim, cdim) :: calls =>
      obind (mt_type mydim cdim epsilon tolerance rule junk determinant (make mydim cdim) (gt_id gt)) (fun p => mt_types make calls (pass && p))
  end.
(** lines 376-447 *)
Definition mt_all (make : nat -> nat -> Make) (calls : list (GeometryType * nat * nat)) : option bool :=
  obind (mt_types make calls true) (fun pass => obind (mt_nonlinear epsilon16 (make 2%nat 2%nat)) (fun p => Some (pass && p))).
(** lines 449-474: the two traits differ in how the corners are stored; true is exit code 0 *)
Definition mt_main (make makeRef : nat -> nat -> Make) (calls : list (GeometryType * nat * nat)) : option bool :=
  obind (mt_all make calls) (fun p1 =>
  obind (mt_all makeRef calls) (fun p2 =>
  obind (mt_localMethod toli (make 2%nat 2%nat)) (fun p3 => Some (p1 && p2 && p3)))).
End Main.

(** MultiLinearGeometry as class under test: [maxv] is the largest number (multilineargeometry.hh:325) *)
Definition mt_ml (tol maxv : R) (jv : Vec) (jm jk j1 j2 : Mat) (fuel : nat) (mydim cdim : nat) : Make := fun id r corners =>
  let g := {| ml_id := id; ml_ref := r; ml_corners := corners |} in
  (gi_ml mydim cdim tol jv jm jk j1 j2 g,
   fun y => match mlg_local mydim cdim tol jv jm jk j1 j2 fuel g y with Done (LocPt z) => Some z | Done LocMax => Some (fun _ => maxv) | _ => None end).
