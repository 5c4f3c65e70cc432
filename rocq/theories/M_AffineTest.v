(** Model of dune/geometry/test/test-affinegeometry.cc.

    Scalars are exact real numbers; [epsilon] is the number of line 47 and [tolerance] that of
    checkGeometry; [rule] gives the quadrature rule that checkGeometry asks for.  [None] is a
    failed assertion or an exception.  Lines 103-111 assign the geometry to a default constructed one
    and compare results of the copy with those of the original; the copy of a value is the value
    here, so they are left out. *)
From Coq Require Import PeanoNat NArith ZArith Bool List Reals.
From Verif Require Import M_Type M_RefTopo M_RefGeo M_Matrix M_Affine M_MultiLinear M_GaussNewton M_LocalFE M_CheckGeo.
Import ListNotations.
Local Open Scope R_scope.

Section Test.
Variables (mydim cdim : nat).
(** lines 14-34; mv is FieldMatrix::mv *)
Definition ta_map (A B : Mat) (x : Vec) : Vec :=
  let Ax := mv mydim mydim A x in
  let eAx := forN mydim (fun j eAx => upd eAx j (Ax j)) vzero in
  mv cdim cdim B eAx.

Variables (epsilon tolerance : R) (rule : N -> nat -> option Rule) (junk ret j1 j2 : Mat).
(** FieldMatrix::determinant *)
Variable determinant : nat -> Mat -> R.

(** lines 51-54 *)
Fixpoint ta_corners (id : N) (r : RefElement) (A B : Mat) (n i : nat) : option (list Vec) :=
  match n with
  | O => Some []
  | S n => obind (re_position id mydim r i mydim) (fun p =>
           obind (ta_corners id r A B n (S i)) (fun cs => Some (ta_map A B p :: cs)))
  end.
(** lines 88-101 *)
Definition ta_rows (A B : Mat) (JT : Mat) (pass : bool) : bool :=
  forN mydim (fun i pass =>
    let e := upd vzero i 1 in
    let t := ta_map A B e in
    if Rltb epsilon (two_norm cdim (fun k => t k - JT i k)) then false else pass) pass.
(** lines 36-116 *)
Definition ta_test (id : N) (r : RefElement) (A B : Mat) : option bool :=
  obind (re_position id mydim r 0 0) (fun localCenter =>
  let detA := determinant mydim A in
  if Rltb epsilon (Rabs (Rabs (determinant cdim B) - 1)) then None
  else
    obind (ta_corners id r A B (size id mydim mydim) 0) (fun corners =>
    obind (affine_from_corners mydim cdim id r corners junk ret j1 j2) (fun geometry =>
    let integrationElement := ag_integrationElement geometry localCenter in
    let pass := if Rltb epsilon (Rabs (integrationElement - Rabs detA)) then false else true in
    let volume := ag_volume mydim geometry in
    let pass := if Rltb epsilon (Rabs (volume - referenceVolume id mydim * Rabs detA)) then false else pass in
    obind (ag_center mydim geometry) (fun center =>
    let pass := if Rltb epsilon (two_norm cdim (fun k => center k - ta_map A B localCenter k)) then false else pass in
    let JT := ag_jacobianTransposed geometry localCenter in
    let pass := ta_rows A B JT pass in
    obind (checkGeometry mydim cdim tolerance junk (gi_ag mydim geometry) (fun y => Some (ag_local cdim geometry y)) (determinant mydim) (rule id mydim))
      (fun passed => Some (pass && passed)))))).

(** lines 119-149 *)
Definition ta_scaled (n : nat) (s : R) : Mat := fun i j => if Nat.ltb i n && Nat.eqb i j then s else 0.
Definition ta_type (id : N) : option bool :=
  obind (re_infos id mydim) (fun r =>
  obind (ta_test id r (ta_scaled mydim 1) (ta_scaled cdim 1)) (fun passId =>
  obind (ta_test id r (ta_scaled mydim 42) (ta_scaled cdim 1)) (fun passScaledId => Some (passId && passScaledId)))).
End Test.

(** lines 152-209: (type, mydim, cdim) in the order of the calls *)
Definition ta_calls : list (GeometryType * nat * nat) :=
  [(simplex 0, 0, 0); (simplex 0, 0, 1); (simplex 0, 0, 2); (simplex 0, 0, 3); (simplex 0, 0, 4);
   (cube 0, 0, 0); (cube 0, 0, 1); (cube 0, 0, 2); (cube 0, 0, 3); (cube 0, 0, 4);
   (simplex 1, 1, 1); (simplex 1, 1, 2); (simplex 1, 1, 3); (simplex 1, 1, 4);
   (cube 1, 1, 3); (cube 1, 1, 1); (cube 1, 1, 2); (cube 1, 1, 4);
   (simplex 2, 2, 2); (simplex 2, 2, 3); (simplex 2, 2, 4);
   (cube 2, 2, 2); (cube 2, 2, 3); (cube 2, 2, 4);
   (simplex 3, 3, 3); (simplex 3, 3, 4);
   (prism, 3, 3); (prism, 3, 4);
   (simplex 4, 4, 4); (simplex 4, 4, 5)]%nat.
(** lines 190-192, 197-199 and 204-206: marked as failing and commented out *)
Definition ta_disabled : list (GeometryType * nat * nat) :=
  [(pyramid, 3, 3); (pyramid, 3, 4); (cube 3, 3, 3); (cube 3, 3, 4); (cube 4, 4, 4); (cube 4, 4, 5)]%nat.
Section Main.
Variables (epsilon tolerance : R) (rule : N -> nat -> option Rule) (junk ret j1 j2 : Mat) (determinant : nat -> Mat -> R).
(** the calls, then lines 211-222 *)
Fixpoint ta_main (calls : list (GeometryType * nat * nat)) (pass : bool) : option bool :=
  match calls with
  | [] => Some pass
  | (gt, mydim, cdim) :: calls =>
      obind (ta_type mydim cdim epsilon tolerance rule junk ret j1 j2 determinant (gt_id gt)) (fun p => ta_main calls (pass && p))
  end.
End Main.
