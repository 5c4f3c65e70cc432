(** Model of dune/geometry/test/test-axisalignedcubegeometry.cc.

    Scalars are exact real numbers.  [make] is the constructor from lower and upper corner and the
    set of axes, [None] its failed assertion.  A geometry is given by its member functions (M_LocalFE,
    M_RefineTest).  Lines 73-80 and 107-114 assign the geometry to a default constructed one and
    check the copy; the copy of a value is the value here.  [tolc], [junk], [determinant], [rule]: see M_CheckGeo
    and M_RefineTest. *)
From Coq Require Import PeanoNat NArith ZArith Bool List Reals.
From Verif Require Import M_Type M_RefTopo M_RefGeo M_Matrix M_Affine M_MultiLinear M_GaussNewton M_LocalFE M_CheckGeo M_RefineTest.
Import ListNotations.
Local Open Scope R_scope.

Section Test.
Variables (tolc : R) (junk : Mat) (determinant : nat -> Mat -> R) (rule : N -> nat -> option Rule).
Variable make : nat -> nat -> Vec -> Vec -> (nat -> bool) -> option Geo.

(** lines 21-46: pass and fail are those of M_RefineTest *)
Definition ct_affine (g : Geo) (result : nat) : option nat :=
  obind (gi_affine (fst g)) (fun affine => Some (if negb affine then rt_fail result else rt_pass result)).
(** lines 64-80 and 98-114 *)
Definition ct_geometry (dim coorddim : nat) (g : Geo) (result : nat) : option nat :=
  obind (rt_check tolc junk determinant rule dim coorddim g) (fun b =>
  let result := if b : bool then rt_pass result else rt_fail result in
  obind (ct_affine g result) (fun result =>
  let geometry2 := g in
  obind (rt_check tolc junk determinant rule dim coorddim geometry2) (fun b =>
  Some (if b : bool then rt_pass result else rt_fail result)))).
(** lines 49-81 *)
Definition ct_zero (dim coorddim result : nat) : option nat :=
  let lower := fun _ => 0 in
  let upper := fun _ => 1 in
  let axes := forN dim (fun i (axes : nat -> bool) k => if Nat.eqb k i then true else axes k) (fun _ => false) in
  obind (make dim coorddim lower upper axes) (fun geometry => ct_geometry dim coorddim geometry result).
(** lines 83-117: rounds i .. i+n-1 of the loop *)
Fixpoint ct_rounds (dim coorddim n i result : nat) : option nat :=
  match n with
  | O => Some result
  | S n =>
      let lower := fun _ => -1 in
      let upper := fun _ => 3 in
      let axes := Nat.testbit i in
      if negb (Nat.eqb (bcount coorddim axes) dim) then ct_rounds dim coorddim n (S i) result
      else
        obind (make dim coorddim lower upper axes) (fun geometry =>
        obind (ct_geometry dim coorddim geometry result) (ct_rounds dim coorddim n (S i)))
  end.
Definition ct_nonzero (dim coorddim result : nat) : option nat := ct_rounds dim coorddim (2 ^ coorddim - 1) 0 result.
(** lines 120-145 *)
Definition ct_main : option nat :=
  obind (ct_zero 0 0 77) (fun result =>
  obind (ct_zero 1 1 result) (fun result =>
  obind (ct_zero 2 2 result) (fun result =>
  obind (ct_zero 3 3 result) (fun result =>
  obind (ct_nonzero 0 2 result) (fun result =>
  obind (ct_nonzero 1 2 result) (fun result =>
  obind (ct_nonzero 2 2 result) (fun result =>
  obind (ct_nonzero 0 3 result) (fun result =>
  obind (ct_nonzero 1 3 result) (fun result =>
  obind (ct_nonzero 2 3 result) (fun result =>
  obind (ct_nonzero 3 3 result) (fun result =>
  ct_zero 0 3 result))))))))))).
End Test.
(** axisalignedcubegeometry.hh:142-153 *)
Definition ct_library (dim coorddim : nat) (lower upper : Vec) (axes : nat -> bool) : option Geo :=
  obind (aac_make3 dim coorddim lower upper axes) (fun g => Some (rt_aac dim coorddim g)).
