(** Model of dune/geometry/test/test-mappedgeometry.cc.

    Scalars are exact real numbers.  [None] is an exception or a failed assertion.  The class under test enters
    through its constructor, so that other classes can be put in its place; [rules] gives the quadrature rule of
    an element type and an order.  The output and the clocks are left out. *)
From Coq Require Import PeanoNat NArith ZArith Bool List Reals.
From Verif Require Import M_Type M_RefTopo M_RefGeo M_Matrix M_Affine M_MultiLinear M_GaussNewton M_LocalFE M_CheckGeo M_MLTest.
Import ListNotations.
Local Open Scope R_scope.

(** AffineMapping, lines 23-24 *)
Definition mp_b : Vec := fun i => INR (i + 1).
(** lines 25-27 *)
Definition mp_A : Mat := fun i j => INR (i + 1) * (if Nat.eqb i j then 1 else 0).
(** lines 30-36 *)
Definition mp_map (mydim cdim : nat) (x : Vec) : Vec :=
  let result := mv cdim mydim mp_A x in
  fun i => result i + mp_b i.
(** lines 38-41 *)
Definition mp_derivative (x : Vec) : Mat := mp_A.

(** a geometry as the second argument of MappedGeometry *)
Definition wrap (id : N) (r : RefElement) (g : GeoI) : WrappedGeo := {|
  wg_id := id; wg_ref := r; wg_corner := gi_corner g; wg_center := gi_center g; wg_global := gi_global g; wg_jacobian := gi_jacobian g |}.

(** the constructor of MappedGeometry (mappedgeometry.hh:125-130): mapping, derivative, geometry, affine *)
Definition MapMake := (Vec -> Vec) -> (Vec -> Mat) -> WrappedGeo -> bool -> Made.

(** uninitialised memory and options of the classes *)
Record MPJunk := {
  pj_tol : R; pj_jv : Vec; pj_jm : Mat; pj_jk : Mat; pj_j1 : Mat; pj_j2 : Mat; pj_ret : Mat;
  pj_ret' : Mat; pj_j1' : Mat; pj_j2' : Mat; pj_opts : ConvOpts; pj_gn : GNOpts }.

Section Test.
Variables (mydim cdim : nat) (mk : MapMake) (jd : MPJunk).
Variables (tolerance : R) (rules : N -> nat -> Z -> option Rule) (junk : Mat).
(** FieldMatrix::determinant *)
Variable determinant : nat -> Mat -> R.

(** lines 62-64 *)
Fixpoint mp_corners (id : N) (r : RefElement) (n i : nat) : option (list Vec) :=
  match n with
  | O => Some []
  | S n => obind (re_position id mydim r i mydim) (fun p => obind (mp_corners id r n (S i)) (fun cs => Some (p :: cs)))
  end.
Definition mp_checkGeometry (id : N) (g : Made) : option bool :=
  checkGeometry mydim cdim tolerance junk (fst g) (snd g) (determinant mydim) (rules id mydim 2).
(** line 70 *)
Definition mp_geo (id : N) (r : RefElement) (corners : list Vec) : GeoI :=
  gi_ml mydim mydim (pj_tol jd) (pj_jv jd) (pj_jm jd) (pj_jk jd) (pj_j1 jd) (pj_j2 jd) {| ml_id := id; ml_ref := r; ml_corners := corners |}.
(** line 79 *)
Definition mp_refGeo (id : N) (r : RefElement) : option AffGeo := reg_make mydim id r (pj_ret' jd) (pj_j1' jd) (pj_j2' jd).
(** lines 55-106 *)
Definition mp_test (id : N) : option bool :=
  obind (re_infos id mydim) (fun r =>
  obind (mp_corners id r (size id mydim mydim) 0) (fun corners =>
  let make := fun w => mk (mp_map mydim cdim) mp_derivative w (isSimplex (GT2 id mydim)) in
  let geo := mp_geo id r corners in
  obind (mp_checkGeometry id (make (wrap id r geo))) (fun p1 =>
  obind (mp_refGeo id r) (fun refGeo =>
  obind (mp_checkGeometry id (make (wrap id r (gi_ag mydim refGeo)))) (fun p2 =>
  obind (mp_checkGeometry id (make (reg_wrapped mydim refGeo))) (fun p3 =>
  obind (mp_checkGeometry id (make (ldg_wrapped mydim refGeo (gi_jacobian geo)))) (fun p4 =>
  Some (p1 && p2 && p3 && p4)))))))).
End Test.

(** lines 116-148: (type, mydim, cdim) in the order of the calls *)
Definition mp_calls : list (GeometryType * nat * nat) :=
  [(simplex 1, 1, 1); (simplex 1, 1, 2); (simplex 1, 1, 3); (simplex 1, 1, 4);
   (cube 1, 1, 1); (cube 1, 1, 2); (cube 1, 1, 3); (cube 1, 1, 4);
   (simplex 2, 2, 2); (simplex 2, 2, 3); (simplex 2, 2, 4);
   (cube 2, 2, 2); (cube 2, 2, 3); (cube 2, 2, 4);
   (simplex 3, 3, 3); (simplex 3, 3, 4);
   (cube 3, 3, 3); (cube 3, 3, 4);
   (simplex 4, 4, 4); (simplex 4, 4, 5);
   (cube 4, 4, 4); (cube 4, 4, 5);
   (pyramid, 3, 3); (pyramid, 3, 4);
   (prism, 3, 3); (prism, 3, 4)]%nat.

Section Main.
Variables (mk : nat -> nat -> N -> MapMake) (jd : MPJunk) (tolerance : R) (rules : N -> nat -> Z -> option Rule) (junk : Mat) (determinant : nat -> Mat -> R).
(** lines 109-151; the constructor may depend on the dimensions and, for its rules, on the type *)
Fixpoint mp_all (calls : list (GeometryType * nat * nat)) (pass : bool) : option bool :=
  match calls with
  | [] => Some pass
  | (gt, mydim, cdim) :: calls =>
      obind (mp_test mydim cdim (mk mydim cdim (gt_id gt)) jd tolerance rules junk determinant (gt_id gt)) (fun p => mp_all calls (pass && p))
  end.
(** lines 160-161, n repetitions left *)
Fixpoint mp_repeat (calls : list (GeometryType * nat * nat)) (n : nat) (pass : bool) : option bool :=
  match n with
  | O => Some pass
  | S n => obind (mp_all calls true) (fun p => mp_repeat calls n (pass && p))
  end.
(** lines 153-177; true is exit code 0 *)
Definition mp_main (calls : list (GeometryType * nat * nat)) : option bool := mp_repeat calls 10 true.
End Main.

(** ** MappedGeometry itself; local() with its default options (mappedgeometry.hh:197) *)
Definition mp_library (rules : N -> nat -> Z -> option Rule) (jd : MPJunk) (mydim cdim : nat) (id : N) : MapMake := fun map dmap w affine =>
  let g := {| mg_map := map; mg_dmap := dmap; mg_geo := w; mg_affine := affine |} in
  (gi_mg mydim cdim mydim (pj_ret jd) (pj_j1 jd) (pj_j2 jd) (rules id mydim) (pj_opts jd) g,
   fun y => obind (mg_local mydim mydim cdim (pj_j1 jd) (pj_j2 jd) g y (pj_gn jd)) (fun z => z)).
