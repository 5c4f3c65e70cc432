(** Model of dune/geometry/test/test-localfiniteelementgeometry.cc.

    Scalars are exact real numbers.  [None] is an exception, a failed assertion or a program that does not
    compile.  The four geometries that a call builds enter through their constructors, so that other classes
    can be put in their place; [rules] gives the quadrature rule of an element type and an order.  The output
    is left out, and the two scalar types (lines 132-135) differ in the tolerances only. *)
From Coq Require Import PeanoNat NArith ZArith Bool List Reals.
From Verif Require Import M_Type M_RefTopo M_RefGeo M_Matrix M_Affine M_MultiLinear M_GaussNewton M_LocalFE M_CheckGeo M_MLTest.
Import ListNotations.
Local Open Scope R_scope.

(** lines 36-39 *)
Definition lt_A : Mat := fun i j => IZR (3 - Z.abs (Z.of_nat i - Z.of_nat j)).
(** lines 41-43 *)
Definition lt_b : Vec := fun i => INR (i + 1).
(** lines 46-51 *)
Definition lt_f (mydim cdim : nat) (x : Vec) : Vec :=
  let y := mv cdim mydim lt_A x in
  fun i => y i + lt_b i.

(** lines 29-33: void is not a finite element *)
Definition lt_fe (id : N) (dim : nat) : option LFE :=
  if isSimplex (GT2 id dim) then Some (P1 dim) else if isCube (GT2 id dim) then Some (Q1 dim) else None.
(** the interpolation of the element chosen there (localfiniteelements.hh:198-202) *)
Definition lt_interpolate (id : N) (dim : nat) : (Vec -> Vec) -> list Vec :=
  if isSimplex (GT2 id dim) then p1_interpolate dim else q1_interpolate dim.

(** what the test builds: LocalFiniteElementGeometry from coefficients and from a function, MultiLinearGeometry and
    the MappedGeometry of a LocalFiniteElementFunction over the ReferenceElementGeometry *)
Record LTMakers := {
  lm_coefficients : N -> RefElement -> LFE -> list Vec -> option Made;
  lm_function : N -> RefElement -> LFE -> ((Vec -> Vec) -> list Vec) -> (Vec -> Vec) -> option Made;
  lm_multilinear : N -> RefElement -> list Vec -> GeoI;
  lm_mapped : N -> RefElement -> LFE -> list Vec -> option GeoI }.

Section Test.
Variables (mydim cdim : nat) (mk : LTMakers).
Variables (tolerance ctolerance : R) (rules : N -> nat -> Z -> option Rule) (junk : Mat).
(** FieldMatrix::determinant *)
Variable determinant : nat -> Mat -> R.

(** lines 53-55 *)
Fixpoint lt_corners (id : N) (r : RefElement) (n i : nat) : option (list Vec) :=
  match n with
  | O => Some []
  | S n => obind (re_position id mydim r i mydim) (fun p =>
           obind (lt_corners id r n (S i)) (fun cs => Some (lt_f mydim cdim p :: cs)))
  end.
Definition lt_checkGeometry (id : N) (g : Made) : option bool :=
  checkGeometry mydim cdim tolerance junk (fst g) (snd g) (determinant mydim) (rules id mydim 2).
Definition lt_compare (id : N) (g h : GeoI) : option bool := compareGeometries mydim cdim ctolerance (rules id mydim 4) g h.
(** lines 21-82 *)
Definition lt_check (id : N) : option bool :=
  obind (re_infos id mydim) (fun r =>
  obind (lt_fe id mydim) (fun lfe =>
  obind (lt_corners id r (size id mydim mydim) 0) (fun corners =>
  obind (lm_coefficients mk id r lfe corners) (fun geometry =>
  obind (lt_checkGeometry id geometry) (fun p1 =>
  obind (lm_function mk id r lfe (lt_interpolate id mydim) (lt_f mydim cdim)) (fun geometry2 =>
  obind (lt_checkGeometry id geometry2) (fun p2 =>
  obind (lt_compare id (fst geometry) (lm_multilinear mk id r corners)) (fun p3 =>
  obind (lm_mapped mk id r lfe corners) (fun mappedgeometry =>
  obind (lt_compare id (fst geometry) mappedgeometry) (fun p4 =>
  Some (p1 && p2 && p3 && p4))))))))))).
End Test.

(** lines 92-124: (type, mydim, cdim) in the order of the calls *)
Definition lt_calls : list (GeometryType * nat * nat) :=
  [(simplex 1, 1, 1); (simplex 1, 1, 2); (simplex 1, 1, 3); (simplex 1, 1, 4);
   (cube 1, 1, 1); (cube 1, 1, 2); (cube 1, 1, 3); (cube 1, 1, 4);
   (simplex 2, 2, 2); (simplex 2, 2, 3); (simplex 2, 2, 4);
   (cube 2, 2, 2); (cube 2, 2, 3); (cube 2, 2, 4);
   (simplex 3, 3, 3); (simplex 3, 3, 4);
   (cube 3, 3, 3); (cube 3, 3, 4);
   (simplex 4, 4, 4); (simplex 4, 4, 5);
   (cube 4, 4, 4); (cube 4, 4, 5)]%nat.
(** lines 90, 114-118: commented out; dimension and world dimension *)
Definition lt_disabled : list (GeometryType * nat * nat) :=
  [(simplex 0, 0, 0); (pyramid, 3, 3); (pyramid, 3, 4); (prism, 3, 3); (prism, 3, 4)]%nat.

Section Main.
Variables (rules : N -> nat -> Z -> option Rule) (junk : Mat) (determinant : nat -> Mat -> R).
(** lines 85-126 *)
Fixpoint lt_all (mk : nat -> nat -> LTMakers) (tolerance ctolerance : R) (calls : list (GeometryType * nat * nat)) (pass : bool) : option bool :=
  match calls with
  | [] => Some pass
  | (gt, mydim, cdim) :: calls =>
      obind (lt_check mydim cdim (mk mydim cdim) tolerance ctolerance rules junk determinant (gt_id gt))
        (fun p => lt_all mk tolerance ctolerance calls (pass && p))
  end.
(** lines 128-141: double, then float; true is exit code 0 *)
Definition lt_main (mk : nat -> nat -> LTMakers) (told ctold tolf ctolf : R) (calls : list (GeometryType * nat * nat)) : option bool :=
  obind (lt_all mk told ctold calls true) (fun p1 => obind (lt_all mk tolf ctolf calls true) (fun p2 => Some (p1 && p2))).
End Main.

(** ** the classes of the library *)
Section Library.
Variables (mydim cdim : nat) (rules : N -> nat -> Z -> option Rule).
(** localfiniteelementgeometry.hh:104-112; local() without options is that of lines 232-248 *)
Definition lt_lfe (tolf : R) (junk ret j1 j2 : Mat) (opts : ConvOpts) (gn : GNOpts) (h : LFEGeo) : Made :=
  (gi_lf mydim cdim tolf junk ret j1 j2 (rules (lf_id h) mydim) opts h, fun y => obind (lf_local mydim cdim j1 j2 h y gn) (fun z => z)).
Definition lt_coefficients (tolf : R) (junk ret j1 j2 : Mat) (opts : ConvOpts) (gn : GNOpts) (id : N) (r : RefElement) (fe : LFE) (vertices : list Vec) : option Made :=
  if Nat.eqb (length (fe_values fe vzero)) (length vertices)
  then Some (lt_lfe tolf junk ret j1 j2 opts gn {| lf_id := id; lf_ref := r; lf_fe := fe; lf_vertices := vertices |})
  else None.
(** lines 126-134 *)
Definition lt_function (tolf : R) (junk ret j1 j2 : Mat) (opts : ConvOpts) (gn : GNOpts) (id : N) (r : RefElement) (fe : LFE)
    (interpolate : (Vec -> Vec) -> list Vec) (f : Vec -> Vec) : option Made :=
  Some (lt_lfe tolf junk ret j1 j2 opts gn (lf_from_function id r fe interpolate f)).
Definition lt_multilinear (tol : R) (jv : Vec) (jm jk j1 j2 : Mat) (id : N) (r : RefElement) (corners : list Vec) : GeoI :=
  gi_ml mydim cdim tol jv jm jk j1 j2 {| ml_id := id; ml_ref := r; ml_corners := corners |}.
(** test-localfiniteelementgeometry.cc:72-78; the assertions of localfiniteelements.hh:232 and 245 are about sizes
    that do not depend on the point *)
Definition lt_mapped (ret j1 j2 ret' j1' j2' : Mat) (opts : ConvOpts) (id : N) (r : RefElement) (fe : LFE) (coefficients : list Vec) : option GeoI :=
  let f := {| lff_fe := fe; lff_coefficients := coefficients |} in
  obind (lff_eval cdim f vzero) (fun _ =>
  obind (lff_derivative mydim cdim f vzero) (fun _ =>
  obind (reg_make mydim id r ret' j1' j2') (fun base =>
  let mapping x := match lff_eval cdim f x with Some y => y | None => vzero end in
  let dmapping x := match lff_derivative mydim cdim f x with Some J => J | None => mzero end in
  Some (gi_mg mydim cdim mydim ret j1 j2 (rules id mydim) opts
    {| mg_map := mapping; mg_dmap := dmapping; mg_geo := reg_wrapped mydim base; mg_affine := true |})))).
End Library.

(** uninitialised memory and options of the classes *)
Record LTJunk := {
  lj_tolf : R; lj_tol : R; lj_jv : Vec; lj_jm : Mat; lj_jk : Mat; lj_junk : Mat; lj_ret : Mat; lj_j1 : Mat; lj_j2 : Mat;
  lj_ret' : Mat; lj_j1' : Mat; lj_j2' : Mat; lj_opts : ConvOpts; lj_gn : GNOpts }.
Definition lt_library (rules : N -> nat -> Z -> option Rule) (jd : LTJunk) (mydim cdim : nat) : LTMakers := {|
  lm_coefficients := lt_coefficients mydim cdim rules (lj_tolf jd) (lj_junk jd) (lj_ret jd) (lj_j1 jd) (lj_j2 jd) (lj_opts jd) (lj_gn jd);
  lm_function := lt_function mydim cdim rules (lj_tolf jd) (lj_junk jd) (lj_ret jd) (lj_j1 jd) (lj_j2 jd) (lj_opts jd) (lj_gn jd);
  lm_multilinear := lt_multilinear mydim cdim (lj_tol jd) (lj_jv jd) (lj_jm jd) (lj_jk jd) (lj_j1 jd) (lj_j2 jd);
  lm_mapped := lt_mapped mydim cdim rules (lj_ret jd) (lj_j1 jd) (lj_j2 jd) (lj_ret' jd) (lj_j1' jd) (lj_j2' jd) (lj_opts jd) |}.
