(** Model of dune/geometry/test/benchmark-geometries.cc.

    Scalars are exact real numbers.  [None] is an exception, a failed assertion or a program that does not
    compile.  The three geometries that a call builds enter through their constructors, so that other classes
    can be put in their place; [rules] gives the quadrature rule of an element type and an order.  Timers and
    output are left out.  The number of iterations is the integer that lines 177-179 give. *)
From Coq Require Import PeanoNat NArith ZArith Bool List Reals.
From Verif Require Import M_Type M_RefTopo M_RefGeo M_Matrix M_Affine M_MultiLinear M_GaussNewton M_LocalFE M_CheckGeo M_LFETest.
Import ListNotations.
Local Open Scope R_scope.

Section Geometry.
Variables (mydim cdim : nat) (geo : GeoI).
(** line 39, 40: [(a - b).two_norm() > 0] *)
Definition bm_apart (a b : option Vec) : option bool :=
  obind a (fun u => obind b (fun v => Some (Rltb 0 (two_norm cdim (fun k => u k - v k))))).
(** lines 38-41: the remaining n rounds, from i on *)
Fixpoint bm_corners (n i : nat) (pass : bool) : option bool :=
  match n with
  | O => Some pass
  | S n =>
      obind (bm_apart (gi_corner geo i) (gi_corner geo (Nat.modulo (i + 1) (gi_corners geo)))) (fun p1 =>
      obind (bm_apart (gi_corner geo i) (gi_center geo)) (fun p2 =>
      bm_corners n (S i) (pass && p1 && p2)))
  end.
(** lines 34-49.  The sizes that lines 44-48 compare are those of FieldVector and FieldMatrix, fixed by the types:
    only that the calls return is left of them *)
Definition bm_point (isAffine : bool) (t : GeometryType) (pos : Vec) (pass : bool) : option bool :=
  obind (gi_affine geo) (fun a =>
  let pass := pass && Bool.eqb a isAffine && gt_eqb (gi_type geo) t && Nat.ltb 0 (gi_corners geo) in
  obind (bm_corners (gi_corners geo) 0 pass) (fun pass =>
  obind (gi_volume geo) (fun v =>
  obind (gi_global geo pos) (fun _ =>
  obind (gi_jacobian geo pos) (fun _ =>
  obind (gi_jacobianTransposed geo pos) (fun _ =>
  obind (gi_jacobianInverse geo pos) (fun _ =>
  obind (gi_jacobianInverseTransposed geo pos) (fun _ =>
  obind (gi_integrationElement geo pos) (fun ie =>
  Some (pass && Rltb 0 v && Rltb 0 ie)))))))))).
(** lines 32-50 *)
Fixpoint bm_points (isAffine : bool) (t : GeometryType) (q : Rule) (pass : bool) : option bool :=
  match q with
  | [] => Some pass
  | (pos, _) :: q => obind (bm_point isAffine t pos pass) (bm_points isAffine t q)
  end.
(** lines 24-53 *)
Definition bm_geometry (rules : N -> nat -> Z -> option Rule) : option bool :=
  obind (gi_affine geo) (fun isAffine =>
  let t := gi_type geo in
  obind (rules (gt_id t) mydim 8%Z) (fun quadrature => bm_points isAffine t quadrature true)).
(** lines 97-99, 105-107, 118-120: nIter times [pass &= benchmarkGeometry(geometry)] *)
Fixpoint bm_repeat (rules : N -> nat -> Z -> option Rule) (n : nat) (pass : bool) : option bool :=
  match n with
  | O => Some pass
  | S n => obind (bm_geometry rules) (fun p => bm_repeat rules n (pass && p))
  end.
End Geometry.

(** what a call builds: LocalFiniteElementGeometry from coefficients, MultiLinearGeometry and the MappedGeometry of a
    LocalFiniteElementFunction over the ReferenceElementGeometry, with the flag of line 116 *)
Record BMMakers := {
  bmk_coefficients : N -> RefElement -> LFE -> list Vec -> option GeoI;
  bmk_multilinear : N -> RefElement -> list Vec -> option GeoI;
  bmk_mapped : N -> RefElement -> LFE -> list Vec -> bool -> option GeoI }.

(** lines 56-124; the map of lines 71-86 is that of test-localfiniteelementgeometry.cc, and so are the element of lines
    65-69 and the corners of lines 88-90 *)
Definition bm_call (rules : N -> nat -> Z -> option Rule) (mydim cdim : nat) (mk : BMMakers) (nIter : Z) (id : N) : option bool :=
  obind (re_infos id mydim) (fun r =>
  obind (lt_fe id mydim) (fun lfe =>
  obind (lt_corners mydim cdim id r (size id mydim mydim) 0) (fun corners =>
  obind (bmk_coefficients mk id r lfe corners) (fun geometry =>
  obind (bm_repeat mydim cdim geometry rules (Z.to_nat nIter) true) (fun pass =>
  obind (bmk_multilinear mk id r corners) (fun mlgeometry =>
  obind (bm_repeat mydim cdim mlgeometry rules (Z.to_nat nIter) pass) (fun pass =>
  obind (re_geometry id mydim 0 0) (fun _ =>
  (* line 116; AffineGeometry::affine() is true (affinegeometry.hh:131) *)
  let affine := Z.eqb (fe_order lfe) 1 && true in
  obind (bmk_mapped mk id r lfe corners affine) (fun mappedgeometry =>
  bm_repeat mydim cdim mappedgeometry rules (Z.to_nat nIter) pass))))))))).

(** lines 134-168: (type, mydim, cdim) in the order of the calls *)
Definition bm_calls : list (GeometryType * nat * nat) :=
  [(simplex 1, 1, 1); (simplex 1, 1, 2); (simplex 1, 1, 3); (simplex 1, 1, 4);
   (cube 1, 1, 1); (cube 1, 1, 2); (cube 1, 1, 3); (cube 1, 1, 4);
   (simplex 2, 2, 2); (simplex 2, 2, 3); (simplex 2, 2, 4);
   (cube 2, 2, 2); (cube 2, 2, 3); (cube 2, 2, 4);
   (simplex 3, 3, 3); (simplex 3, 3, 4);
   (cube 3, 3, 3); (cube 3, 3, 4);
   (simplex 4, 4, 4); (simplex 4, 4, 5);
   (cube 4, 4, 4); (cube 4, 4, 5)]%nat.
(** lines 132, 158-162: commented out *)
Definition bm_disabled : list (GeometryType * nat * nat) :=
  [(simplex 0, 0, 0); (pyramid, 3, 3); (pyramid, 3, 4); (prism, 3, 3); (prism, 3, 4)]%nat.

(** lines 127-171 *)
Fixpoint bm_all (rules : N -> nat -> Z -> option Rule) (mk : nat -> nat -> BMMakers) (nIter : Z) (calls : list (GeometryType * nat * nat)) (pass : bool) : option bool :=
  match calls with
  | [] => Some pass
  | (gt, mydim, cdim) :: calls => obind (bm_call rules mydim cdim (mk mydim cdim) nIter (gt_id gt)) (fun p => bm_all rules mk nIter calls (pass && p))
  end.
(** lines 173-190, without or with an argument: double, then float; true is exit code 0 *)
Definition bm_main (rules : N -> nat -> Z -> option Rule) (mkd mkf : nat -> nat -> BMMakers) (argument : option Z) : option bool :=
  let nIter := match argument with Some n => n | None => 10%Z end in
  obind (bm_all rules mkd nIter bm_calls true) (fun p1 => obind (bm_all rules mkf nIter bm_calls true) (fun p2 => Some (p1 && p2))).

(** the classes of the library; the mapping of the third one as in [lt_mapped], with any flag *)
Definition bm_mapped (mydim cdim : nat) (rules : N -> nat -> Z -> option Rule) (jd : LTJunk) (id : N) (r : RefElement) (fe : LFE) (coefficients : list Vec) (affine : bool) : option GeoI :=
  let f := {| lff_fe := fe; lff_coefficients := coefficients |} in
  obind (lff_eval cdim f vzero) (fun _ =>
  obind (lff_derivative mydim cdim f vzero) (fun _ =>
  obind (reg_make mydim id r (lj_ret' jd) (lj_j1' jd) (lj_j2' jd)) (fun base =>
  let mapping x := match lff_eval cdim f x with Some y => y | None => vzero end in
  let dmapping x := match lff_derivative mydim cdim f x with Some J => J | None => mzero end in
  Some (gi_mg mydim cdim mydim (lj_ret jd) (lj_j1 jd) (lj_j2 jd) (rules id mydim) (lj_opts jd)
    {| mg_map := mapping; mg_dmap := dmapping; mg_geo := reg_wrapped mydim base; mg_affine := affine |})))).
Definition bm_library (rules : N -> nat -> Z -> option Rule) (jd : LTJunk) (mydim cdim : nat) : BMMakers := {|
  bmk_coefficients := fun id r fe cs => option_map fst (lm_coefficients (lt_library rules jd mydim cdim) id r fe cs);
  bmk_multilinear := fun id r cs => Some (lm_multilinear (lt_library rules jd mydim cdim) id r cs);
  bmk_mapped := bm_mapped mydim cdim rules jd |}.
