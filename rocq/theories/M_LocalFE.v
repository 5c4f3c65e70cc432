(** Model of dune/geometry/test/localfiniteelements.hh, test/referenceelementgeometry.hh and
    test/comparegeometries.hh, and of the second constructor of LocalFiniteElementGeometry.

    Scalars are exact real numbers.  std::vector::resize and FieldVector constructors give
    zeros; the int shifts [1<<j] are taken without overflow (dim below 31). *)
From Coq Require Import PeanoNat NArith ZArith Bool List Reals.
From Verif Require Import M_Type M_RefTopo M_RefGeo M_Matrix M_Affine M_MultiLinear M_GaussNewton.
Import ListNotations.
Local Open Scope R_scope.

(** the first n entries of a vector *)
Definition entries {A} (n : nat) (f : nat -> A) : list A := map f (seq 0 n).

(** ** P1LocalBasis *)
(** localfiniteelements.hh:41-53 *)
Definition p1_values (dim : nat) (x : Vec) : list R :=
  entries (dim + 1) (forN dim (fun i out => upd (upd out 0 (out 0%nat - x i)) (i + 1) (x i)) (upd vzero 0 1)).
(** lines 56-65 *)
Definition p1_jacobians (dim : nat) (x : Vec) : list Vec :=
  entries (dim + 1)
    (forN dim (fun i out => forN dim (fun j out => mupd out (i + 1) j (if Nat.eqb i j then 1 else 0)) out)
       (forN dim (fun j out => mupd out 0 j (-1)) mzero)).
(** lines 38, 68 *)
Definition P1 (dim : nat) : LFE := {| fe_order := 1; fe_values := p1_values dim; fe_jacobians := p1_jacobians dim |}.
(** lines 124-146; [x] is not initialised before line 134, but every coordinate below dim is set *)
Definition p1_interpolate {C} (dim : nat) (f : Vec -> C) : list C :=
  f vzero :: entries dim (fun i => f (forN dim (fun j x => upd x j (if Nat.eqb i j then 1 else 0)) vzero)).

(** ** Q1LocalBasis *)
(** the factor of coordinate j in shape function i (lines 91-92, 115) *)
Definition q1_factor (x : Vec) (i j : nat) : R := if Nat.testbit i j then x j else 1 - x j.
(** lines 82-94 *)
Definition q1_values (dim : nat) (x : Vec) : list R :=
  entries (2 ^ dim) (fun i => forN dim (fun j out => out * q1_factor x i j) 1).
(** lines 97-119 *)
Definition q1_jacobians (dim : nat) (x : Vec) : list Vec :=
  entries (2 ^ dim) (fun i =>
    forN dim (fun j out =>
      upd out j (forN dim (fun l o => if negb (Nat.eqb j l) then o * q1_factor x i l else o)
                   (if Nat.testbit i j then 1 else -1))) vzero).
(** lines 79, 122 *)
Definition Q1 (dim : nat) : LFE := {| fe_order := 1; fe_values := q1_values dim; fe_jacobians := q1_jacobians dim |}.
(** lines 149-169 *)
Definition q1_interpolate {C} (dim : nat) (f : Vec -> C) : list C :=
  entries (2 ^ dim) (fun i => f (forN dim (fun j x => upd x j (if Nat.testbit i j then 1 else 0)) vzero)).

(** ** LocalFiniteElementGeometry from a function, localfiniteelementgeometry.hh:126-134; the
    local interpolation is a parameter *)
Definition lf_from_function (id : N) (r : RefElement) (fe : LFE) (interpolate : (Vec -> Vec) -> list Vec) (f : Vec -> Vec) : LFEGeo :=
  {| lf_id := id; lf_ref := r; lf_fe := fe; lf_vertices := interpolate f |}.

(** ** LocalFiniteElementFunction (localfiniteelements.hh:202-258) *)
Record LFEFun := { lff_fe : LFE; lff_coefficients : list Vec }.
(** lines 224-233 *)
Definition lff_eval (cdim : nat) (f : LFEFun) (local : Vec) : option Vec :=
  let shapeValues := fe_values (lff_fe f) local in
  if Nat.eqb (length shapeValues) (length (lff_coefficients f)) then
    Some (forN (length shapeValues) (fun i range => vaxpy cdim (nth i shapeValues 0) (nth i (lff_coefficients f) vzero) range) vzero)
  else None.
(** lines 235-250 *)
Definition lff_derivative (dim cdim : nat) (f : LFEFun) (local : Vec) : option Mat :=
  let shapeJacobians := fe_jacobians (lff_fe f) local in
  if Nat.eqb (length shapeJacobians) (length (lff_coefficients f)) then
    Some (forN (length shapeJacobians) (fun i jacobian =>
      forN cdim (fun j jacobian => mrow jacobian j (vaxpy dim (nth i (lff_coefficients f) vzero j) (nth i shapeJacobians vzero) (jacobian j))) jacobian) mzero)
  else None.

(** ** ReferenceElementGeometry (referenceelementgeometry.hh:62-109): corners and centre come
    from the AffineGeometry of subentity 0 of codimension 0, the map is the identity, and
    multiplying with its IdentityMatrix returns the other factor.  The cast of lines 34-41 is
    the matrix [mone]. *)
Definition reg_wrapped (dim : nat) (base : AffGeo) : WrappedGeo :=
  {| wg_id := ag_id base; wg_ref := ag_ref base;
     wg_corner := ag_corner dim base; wg_center := ag_center dim base;
     wg_global := fun x => Some x;
     wg_jacobian := fun _ => Some (fun i j => if Nat.eqb i j then 1 else 0) |}.
(** lines 75-77 with referenceelementimplementation.hh:541-545 *)
Definition reg_make (dim : nat) (id : N) (r : RefElement) (ret j1 j2 : Mat) : option AffGeo :=
  obind (re_geometry id dim 0 0) (fun e => affine_from_jacobian dim dim id r (fst e) (snd e) ret j1 j2).
(** LocalDerivativeGeometry, lines 128-176: the identity with the Jacobian of a geometry *)
Definition ldg_wrapped (dim : nat) (base : AffGeo) (jac : Vec -> option Mat) : WrappedGeo :=
  {| wg_id := ag_id base; wg_ref := ag_ref base;
     wg_corner := ag_corner dim base; wg_center := ag_center dim base;
     wg_global := fun x => Some x;
     wg_jacobian := jac |}.

(** ** compareGeometries (comparegeometries.hh:21-109)

    The geometries enter through the member functions used there. *)
Record GeoI := {
  gi_affine : option bool; gi_type : GeometryType; gi_corners : nat;
  gi_corner : nat -> option Vec; gi_center : option Vec; gi_volume : option R;
  gi_global : Vec -> option Vec;
  gi_jacobian : Vec -> option Mat; gi_jacobianTransposed : Vec -> option Mat;
  gi_jacobianInverse : Vec -> option Mat; gi_jacobianInverseTransposed : Vec -> option Mat;
  gi_integrationElement : Vec -> option R }.

Section Compare.
Variables (mydim cdim : nat) (tol : R).
(** FieldMatrix::frobenius_norm (dune-common) *)
Definition frobenius_norm (m n : nat) (A : Mat) : R := sqrt (rsum m (fun i => rsum n (fun j => A i j * A i j))).
(** the tests [(a - b).two_norm() > tolerance], [(a - b).frobenius_norm() > tolerance], [abs(a - b) > tolerance] *)
Definition vec_ok (a b : option Vec) : option bool :=
  obind a (fun u => obind b (fun v => Some (negb (Rltb tol (two_norm cdim (fun k => u k - v k)))))).
Definition mat_ok (m n : nat) (a b : option Mat) : option bool :=
  obind a (fun u => obind b (fun v => Some (negb (Rltb tol (frobenius_norm m n (fun i j => u i j - v i j)))))).
Definition num_ok (a b : option R) : option bool :=
  obind a (fun u => obind b (fun v => Some (negb (Rltb tol (Rabs (u - v)))))).
(** [if (failed) return false] *)
Definition andthen (c k : option bool) : option bool := obind c (fun b => if b then k else Some false).
(** lines 55-60: corners i .. i+n-1 *)
Fixpoint cmp_corners (g h : GeoI) (n i : nat) (k : option bool) : option bool :=
  match n with
  | O => k
  | S n => andthen (vec_ok (gi_corner g i) (gi_corner h i)) (cmp_corners g h n (S i) k)
  end.
(** lines 72-105 *)
Definition cmp_point (g h : GeoI) (pos : Vec) (k : option bool) : option bool :=
  andthen (vec_ok (gi_global g pos) (gi_global h pos))
  (andthen (mat_ok cdim mydim (gi_jacobian g pos) (gi_jacobian h pos))
  (andthen (mat_ok mydim cdim (gi_jacobianTransposed g pos) (gi_jacobianTransposed h pos))
  (andthen (mat_ok mydim cdim (gi_jacobianInverse g pos) (gi_jacobianInverse h pos))
  (andthen (mat_ok cdim mydim (gi_jacobianInverseTransposed g pos) (gi_jacobianInverseTransposed h pos))
  (andthen (num_ok (gi_integrationElement g pos) (gi_integrationElement h pos)) k))))).
Fixpoint cmp_points (g h : GeoI) (q : Rule) : option bool :=
  match q with
  | [] => Some true
  | (pos, _) :: q => cmp_point g h pos (cmp_points g h q)
  end.
(** lines 38-107 for equal dimensions; [rule] is the rule of order 4 for the type of g *)
Definition compareGeometries (rule : option Rule) (g h : GeoI) : option bool :=
  obind (gi_affine g) (fun a => obind (gi_affine h) (fun b =>
  if negb (Bool.eqb a b) then Some false
  else if gt_neqb (gi_type g) (gi_type h) then Some false
  else if negb (Nat.eqb (gi_corners g) (gi_corners h)) then Some false
  else cmp_corners g h (gi_corners g) 0
    (andthen (vec_ok (gi_center g) (gi_center h))
    (andthen (num_ok (gi_volume g) (gi_volume h))
    (obind rule (cmp_points g h)))))).
End Compare.

(** ** the geometries of the library as arguments of compareGeometries *)
Section Instances.
Variables (mydim cdim : nat).
(** multilineargeometry.hh:261-421 *)
Definition gi_ml (tol : R) (jv : Vec) (jm jk j1 j2 : Mat) (g : MLGeo) : GeoI := {|
  gi_affine := option_map fst (mlg_affine mydim cdim tol jm jk g);
  gi_type := GT2 (ml_id g) mydim;
  gi_corners := mlg_cornercount mydim g; gi_corner := mlg_corner g;
  gi_center := mlg_center mydim cdim tol jv g; gi_volume := mlg_volume mydim cdim tol jm jk j1 j2 g;
  gi_global := mlg_global mydim cdim tol jv g;
  gi_jacobian := mlg_jacobian mydim cdim tol jm jk g;
  gi_jacobianTransposed := mlg_jacobianTransposed mydim cdim tol jm jk g;
  gi_jacobianInverse := mlg_jacobianInverse mydim cdim tol jm jk j1 j2 g;
  gi_jacobianInverseTransposed := fun x => option_map snd (mlg_jacobianInverseTransposed mydim cdim tol jm jk j1 j2 g x);
  gi_integrationElement := mlg_integrationElement mydim cdim tol jm jk j1 j2 g |}.
(** localfiniteelementgeometry.hh:159-356 *)
Definition gi_lf (tol : R) (junk ret j1 j2 : Mat) (rule : Z -> option Rule) (o : ConvOpts) (g : LFEGeo) : GeoI := {|
  gi_affine := option_map fst (lf_affine mydim cdim tol junk ret j1 j2 g None);
  gi_type := GT2 (lf_id g) mydim;
  gi_corners := lf_corners mydim g; gi_corner := lf_corner mydim cdim g;
  gi_center := lf_center mydim cdim g; gi_volume := lf_volume mydim cdim tol junk ret j1 j2 rule g None o;
  gi_global := lf_global cdim g;
  gi_jacobian := lf_jacobian mydim cdim g;
  gi_jacobianTransposed := lf_jacobianTransposed mydim cdim g;
  gi_jacobianInverse := lf_jacobianInverse mydim cdim ret j1 j2 g;
  gi_jacobianInverseTransposed := lf_jacobianInverseTransposed mydim cdim ret j1 j2 g;
  gi_integrationElement := lf_integrationElement mydim cdim j1 j2 g |}.
(** mappedgeometry.hh:140-313; corners() is that of the wrapped geometry *)
Definition gi_mg (gdim : nat) (ret j1 j2 : Mat) (rule : Z -> option Rule) (o : ConvOpts) (g : MappedGeo) : GeoI := {|
  gi_affine := Some (mg_affine g);
  gi_type := GT2 (wg_id (mg_geo g)) mydim;
  gi_corners := size (wg_id (mg_geo g)) mydim mydim; gi_corner := mg_corner g;
  gi_center := mg_center g; gi_volume := mg_volume mydim gdim cdim j1 j2 rule g o;
  gi_global := mg_global g;
  gi_jacobian := mg_jacobian gdim g;
  gi_jacobianTransposed := mg_jacobianTransposed gdim g;
  gi_jacobianInverse := mg_jacobianInverse mydim gdim cdim ret j1 j2 g;
  gi_jacobianInverseTransposed := mg_jacobianInverseTransposed mydim gdim cdim ret j1 j2 g;
  gi_integrationElement := mg_integrationElement mydim gdim cdim j1 j2 g |}.
(** affinegeometry.hh:131-244 *)
Definition gi_ag (g : AffGeo) : GeoI := {|
  gi_affine := Some true;
  gi_type := GT2 (ag_id g) mydim;
  gi_corners := ag_corners mydim g; gi_corner := ag_corner mydim g;
  gi_center := ag_center mydim g; gi_volume := Some (ag_volume mydim g);
  gi_global := fun x => Some (ag_global mydim g x);
  gi_jacobian := fun x => Some (ag_jacobian g x);
  gi_jacobianTransposed := fun x => Some (ag_jacobianTransposed g x);
  gi_jacobianInverse := fun x => Some (ag_jacobianInverse g x);
  gi_jacobianInverseTransposed := fun x => Some (ag_jacobianInverseTransposed g x);
  gi_integrationElement := fun x => Some (ag_integrationElement g x) |}.
(** axisalignedcubegeometry.hh:164-320; jacobian and jacobianInverse (lines 229-240) are the transposes *)
Definition gi_aac (g : AACube) : GeoI := {|
  gi_affine := Some true;
  gi_type := cube mydim;
  gi_corners := aac_corners mydim; gi_corner := fun i => Some (aac_corner mydim cdim g i);
  gi_center := Some (aac_center mydim cdim g); gi_volume := Some (aac_volume mydim cdim g);
  gi_global := fun x => Some (aac_global mydim cdim g x);
  gi_jacobian := fun x => Some (fun i j => aac_jacobianTransposed mydim cdim g j i);
  gi_jacobianTransposed := fun x => Some (aac_jacobianTransposed mydim cdim g);
  gi_jacobianInverse := fun x => Some (fun i j => aac_jacobianInverseTransposed mydim cdim g j i);
  gi_jacobianInverseTransposed := fun x => Some (aac_jacobianInverseTransposed mydim cdim g);
  gi_integrationElement := fun x => Some (aac_integrationElement mydim cdim g x) |}.
End Instances.
