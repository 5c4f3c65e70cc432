(** Model of dune/geometry/test/test-refinement.cc.

    Scalars are exact real numbers.  [tol] is the tolerance of the multilinear geometries, [tolc] that
    of checkGeometry, [toli] that of checkInside; [None] is an exception, undefined behaviour or a loop
    that does not end within [fuel] rounds. *)
From Coq Require Import PeanoNat NArith ZArith Bool List Reals.
From Verif Require Import M_Type M_RefTopo M_RefGeo M_Matrix M_Affine M_MultiLinear M_GaussNewton M_LocalFE M_CheckGeo M_Refine M_Virtual.
Import ListNotations.
Local Open Scope R_scope.

(** ** what the program uses of a refinement *)
(** a geometry with its local() *)
Definition Geo := (GeoI * (Vec -> option Vec))%type.
Record Refinement := {
  rf_E : Type; rf_eBegin : nat -> rf_E; rf_eEnd : nat -> rf_E; rf_eEquals : rf_E -> rf_E -> bool; rf_eIncrement : rf_E -> option rf_E;
  rf_eCoords : rf_E -> option Vec; rf_eGeometry : rf_E -> option Geo;
  rf_V : Type; rf_vBegin : nat -> rf_V; rf_vEnd : nat -> rf_V; rf_vEquals : rf_V -> rf_V -> bool; rf_vIncrement : rf_V -> option rf_V;
  rf_vCoords : rf_V -> option Vec; rf_vGeometry : rf_V -> option Geo }.

Section Library.
Variables (tol : R) (jv : Vec) (jm jk j1 j2 : Mat) (newton : nat) (lmax : Vec) (fuel : nat).
Definition rt_run {A} (r : Run A) : option A := match r with Ret a => Some a | _ => None end.
(** MultiLinearGeometry *)
Definition rt_ml (mydim cdim : nat) (g : MLGeo) : Geo :=
  (gi_ml mydim cdim tol jv jm jk j1 j2 g,
   fun y => match mlg_local mydim cdim tol jv jm jk j1 j2 (S newton) g y with Done (LocPt z) => Some z | Done LocMax => Some lmax | _ => None end).
(** AxisAlignedCubeGeometry *)
Definition rt_aac (mydim cdim : nat) (g : AACube) : Geo := (gi_aac mydim cdim g, fun y => Some (aac_local mydim cdim g y)).
(** the geometry of a vertex, from its corner *)
Definition rt_vertex (dim : nat) (corners : list Vec) : option Geo :=
  obind (re_infos (gt_id vertex) 0) (fun r => Some (rt_ml 0 dim {| ml_id := gt_id vertex; ml_ref := r; ml_corners := corners |})).
Definition rt_simplex (dim : nat) : Refinement := {|
  rf_E := SElem; rf_eBegin := sx_eBegin dim; rf_eEnd := sx_eEnd dim; rf_eEquals := se_equals; rf_eIncrement := fun s => rt_run (se_increment fuel dim s);
  rf_eCoords := fun s => obind (re_infos simplexId dim) (fun r => se_coords dim r s);
  rf_eGeometry := fun s => obind (re_infos simplexId dim) (fun r => obind (se_geometry dim r s) (fun g => Some (rt_ml dim dim g)));
  rf_V := SVert; rf_vBegin := sx_vBegin; rf_vEnd := sx_vEnd; rf_vEquals := sv_equals dim; rf_vIncrement := sv_increment dim;
  rf_vCoords := sv_coords dim; rf_vGeometry := fun s => rt_vertex dim (sv_geometry s) |}.
Definition rt_cube (dim : nat) : Refinement := {|
  rf_E := HIter; rf_eBegin := hc_eBegin; rf_eEnd := hc_eEnd dim; rf_eEquals := hi_equals; rf_eIncrement := fun s => Some (hi_increment s);
  rf_eCoords := fun s => Some (he_coords dim s); rf_eGeometry := fun s => Some (rt_aac dim dim (he_geometry dim s));
  rf_V := HIter; rf_vBegin := hc_vBegin; rf_vEnd := hc_vEnd dim; rf_vEquals := hi_equals; rf_vIncrement := fun s => Some (hi_increment s);
  rf_vCoords := fun s => Some (hv_coords dim s); rf_vGeometry := fun s => obind (hv_geometry dim s) (fun g => Some (rt_aac 0 dim g)) |}.
Definition rt_triang (dim : nat) (t : Triang) : Refinement := {|
  rf_E := TElem; rf_eBegin := fun n => te_make dim t n false; rf_eEnd := fun n => te_make dim t n true; rf_eEquals := te_equals;
  rf_eIncrement := fun s => rt_run (te_increment dim fuel s);
  rf_eCoords := fun s => obind (re_infos simplexId dim) (fun r => te_coords dim t r s);
  rf_eGeometry := fun s => obind (re_infos simplexId dim) (fun r => obind (te_geometry dim t r s) (fun g => Some (rt_ml dim dim g)));
  rf_V := TVert; rf_vBegin := fun n => tv_make t n false; rf_vEnd := fun n => tv_make t n true; rf_vEquals := tv_equals dim; rf_vIncrement := tv_increment dim;
  rf_vCoords := tv_coords dim t; rf_vGeometry := fun s => obind (tv_geometry dim t s) (rt_vertex dim) |}.
Definition rt_library (i : Impl) (dim : nat) : Refinement :=
  match i with
  | ISimplex => rt_simplex dim
  | IHCube => rt_cube dim
  | IHCubeTriangulation => rt_triang dim (tr_cube dim)
  | IPrismTriangulation => rt_triang dim tr_prism
  | IPyramidTriangulation => rt_triang dim tr_pyramid
  end.
End Library.

(** ** the program *)
(** lines 22-46; 77 means that nothing has been tested *)
Definition rt_pass (result : nat) : nat := if Nat.eqb result 77 then 0%nat else result.
Definition rt_fail (result : nat) : nat := 1%nat.
Definition rt_collect (result : nat) (passed : bool) : nat := if passed then rt_pass result else rt_fail result.

Section Program.
Variables (tolc toli : R) (junk : Mat) (determinant : nat -> Mat -> R) (rule : N -> nat -> option Rule) (fuel : nat).
(** for (; it != end; ++it) *)
Fixpoint rt_loop {I : Type} (fuel : nat) (equals : I -> I -> bool) (increment : I -> option I) (body : I -> nat -> option nat) (it end_ : I) (result : nat) : option nat :=
  match fuel with
  | O => None
  | S fuel =>
      if negb (equals it end_) then
        obind (body it result) (fun result => obind (increment it) (fun it => rt_loop fuel equals increment body it end_ result))
      else Some result
  end.
(** lines 51-100; [id] is the topology id of elementType *)
Definition rt_virtual (id : N) (dim : nat) (rf : Refinement) (n result : nat) : option nat :=
  obind (rt_loop fuel (rf_eEquals rf) (rf_eIncrement rf)
          (fun it result => obind (rf_eCoords rf it) (fun x => Some (if checkInside id dim x toli 1 then rt_pass result else rt_fail result)))
          (rf_eBegin rf n) (rf_eEnd rf n) result) (fun result =>
  rt_loop fuel (rf_vEquals rf) (rf_vIncrement rf)
          (fun it result => obind (rf_vCoords rf it) (fun x => Some (if checkInside id dim x toli 1 then rt_pass result else rt_fail result)))
          (rf_vBegin rf n) (rf_vEnd rf n) result).
(** the call of checkGeometry; the rule is the one of order 2 for the type of the geometry *)
Definition rt_check (mydim cdim : nat) (g : Geo) : option bool :=
  checkGeometry mydim cdim tolc junk (fst g) (snd g) (determinant mydim) (rule (gt_id (gi_type (fst g))) mydim).
(** lines 105-135 *)
Definition rt_static (dim : nat) (rf : Refinement) (n result : nat) : option nat :=
  obind (rt_loop fuel (rf_eEquals rf) (rf_eIncrement rf)
          (fun it result => obind (rf_eGeometry rf it) (fun g => obind (rt_check dim dim g) (fun b => Some (rt_collect result b))))
          (rf_eBegin rf n) (rf_eEnd rf n) result) (fun result =>
  rt_loop fuel (rf_vEquals rf) (rf_vIncrement rf)
          (fun it result => obind (rf_vGeometry rf it) (fun g => obind (rt_check 0 dim g) (fun b => Some (rt_collect result b))))
          (rf_vBegin rf n) (rf_vEnd rf n) result).

(** buildRefinement of virtualrefinement.cc and the refinements behind the template arguments *)
Variables (build : nat -> GeometryType -> GeometryType -> option Built) (refinement : Impl -> nat -> Refinement).
Definition rt_traits (topologyId coerceToId : N) (dim : nat) : option Impl :=
  find (fun i => enabled i topologyId coerceToId dim) [ISimplex; IHCube; IHCubeTriangulation; IPrismTriangulation; IPyramidTriangulation].
(** one round of a loop of main(): the four calls; refinementLevels(k) and refinementIntervals(1<<k)
    are the same number of intervals *)
Definition rt_round (dim : nat) (gt1 gt2 : GeometryType) (topologyId coerceToId : N) (k result : nat) : option nat :=
  let virtual := fun n result => obind (build dim gt1 gt2) (fun b =>
    match b with
    | BInstance i => obind (rt_traits (vr_topology i) (vr_coerce i) (vr_dim i)) (fun im => rt_virtual (gt_id gt1) dim (refinement im dim) n result)
    | BNotImplemented => None
    end) in
  let static := fun n result => obind (rt_traits topologyId coerceToId dim) (fun im => rt_static dim (refinement im dim) n result) in
  obind (virtual (2 ^ k)%nat result) (fun result =>
  obind (virtual (2 ^ k)%nat result) (fun result =>
  obind (static (2 ^ k)%nat result) (fun result =>
  static (2 ^ k)%nat result))).
Definition rt_block (dim : nat) (gt1 gt2 : GeometryType) (topologyId coerceToId : N) (result : nat) : option nat :=
  obind (rt_round dim gt1 gt2 topologyId coerceToId 0 result) (fun result =>
  obind (rt_round dim gt1 gt2 topologyId coerceToId 1 result) (fun result =>
  rt_round dim gt1 gt2 topologyId coerceToId 2 result)).
Fixpoint rt_blocks (l : list (nat * GeometryType * GeometryType * N * N)) (result : nat) : option nat :=
  match l with
  | [] => Some result
  | (dim, gt1, gt2, topologyId, coerceToId) :: l => obind (rt_block dim gt1 gt2 topologyId coerceToId result) (rt_blocks l)
  end.
(** lines 138-262: dimension, gt1, gt2, and the template arguments of the static test; the return value *)
Definition rt_list : list (nat * GeometryType * GeometryType * N * N) :=
  [(1%nat, line, line, gt_id line, gt_id line);
   (2%nat, triangle, triangle, gt_id triangle, gt_id triangle);
   (2%nat, quadrilateral, quadrilateral, gt_id quadrilateral, gt_id quadrilateral);
   (2%nat, quadrilateral, triangle, gt_id quadrilateral, gt_id triangle);
   (3%nat, tetrahedron, tetrahedron, gt_id tetrahedron, gt_id tetrahedron);
   (3%nat, pyramid, tetrahedron, gt_id pyramid, gt_id tetrahedron);
   (3%nat, prism, tetrahedron, gt_id prism, gt_id tetrahedron);
   (3%nat, hexahedron, hexahedron, gt_id hexahedron, gt_id hexahedron);
   (3%nat, hexahedron, hexahedron, gt_id hexahedron, gt_id tetrahedron)].
Definition rt_main : option nat := rt_blocks rt_list 77.
End Program.
