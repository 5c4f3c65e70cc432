(** Vocabulary for comparing geometry classes: two geometries, seen through their member
    functions, are defined at the same places and give the same values. *)
From Coq Require Import PeanoNat NArith ZArith List Reals.
From Verif Require Import M_Type M_RefTopo M_RefGeo M_Matrix M_Affine M_MultiLinear M_GaussNewton M_LocalFE S_Topo S_RefGeo S_Matrix S_MultiLinear P_AACube.
Local Open Scope R_scope.

Definition both {A} (E : A -> A -> Prop) (a b : option A) : Prop := exists u v, a = Some u /\ b = Some v /\ E u v.

(** at one point *)
Definition agree_at (mydim cdim : nat) (g h : GeoI) (x : Vec) : Prop :=
  both (veq cdim) (gi_global g x) (gi_global h x) /\
  both (meq cdim mydim) (gi_jacobian g x) (gi_jacobian h x) /\
  both (meq mydim cdim) (gi_jacobianTransposed g x) (gi_jacobianTransposed h x) /\
  both (meq mydim cdim) (gi_jacobianInverse g x) (gi_jacobianInverse h x) /\
  both (meq cdim mydim) (gi_jacobianInverseTransposed g x) (gi_jacobianInverseTransposed h x) /\
  both eq (gi_integrationElement g x) (gi_integrationElement h x).
(** type, corners and centre *)
Definition agree_corners (cdim : nat) (g h : GeoI) : Prop :=
  gt_eqb (gi_type g) (gi_type h) = true /\ gi_corners g = gi_corners h /\
  (forall i, (i < gi_corners g)%nat -> both (veq cdim) (gi_corner g i) (gi_corner h i)) /\
  both (veq cdim) (gi_center g) (gi_center h).

(** points at which a multilinear map of type id is evaluated without being thrown off by the
    tolerance around the apexes *)
Definition usable (tol : R) (id : N) (mydim : nat) (x : Vec) : Prop :=
  smooth tol (topo_of id mydim) x \/
  (regular tol (topo_of id mydim) x /\ in_hull mydim (referenceCorners id mydim) x).

(** the element of order one belonging to a simplex or a cube *)
Definition lagrange (id : N) (mydim : nat) (fe : LFE) : Prop :=
  (isSimplex (GT2 id mydim) = true /\ fe = P1 mydim) \/ (isCube (GT2 id mydim) = true /\ fe = Q1 mydim).

(** within the tolerance *)
Definition vnear (n : nat) (tol : R) : Vec -> Vec -> Prop := fun u v => two_norm n (fun k => u k - v k) <= tol.
Definition mnear (m n : nat) (tol : R) : Mat -> Mat -> Prop := fun u v => frobenius_norm m n (fun i j => u i j - v i j) <= tol.
Definition near_at (mydim cdim : nat) (tol : R) (g h : GeoI) (x : Vec) : Prop :=
  both (vnear cdim tol) (gi_global g x) (gi_global h x) /\
  both (mnear cdim mydim tol) (gi_jacobian g x) (gi_jacobian h x) /\
  both (mnear mydim cdim tol) (gi_jacobianTransposed g x) (gi_jacobianTransposed h x) /\
  both (mnear mydim cdim tol) (gi_jacobianInverse g x) (gi_jacobianInverse h x) /\
  both (mnear cdim mydim tol) (gi_jacobianInverseTransposed g x) (gi_jacobianInverseTransposed h x) /\
  both (fun a b => Rabs (a - b) <= tol) (gi_integrationElement g x) (gi_integrationElement h x).

(** the ways of representing the affine map x -> o + M^T x on the reference element [id]:
    - AffineGeometry from origin and transposed Jacobian,
    - MultiLinearGeometry with the images of the reference corners,
    - LocalFiniteElementGeometry with the same vertices, for simplices and cubes,
    - MappedGeometry of the map over the reference element geometry,
    - AxisAlignedCubeGeometry when the map is a scaling of the axes.
    The weights of the rule of order one add up to the reference volume. *)
Definition first_rule (id : N) (mydim : nat) (rule : Z -> option Rule) : Prop :=
  exists q, rule 1%Z = Some q /\ fold_right (fun pw acc => snd pw + acc) 0 q = referenceVolume id mydim.
Inductive affine_instance (mydim cdim : nat) (tol : R) (id : N) (r : RefElement) (o : Vec) (M : Mat) : GeoI -> Prop :=
| AI_affine : forall ret j1 j2 a, affine_from_jacobian mydim cdim id r o M ret j1 j2 = Some a ->
    affine_instance mydim cdim tol id r o M (gi_ag mydim a)
| AI_multilinear : forall jv jm jk j1 j2 g, ml_wf mydim g -> ml_id g = id -> corners_affine mydim cdim g o M ->
    affine_instance mydim cdim tol id r o M (gi_ml mydim cdim tol jv jm jk j1 j2 g)
| AI_lfe : forall tolf junk ret j1 j2 rule opts h g, lf_id h = id -> lf_ref h = r -> lagrange id mydim (lf_fe h) -> 0 <= tolf ->
    ml_wf mydim g -> ml_id g = id -> corners_affine mydim cdim g o M -> lf_vertices h = ml_corners g -> first_rule id mydim rule ->
    affine_instance mydim cdim tol id r o M (gi_lf mydim cdim tolf junk ret j1 j2 rule opts h)
| AI_mapped : forall ret j1 j2 ret' j1' j2' rule opts base g, reg_make mydim id r ret' j1' j2' = Some base -> mg_geo g = reg_wrapped mydim base ->
    mg_affine g = true -> (forall x, veq cdim (mg_map g x) (fun k => o k + mvec mydim (mtr M) x k)) ->
    (forall x, meq cdim mydim (mg_dmap g x) (mtr M)) -> first_rule id mydim rule ->
    affine_instance mydim cdim tol id r o M (gi_mg mydim cdim mydim ret j1 j2 rule opts g)
| AI_cube : forall g, isCube (GT2 id mydim) = true -> aac_wf mydim cdim g ->
    (forall i, (i < cdim)%nat -> ac_axes g i = true -> ac_lower g i < ac_upper g i) ->
    veq cdim o (ac_lower g) -> meq mydim cdim M (aac_jacobianTransposed mydim cdim g) ->
    affine_instance mydim cdim tol id r o M (gi_aac mydim cdim g).
