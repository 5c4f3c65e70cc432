(** What checkGeometry demands of a geometry, and the affine geometries together with their
    local(). *)
From Coq Require Import PeanoNat NArith ZArith Bool List Reals.
From Verif Require Import M_Type M_RefTopo M_RefGeo M_Matrix M_Affine M_MultiLinear M_GaussNewton M_LocalFE S_Topo S_RefGeo S_Matrix S_MultiLinear P_Det P_AACube S_Agree.
Import ListNotations.
Local Open Scope R_scope.

Section Demands.
Variables (mydim cdim : nat) (tol : R) (g : GeoI) (local : Vec -> option Vec).
Definition vdist (n : nat) (u v : Vec) : R := two_norm n (fun k => u k - v k).

(** at a quadrature point *)
Definition point_passes (id : N) (x : Vec) : Prop :=
  exists y z Jt Jit J Ji ie,
    gi_global g x = Some y /\ local y = Some z /\ vdist mydim x z <= tol /\
    gi_jacobianTransposed g x = Some Jt /\ gi_jacobianInverseTransposed g x = Some Jit /\ gi_jacobian g x = Some J /\ gi_jacobianInverse g x = Some Ji /\
    (forall i j, (i < mydim)%nat -> (j < mydim)%nat -> Rabs (mmul cdim Jt Jit i j - mone i j) < tol) /\
    (forall i j, (i < mydim)%nat -> (j < mydim)%nat -> Rabs (mmul cdim Ji J i j - mone i j) < tol) /\
    meq mydim cdim Jt (mtr J) /\ meq cdim mydim Jit (mtr Ji) /\
    gi_integrationElement g x = Some ie /\ 0 <= ie /\ Rabs (sqrt (detR mydim (mmul cdim Jt (mtr Jt))) - ie) <= tol /\
    exists a, gi_affine g = Some a /\
      (a = true -> exists vol, gi_volume g = Some vol /\ Rabs (vol - referenceVolume id mydim * ie) <= tol).

(** the whole check *)
Definition passes (rule : option Rule) : Prop :=
  let n := gi_corners g in
  exists (c : nat -> Vec) (m : Vec) (vol : R),
    (0 < n)%nat /\ (forall i, (i < n)%nat -> gi_corner g i = Some (c i)) /\ gi_center g = Some m /\
    (forall avg : Vec, (forall k, (k < cdim)%nat -> avg k = rsum n (fun i => c i k) / INR n) ->
       ((1 < n)%nat -> forall i, (i < n)%nat -> tol < vdist cdim (c i) m /\ tol < vdist cdim (c i) avg) /\
       (n = 1%nat -> vdist cdim m avg <= tol)) /\
    gi_volume g = Some vol /\ tol <= vol /\
    (gt_none (gi_type g) = true \/
     let id := gt_id (gi_type g) in
     exists r p y, re_infos id mydim = Some r /\ re_position id mydim r 0 0 = Some p /\ gi_global g p = Some y /\ vdist cdim m y <= tol /\
       size id mydim mydim = n /\
       (forall i, (i < n)%nat -> exists q z, re_position id mydim r i mydim = Some q /\ gi_global g q = Some z /\ vdist cdim (c i) z <= tol) /\
       exists q, rule = Some q /\ forall x w, In (x, w) q -> point_passes id x).
End Demands.

(** The geometries of [affine_instance] with their local().  For the two classes that solve with
    gaussNewton [centred] is true. *)
Definition loc_value (lmax : Vec) (r : Outcome LocResult) : option Vec :=
  match r with Done (LocPt z) => Some z | Done LocMax => Some lmax | _ => None end.
Definition gn_usable (o : GNOpts) : Prop := (0 < gn_maxIt o)%Z /\ (0 < gn_maxInnerIt o)%Z /\ 0 < gn_absTol o.
Inductive checked_instance (mydim cdim : nat) (tol : R) (id : N) (r : RefElement) (o : Vec) (M : Mat) : bool -> GeoI -> (Vec -> option Vec) -> Prop :=
| CI_affine : forall ret j1 j2 a, affine_from_jacobian mydim cdim id r o M ret j1 j2 = Some a ->
    checked_instance mydim cdim tol id r o M false (gi_ag mydim a) (fun y => Some (ag_local cdim a y))
| CI_multilinear : forall jv jm jk j1 j2 fuel lmax g, ml_wf mydim g -> ml_id g = id -> corners_affine mydim cdim g o M ->
    checked_instance mydim cdim tol id r o M false (gi_ml mydim cdim tol jv jm jk j1 j2 g)
      (fun y => loc_value lmax (mlg_local mydim cdim tol jv jm jk j1 j2 (S fuel) g y))
| CI_lfe : forall tolf junk ret j1 j2 rule opts gn h g, lf_id h = id -> lf_ref h = r -> lagrange id mydim (lf_fe h) -> 0 <= tolf -> gn_usable gn ->
    ml_wf mydim g -> ml_id g = id -> corners_affine mydim cdim g o M -> lf_vertices h = ml_corners g -> first_rule id mydim rule ->
    checked_instance mydim cdim tol id r o M true (gi_lf mydim cdim tolf junk ret j1 j2 rule opts h)
      (fun y => obind (lf_local mydim cdim j1 j2 h y gn) (fun z => z))
| CI_mapped : forall ret j1 j2 ret' j1' j2' rule opts gn base g, reg_make mydim id r ret' j1' j2' = Some base -> mg_geo g = reg_wrapped mydim base ->
    mg_affine g = true -> (forall x, veq cdim (mg_map g x) (fun k => o k + mvec mydim (mtr M) x k)) ->
    (forall x, meq cdim mydim (mg_dmap g x) (mtr M)) -> first_rule id mydim rule -> gn_usable gn ->
    checked_instance mydim cdim tol id r o M true (gi_mg mydim cdim mydim ret j1 j2 rule opts g)
      (fun y => obind (mg_local mydim mydim cdim j1 j2 g y gn) (fun z => z))
| CI_cube : forall g, id = gt_id (cube mydim) -> isCube (GT2 id mydim) = true -> aac_wf mydim cdim g ->
    (forall i, (i < cdim)%nat -> ac_axes g i = true -> ac_lower g i < ac_upper g i) ->
    veq cdim o (ac_lower g) -> meq mydim cdim M (aac_jacobianTransposed mydim cdim g) ->
    checked_instance mydim cdim tol id r o M false (gi_aac mydim cdim g) (fun y => Some (aac_local mydim cdim g y)).
