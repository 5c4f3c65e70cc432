(** Specification of multilinear geometries: the shape functions of a topology.

    [shape T x i] is the weight of corner i.  On a prism the weights of bottom and top are
    blended linearly in the last coordinate; on a pyramid a point is projected from the
    apex onto the base.  No tolerance occurs here. *)
From Coq Require Import PeanoNat NArith List Reals.
From Verif Require Import S_Topo S_RefGeo S_Matrix M_Type M_RefTopo M_RefGeo M_MultiLinear.
Local Open Scope R_scope.

(** number of corners *)
Fixpoint nv (T : Topo) : nat :=
  match T with Pt => 1 | Pri b => nv b + nv b | Pyr b => nv b + 1 end.

Fixpoint shape (T : Topo) (x : Vec) (i : nat) : R :=
  match T with
  | Pt => 1
  | Pri b => if Nat.ltb i (nv b) then (1 - x (tdim b)) * shape b x i
             else x (tdim b) * shape b x (i - nv b)
  | Pyr b => if Nat.ltb i (nv b) then (1 - x (tdim b)) * shape b (fun k => x k / (1 - x (tdim b))) i
             else x (tdim b)
  end.

(** points that are not within [tol] of the apex plane of one of the pyramids they are
    projected through, or exactly in it; lines are prisms over a point in the code *)
Fixpoint regular (tol : R) (T : Topo) (x : Vec) : Prop :=
  match T with
  | Pt => True
  | Pri b => regular tol b x
  | Pyr b => b = Pt \/ x (tdim b) = 1 \/
             (tol < Rabs (1 - x (tdim b)) /\ regular tol b (fun k => x k / (1 - x (tdim b))))
  end.
(** not in the apex plane either *)
Fixpoint smooth (tol : R) (T : Topo) (x : Vec) : Prop :=
  match T with
  | Pt => True
  | Pri b => smooth tol b x
  | Pyr b => b = Pt \/ (tol < Rabs (1 - x (tdim b)) /\ smooth tol b (fun k => x k / (1 - x (tdim b))))
  end.

(** a geometry as the constructors leave it: a topology id of the right dimension, the
    reference element belonging to it, one corner per vertex *)
Definition ml_wf (mydim : nat) (g : MLGeo) : Prop :=
  (ml_id g < bit mydim)%N /\
  re_infos (ml_id g) mydim = Some (ml_ref g) /\
  length (ml_corners g) = size (ml_id g) mydim mydim.
Definition inside_ref (mydim : nat) (g : MLGeo) (x : Vec) : Prop :=
  in_hull mydim (referenceCorners (ml_id g) mydim) x.

(** the corners are the images of the reference corners under an affine map *)
Definition corners_affine (mydim cdim : nat) (g : MLGeo) (o : Vec) (M : Mat) : Prop :=
  forall i c p, nth_error (ml_corners g) i = Some c -> nth_error (referenceCorners (ml_id g) mydim) i = Some p ->
    forall k, (k < cdim)%nat -> c k = o k + rsum mydim (fun j => M j k * p j).

(** equality of replies up to coordinates that do not exist *)
Definition reply_eq (mydim cdim : nat) (a b : Reply) : Prop :=
  match a, b with
  | RVec u, RVec v => veq cdim u v
  | RLoc LocMax, RLoc LocMax => True
  | RLoc (LocPt u), RLoc (LocPt v) => veq mydim u v
  | RNum r, RNum s => r = s
  | RMat m, RMat n => meq mydim cdim m n
  | RDetMat r m, RDetMat s n => r = s /\ meq cdim mydim m n
  | RBool r, RBool s => r = s
  | _, _ => False
  end.

(** the points the calls evaluate at are away from the apexes, or in the reference element
    and not closer to an apex than the tolerance without being it *)
Definition call_regular (mydim : nat) (tol : R) (g : MLGeo) (q : Call) : Prop :=
  match q with
  | CGlobal x | CIntEl x | CJT x | CJIT x =>
      smooth tol (topo_of (ml_id g) mydim) x \/ (regular tol (topo_of (ml_id g) mydim) x /\ inside_ref mydim g x)
  | _ => True
  end.
