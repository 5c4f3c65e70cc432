(** Vocabulary for the polytope theorems: containment of subentities, subentities as point
    sets, and the side of a facet's hyperplane a point lies on. *)
From Coq Require Import NArith List Reals.
From Verif Require Import M_RefTopo M_RefGeo S_RefGeo.
Import ListNotations.
Local Open Scope R_scope.

(** (i,c) is a subentity of the reference element *)
Definition entity (r : RefElement) (dim i c : nat) : Prop := (c <= dim /\ i < re_size r c)%nat.

(** subEntities(i,c,cc) lists k *)
Definition sub_of (r : RefElement) (k cc i c : nat) : Prop :=
  exists l, re_subEntities r i c cc = Some l /\ In k l.

(** coordinates of the corners of (i,c) *)
Definition corners_of (id : N) (dim : nat) (r : RefElement) (i c : nat) : list Vec :=
  match re_subEntities r i c dim with
  | Some vs => map (fun v => nth v (referenceCorners id dim) vzero) vs
  | None => []
  end.

(** the points of (i,c) *)
Definition point_of (id : N) (dim : nat) (r : RefElement) (i c : nat) (x : Vec) : Prop :=
  in_hull dim (corners_of id dim r i c) x.

(** (x - position(i,1)) . integrationOuterNormal(i) *)
Definition facet_slack (id : N) (dim : nat) (r : RefElement) (i : nat) (x : Vec) (s : R) : Prop :=
  exists n p, nth_error (referenceIntegrationOuterNormals id dim) i = Some n
    /\ re_position id dim r i 1 = Some p
    /\ s = Ssum dim (fun k => (x k - p k) * n k).
