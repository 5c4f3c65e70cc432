(** Vocabulary for quadrature on elements. *)
From Coq Require Import NArith ZArith PeanoNat List Reals.
From Verif Require Import M_Type M_TypeIndex M_RefGeo M_QuadFactory M_Quadrature M_Matrix M_MultiLinear S_Topo S_Quad S_QuadND S_MultiLinear S_RefGeo S_Normal.
Import ListNotations.
Local Open Scope R_scope.

(** [x] is a rule that the library returns for the type of a geometry with topology id [id] and
    dimension [dim], without a weight function, of order [deg] at least; its one dimensional
    tables are accurate to [e]. *)
Definition plain_rule (lapack : Z -> nat -> option (list (R * R))) (e : R) (id : N) (dim deg : nat) (r : Req) (x : Rule) : Prop :=
  valid r /\ rq_dim r = dim /\ rq_t r = GT2 id dim /\ weightExp (rq_qt r) = 0%nat /\
  tableErr (rq_p r) (rq_qt r) <= e /\ quadRule lapack r = Some x /\ (Z.of_nat deg <= ru_order x)%Z.

(** The points computed with LAPACK stay below 1 by more than [tol] (a build without LAPACK
    computes none). *)
Definition lapackBelow (tol : R) (lapack : Z -> nat -> option (list (R * R))) : Prop :=
  forall p alpha data x w, lapack p alpha = Some data -> In (x, w) data -> x < 1 - tol.

(** Not one of the rules of order 3 that contain the vertices of a tetrahedron. *)
Definition no_vertices (r : Req) : Prop := rq_p r <> 3%Z \/ (rq_qt r <> 0 /\ rq_qt r <> 3)%nat \/ (rq_dim r < 3)%nat.
(** Not one of the rules of order 11 with points within 1e-33 of an edge of a triangle. *)
Definition no_edges (r : Req) : Prop := rq_p r <> 11%Z \/ (rq_qt r <> 0 /\ rq_qt r <> 3)%nat \/ (rq_dim r < 2)%nat.
(** Not Gauss-Lobatto and not the right Gauss-Radau rule, whose last point is 1. *)
Definition no_end_point (r : Req) : Prop := (rq_qt r <> 4 /\ rq_qt r <> 6)%nat.

(** Every pyramid of the construction stands on a simplex: all types but those that contain
    a pyramid over a quadrilateral, a prism, ...  [pdeg] is the degree of the multilinear map. *)
Fixpoint simp (T : Topo) : Prop := match T with Pt => True | Pri b => b = Pt | Pyr b => simp b end.
Fixpoint polyT (T : Topo) : Prop := match T with Pt => True | Pri b => polyT b | Pyr b => simp b end.
Fixpoint pdeg (T : Topo) : nat := match T with Pt => 0 | Pri b => S (pdeg b) | Pyr _ => 1 end%nat.

(** All coordinates of all corners are at most [R0] in absolute value. *)
Definition in_box (cdim : nat) (R0 : R) (g : MLGeo) : Prop :=
  forall c k, In c (ml_corners g) -> (k < cdim)%nat -> Rabs (c k) <= R0.

(** Degrees and sizes of the integrands of the divergence theorem, for a field of degree [p] with
    coefficients of absolute sum [A] and maps of degree [m] with coefficients of absolute sum [B]. *)
Definition elt_degree (n p m : nat) : nat := ((p - 1) * m + n * (m - 1))%nat.
Definition facet_degree (n p m : nat) : nat := (p * m + (n - 1) * (m - 1))%nat.
Definition elt_size (n p : nat) (A B : R) : R := INR n * (INR p * A * B ^ (p - 1)) * (INR (fact n) * B ^ n).
Definition facet_size (n p m : nat) (A B : R) : R := INR n * (INR (fact n) * (A * B ^ p * B ^ (n - 1))) * INR n ^ facet_degree n p m.

(** The map of the geometry is a polynomial of degree [m]. *)
Definition poly_element (n : nat) (g : MLGeo) (m : nat) : Prop :=
  (polyT (topo_of (ml_id g) n) /\ m = pdeg (topo_of (ml_id g) n)) \/ (m = 1%nat /\ exists o M, corners_affine n n g o M).
(** A field of polynomials in [n] variables of degree [p] with coefficients of absolute sum [A]. *)
Definition field (n p : nat) (A : R) (Phi : nat -> MPoly) : Prop := forall k, (k < n)%nat -> pdegree_le n (Phi k) p /\ pnorm (Phi k) <= A.

(** The terms of the sums a program forms at the points of a rule: over the element the
    divergence of a field at global() times integrationElement() ... *)
Definition elt_sum (n : nat) (tol : R) (jv : Vec) (jm jk j1 j2 : Mat) (g : MLGeo) (dPhi : nat -> Vec -> R) (F : Vec -> R) (x : Rule) : Prop :=
  forall q, In q (ru_points x) -> exists u D,
    mlg_global n n tol jv g (fst q) = Some u /\ mlg_integrationElement n n tol jm jk j1 j2 g (fst q) = Some D /\
    F (fst q) = Ssum n (fun k => dPhi k u) * D.
(** ... and over facet [i], with geometry [g'] and embedding [e], the field along the mapped
    integration outer normal times the integration element of the facet. *)
Definition facet_sum (n : nat) (tol : R) (jv' : Vec) (jm jk j1 j2 jm' jk' j1' j2' : Mat) (g g' : MLGeo) (e : Vec * Mat) (i : nat) (Phi : nat -> MPoly) (Fs : Vec -> R) (x : Rule) : Prop :=
  forall q, In q (ru_points x) -> exists u nu D,
    mlg_global (n - 1) n tol jv' g' (fst q) = Some u /\
    mapped_normal n n tol jm jk j1 j2 g i (emb_global (n - 1) e (fst q)) nu /\
    mlg_integrationElement (n - 1) n tol jm' jk' j1' j2' g' (fst q) = Some D /\
    Fs (fst q) = Ssum n (fun k => peval n (Phi k) u * (nu k / vlen n nu)) * D.
