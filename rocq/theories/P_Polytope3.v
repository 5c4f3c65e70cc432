(** From faces to the reference element API. *)
From Coq Require Import NArith PeanoNat Bool List Lia Reals Lra Permutation FunctionalExtensionality.
From Verif Require Import M_Type M_RefTopo M_RefGeo P_Type P_Type2 S_Topo P_Topo P_RefTopo P_RefTopo2 P_RefTopo3 P_RSum P_RefGeo P_RefGeo2 P_RefGeo3 S_RefGeo P_RefGeo4 P_Polytope P_Polytope2 S_Polytope.
Import ListNotations.
Local Open Scope R_scope.

Section API.
Context (id : N) (dim : nat) (r : RefElement) (OK : re_ok id dim r).
Notation T := (topo_of id dim).

Lemma entity_face i c : entity r dim i c ->
  exists f, is_face T f /\ fcod T f = c /\ fidx T f = i.
Proof.
  intros [A B]. destruct (re_face id dim r i c OK A B) as (f & F1 & F2 & F3 & _). eauto.
Qed.

Lemma face_entity f : is_face T f -> entity r dim (fidx T f) (fcod T f).
Proof.
  intros F. pose proof (fcod_le T f F) as L. rewrite tdim_topo_of in L. split; [assumption|].
  rewrite (ok_re_size _ _ _ OK) by assumption. now apply fidx_lt.
Qed.

Lemma sub_of_le f g : is_face T f -> is_face T g ->
  sub_of r (fidx T g) (fcod T g) (fidx T f) (fcod T f) <-> leF g f.
Proof.
  intros F G. pose proof (fcod_le T g G) as L. rewrite tdim_topo_of in L.
  unfold sub_of. rewrite (re_subEntities_face id dim T r f _ OK eq_refl F L).
  rewrite <- (in_want T f g F G). split; [intros (l & E & I); now injection E as <-|eauto].
Qed.

Lemma corners_of_face f : is_face T f ->
  corners_of id dim r (fidx T f) (fcod T f) = map (forg T) (map (emb f) (verts (ftype T f))).
Proof.
  intros F. unfold corners_of. rewrite (re_subEntities_face id dim T r f dim OK eq_refl F) by lia.
  pose proof (want_vertices T f F) as W. rewrite tdim_topo_of in W. rewrite W, !map_map. apply map_ext_in.
  intros g G. apply in_verts in G. pose proof (emb_vertex T f g F G) as V.
  apply nth_error_nth. now apply nth_error_corner.
Qed.

Lemma point_of_face f x : is_face T f ->
  point_of id dim r (fidx T f) (fcod T f) x <-> hullL T (fverts T f) x.
Proof.
  intros F. unfold point_of. rewrite corners_of_face by assumption.
  pose proof (fverts_perm T f F) as P.
  assert (ND : NoDup (map (emb f) (verts (ftype T f)))).
  { apply (Permutation_NoDup (Permutation_sym P)). apply NoDup_filter, faces_NoDup. }
  pose proof (in_hull_hullL T _ x ND) as E. rewrite tdim_topo_of in E. rewrite E. split.
  - now apply hullL_perm.
  - apply hullL_perm. now apply Permutation_sym.
Qed.

Lemma facet_slack_face F x s : is_face T F -> fcod T F = 1%nat ->
  facet_slack id dim r (fidx T F) x s <-> s = dot dim (nrm T F) x - hgt T F.
Proof.
  intros F1 F2. pose proof (fcod_le T F F1) as L. rewrite tdim_topo_of, F2 in L.
  destruct (re_position_spec id dim r F OK F1) as (p & P & PV). rewrite F2 in P.
  assert (N : nth_error (referenceIntegrationOuterNormals id dim) (fidx T F) = Some (nrm T F)).
  { rewrite referenceIntegrationOuterNormals_spec by assumption. rewrite nth_error_map.
    pose proof (fidx_nth T F F1) as E. rewrite F2 in E. now rewrite E. }
  assert (V : Ssum dim (fun k => (x k - p k) * nrm T F k) = dot dim (nrm T F) x - hgt T F).
  { rewrite Ssum_rsum. rewrite (rsum_ext _ _ (fun k => nrm T F k * x k - nrm T F k * p k)) by (intros; lra).
    rewrite rsum_minus. unfold dot at 1. f_equal.
    pose proof (nrm_face T F (meanT (ftype T F)) F1 F2) as E. rewrite tdim_topo_of in E. rewrite <- E.
    unfold dot. apply rsum_ext. intros k _. now rewrite PV. }
  unfold facet_slack. split.
  - intros (n & p' & E1 & E2 & ->). rewrite N in E1. rewrite P in E2. injection E1 as <-. injection E2 as <-. exact V.
  - intros ->. exists (nrm T F), p. auto.
Qed.

Lemma hull_whole x : in_hull dim (referenceCorners id dim) x <-> hullT T x 1.
Proof. rewrite corners_verts. rewrite <- (tdim_topo_of id dim) at 1. apply in_hull_hullT. Qed.

Lemma hull_inside x : in_hull dim (referenceCorners id dim) x <-> insideT T x 1.
Proof. rewrite corners_verts. rewrite <- (tdim_topo_of id dim) at 1. apply in_hull_insideT. Qed.

End API.
