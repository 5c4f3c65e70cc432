(** Property theorems C72: a reference element is a convex polytope whose face lattice is the
    one [subEntity] reports. *)
From Coq Require Import NArith PeanoNat Bool List Lia Reals Lra FunctionalExtensionality.
From Verif Require Import M_Type M_RefTopo M_RefGeo P_Type P_Type2 S_Topo P_Topo P_RefTopo P_RefTopo2 P_RefTopo3 P_RSum P_RefGeo P_RefGeo2 P_RefGeo3 S_RefGeo P_RefGeo4 S_Polytope P_Polytope P_Polytope2 P_Polytope3 P_RefVol.
Import ListNotations.
Local Open Scope R_scope.

Tactic Notation "ent" constr(OK) constr(H) ident(f) :=
  let F1 := fresh f "f" in let F2 := fresh f "c" in let F3 := fresh f "i" in
  destruct (entity_face _ _ _ OK _ _ H) as (f & F1 & F2 & F3).

(** *** Facet inequalities: the element is cut out by integrationOuterNormal *)
Theorem C72_facet_inequalities :
  forall id dim r x, (id < 2 ^ N.of_nat dim)%N -> re_infos id dim = Some r ->
    in_hull dim (referenceCorners id dim) x
    <-> (forall i, (i < size id dim 1)%nat -> (1 <= dim)%nat -> exists s, facet_slack id dim r i x s /\ s <= 0).
Proof.
  intros id dim r x Hid Hr. rewrite <- bit_pow in Hid. pose proof (re_infos_ok _ _ _ Hid Hr) as OK.
  rewrite hull_inside. split.
  - intros H i Hi Hd. rewrite size_tsize in Hi by lia.
    destruct (nth_face_ex _ _ _ Hi) as (F & _ & F1 & F2 & <-). eexists. split.
    + apply facet_slack_face; auto.
    + pose proof (nrm_support_inside _ F x 1 F1 F2 H) as Q. rewrite tdim_topo_of in Q. lra.
  - intros H. apply facets_inside. intros F F1 F2. rewrite tdim_topo_of.
    pose proof (fcod_le _ F F1) as L. rewrite tdim_topo_of, F2 in L.
    destruct (H (fidx (topo_of id dim) F)) as (s & S & Q); [|assumption|].
    { rewrite size_tsize by lia. rewrite <- F2. now apply fidx_lt. }
    apply facet_slack_face in S; auto. lra.
Qed.
Print Assumptions C72_facet_inequalities.

(** checkInside with vanishing tolerance is the same set *)
Theorem C72_checkInside_facets :
  forall id dim r x, (id < 2 ^ N.of_nat dim)%N -> (1 <= dim)%nat -> re_infos id dim = Some r ->
    (forall tol, 0 < tol -> checkInside id dim x tol 1 = true)
    <-> (forall i, (i < size id dim 1)%nat -> exists s, facet_slack id dim r i x s /\ s <= 0).
Proof.
  intros id dim r x Hid Hd Hr. transitivity (in_hull dim (referenceCorners id dim) x).
  - rewrite hull_inside. split.
    + intros H. apply acceptT_inter. intros tol Ht. now apply checkInside_spec, H.
    + intros H tol Ht. now apply checkInside_spec, insideT_accept.
  - rewrite (C72_facet_inequalities id dim r x Hid Hr). split; intros H i Hi; auto.
Qed.
Print Assumptions C72_checkInside_facets.

(** *** a corner is on the hyperplane of a facet iff it belongs to the facet *)
Theorem C72_corner_on_facet :
  forall id dim r i v x s, (id < 2 ^ N.of_nat dim)%N -> re_infos id dim = Some r ->
    entity r dim i 1 -> nth_error (referenceCorners id dim) v = Some x -> facet_slack id dim r i x s ->
    (sub_of r v dim i 1 -> s = 0) /\ (~ sub_of r v dim i 1 -> s < 0).
Proof.
  intros id dim r i v x s Hid Hr He Hx Hs. rewrite <- bit_pow in Hid. pose proof (re_infos_ok _ _ _ Hid Hr) as OK.
  ent OK He F. destruct (corner_nth _ _ _ _ Hx) as (w & W & <- & -> & _). subst i.
  apply facet_slack_face in Hs; auto.
  destruct (vertex_facet _ F w Ff Fc W) as [A B]. rewrite tdim_topo_of in A, B.
  pose proof (sub_of_le id dim r OK F w Ff (proj1 W)) as Q. rewrite Fc, (proj2 W), tdim_topo_of in Q.
  rewrite Q. split; intros H; [rewrite Hs, A by assumption; lra|]. specialize (B H). lra.
Qed.
Print Assumptions C72_corner_on_facet.

(** *** a subentity is the part of the element on the hyperplanes of the facets containing it *)
Theorem C72_subentity_supporting :
  forall id dim r i c x, (id < 2 ^ N.of_nat dim)%N -> re_infos id dim = Some r -> entity r dim i c ->
    point_of id dim r i c x
    <-> (in_hull dim (referenceCorners id dim) x
         /\ forall j, entity r dim j 1 -> sub_of r i c j 1 -> facet_slack id dim r j x 0).
Proof.
  intros id dim r i c x Hid Hr He. rewrite <- bit_pow in Hid. pose proof (re_infos_ok _ _ _ Hid Hr) as OK.
  ent OK He f. subst i c. rewrite (point_of_face id dim r OK f x ff), (face_supporting _ f x ff), hull_whole.
  split; intros [H Q]; split; auto.
  - intros j Hj S. ent OK Hj F. subst j. apply (facet_slack_face id dim r OK); auto.
    rewrite <- Fc in S. apply (sub_of_le id dim r OK) in S; auto.
    specialize (Q F Ff Fc S). rewrite tdim_topo_of in Q. lra.
  - intros F F1 F2 L. rewrite tdim_topo_of.
    pose proof (face_entity id dim r OK F F1) as E. rewrite F2 in E.
    pose proof (Q _ E) as S. rewrite <- F2 in S at 1. specialize (S (proj2 (sub_of_le id dim r OK F f F1 ff) L)).
    apply facet_slack_face in S; auto. lra.
Qed.
Print Assumptions C72_subentity_supporting.

(** *** combinatorics of subEntity *)

(** exactly two subentities between (i,c) and a (k,c+2) it contains *)
Theorem C72_diamond :
  forall id dim r i c k, (id < 2 ^ N.of_nat dim)%N -> re_infos id dim = Some r ->
    entity r dim i c -> entity r dim k (c + 2) -> sub_of r k (c + 2) i c ->
    exists a b, a <> b /\ entity r dim a (c + 1) /\ entity r dim b (c + 1)
      /\ forall j, entity r dim j (c + 1) ->
           (sub_of r k (c + 2) j (c + 1) /\ sub_of r j (c + 1) i c) <-> (j = a \/ j = b).
Proof.
  intros id dim r i c k Hid Hr He Hk S. rewrite <- bit_pow in Hid. pose proof (re_infos_ok _ _ _ Hid Hr) as OK.
  ent OK He f. ent OK Hk g. subst i k. rewrite <- gc, <- fc in S. apply (sub_of_le id dim r OK) in S; auto.
 
  destruct (diamond (topo_of id dim) f g ff gf S ltac:(lia)) as (v & w & V1 & V2 & W1 & W2 & N & Q).
  rewrite fc in V2, W2, Q. replace (c + 1)%nat with (Datatypes.S c) by lia.
  exists (fidx (topo_of id dim) v), (fidx (topo_of id dim) w). split; [|split; [|split]].
  - intros E. apply N. apply (fidx_inj (topo_of id dim)); auto. congruence.
  - rewrite <- V2. now apply face_entity.
  - rewrite <- W2. now apply face_entity.
  - intros j Hj. ent OK Hj h. subst j. rewrite <- hc, <- gc.
    rewrite (sub_of_le id dim r OK h g hf gf). rewrite <- fc, (sub_of_le id dim r OK f h ff hf).
    rewrite (Q h hf hc). split; (intros [E|E]; [left|right]).
    + now rewrite E.
    + now rewrite E.
    + apply (fidx_inj (topo_of id dim)); auto.  congruence.
    + apply (fidx_inj (topo_of id dim)); auto.  congruence.
Qed.
Print Assumptions C72_diamond.

(** a subentity of codimension 2 lies in exactly two facets *)
Theorem C72_ridge_two_facets :
  forall id dim r k, (id < 2 ^ N.of_nat dim)%N -> re_infos id dim = Some r -> entity r dim k 2 ->
    exists a b, a <> b /\ entity r dim a 1 /\ entity r dim b 1
      /\ forall j, entity r dim j 1 -> sub_of r k 2 j 1 <-> (j = a \/ j = b).
Proof.
  intros id dim r k Hid Hr Hk.
  assert (Hid' := Hid). rewrite <- bit_pow in Hid'. pose proof (re_infos_ok _ _ _ Hid' Hr) as OK.
  destruct (whole_face (topo_of id dim)) as (W1 & W2 & W3).
  assert (F0 : fidx (topo_of id dim) (whole (topo_of id dim)) = 0%nat).
  { pose proof (fidx_lt _ _ W1) as L. rewrite W2, tsize_0 in L. lia. }
  assert (A : forall j cj, entity r dim j cj -> sub_of r j cj 0 0).
  { intros j cj H. ent OK H g. subst. pose proof (sub_of_le id dim r OK _ g W1 gf) as Q. rewrite F0, W2 in Q. apply Q. now apply leF_whole. }
  assert (E0 : entity r dim 0 0) by (pose proof (face_entity id dim r OK _ W1) as Q; now rewrite F0, W2 in Q).
  destruct (C72_diamond id dim r 0 0 k Hid Hr E0 Hk (A _ _ Hk)) as (a & b & N & Ea & Eb & Q).
  exists a, b. split; [assumption|]. split; [assumption|]. split; [assumption|]. intros j Hj.
  rewrite <- (Q j Hj). split; [|tauto]. intros S. split; [assumption|]. now apply A.
Qed.
Print Assumptions C72_ridge_two_facets.

(** an edge has exactly two corners *)
Theorem C72_edge_two_corners :
  forall id dim r i, (id < 2 ^ N.of_nat dim)%N -> (1 <= dim)%nat -> re_infos id dim = Some r ->
    entity r dim i (dim - 1) ->
    exists a b, a <> b /\ forall v, entity r dim v dim -> sub_of r v dim i (dim - 1) <-> (v = a \/ v = b).
Proof.
  intros id dim r i Hid Hd Hr Hi. rewrite <- bit_pow in Hid. pose proof (re_infos_ok _ _ _ Hid Hr) as OK.
  ent OK Hi f. subst i.
  destruct (edge_vertices (topo_of id dim) f ff) as (v & w & [V1 V2] & [W1 W2] & N & Q).
  { rewrite tdim_topo_of, fc. lia. }
  exists (fidx (topo_of id dim) v), (fidx (topo_of id dim) w). split.
  - intros E. apply N. apply (fidx_inj (topo_of id dim)); auto. congruence.
  - intros u Hu. ent OK Hu h. subst u. pose proof (sub_of_le id dim r OK f h ff hf) as L. rewrite hc, fc in L. rewrite L.
    assert (Vh : vertexF (topo_of id dim) h) by (split; [assumption|]; now rewrite tdim_topo_of).
    rewrite (Q h Vh). split; (intros [E|E]; [left|right]); try congruence.
    + apply (fidx_inj (topo_of id dim)); auto. destruct Vh. congruence.
    + apply (fidx_inj (topo_of id dim)); auto. destruct Vh. congruence.
Qed.
Print Assumptions C72_edge_two_corners.

(** graded: a proper subentity is contained in a facet of (i,c) *)
Theorem C72_graded :
  forall id dim r i c k cc, (id < 2 ^ N.of_nat dim)%N -> re_infos id dim = Some r ->
    entity r dim i c -> entity r dim k cc -> (c < cc)%nat -> sub_of r k cc i c ->
    exists j, entity r dim j (c + 1) /\ sub_of r k cc j (c + 1) /\ sub_of r j (c + 1) i c.
Proof.
  intros id dim r i c k cc Hid Hr He Hk Hc S. rewrite <- bit_pow in Hid. pose proof (re_infos_ok _ _ _ Hid Hr) as OK.
  ent OK He f. ent OK Hk g. subst i k. rewrite <- fc, <- gc in S. apply (sub_of_le id dim r OK) in S; auto.
  destruct (graded _ f g ff gf S ltac:(lia)) as (h & H1 & H2 & H3 & H4).
  rewrite fc in H2. replace (c + 1)%nat with (Datatypes.S c) by lia. rewrite <- H2.
  exists (fidx (topo_of id dim) h). split; [now apply face_entity|]. rewrite <- fc, <- gc.
  split; apply (sub_of_le id dim r OK); auto.
Qed.
Print Assumptions C72_graded.

(** containment is decided by the facets *)
Theorem C72_intersection_of_facets :
  forall id dim r i c k cc, (id < 2 ^ N.of_nat dim)%N -> re_infos id dim = Some r ->
    entity r dim i c -> entity r dim k cc ->
    sub_of r k cc i c <-> (forall j, entity r dim j 1 -> sub_of r i c j 1 -> sub_of r k cc j 1).
Proof.
  intros id dim r i c k cc Hid Hr He Hk. rewrite <- bit_pow in Hid. pose proof (re_infos_ok _ _ _ Hid Hr) as OK.
  ent OK He f. ent OK Hk g. subst i c k cc. rewrite (sub_of_le id dim r OK f g ff gf). split.
  - intros L j Hj S. ent OK Hj F. subst j. rewrite <- Fc in S |- *.
    apply (sub_of_le id dim r OK) in S; auto. apply (sub_of_le id dim r OK); auto. eapply leF_trans; eauto.
  - intros H. apply (coatomic (topo_of id dim)); auto. intros F F1 F2 L.
    pose proof (face_entity id dim r OK F F1) as E. rewrite F2 in E. specialize (H _ E).
    rewrite <- F2 in H. apply (sub_of_le id dim r OK) in H; auto. apply (sub_of_le id dim r OK); auto.
Qed.
Print Assumptions C72_intersection_of_facets.

(** two subentities have no common subentity, or meet in one; the same one as point sets *)
Theorem C72_meet :
  forall id dim r i c j d, (id < 2 ^ N.of_nat dim)%N -> re_infos id dim = Some r ->
    entity r dim i c -> entity r dim j d ->
    ((forall k e, entity r dim k e -> ~ (sub_of r k e i c /\ sub_of r k e j d))
     /\ (forall x, ~ (point_of id dim r i c x /\ point_of id dim r j d x)))
    \/ (exists k e, entity r dim k e
        /\ (forall l f, entity r dim l f -> sub_of r l f k e <-> sub_of r l f i c /\ sub_of r l f j d)
        /\ (forall x, point_of id dim r k e x <-> point_of id dim r i c x /\ point_of id dim r j d x)).
Proof.
  intros id dim r i c j d Hid Hr He Hj. rewrite <- bit_pow in Hid. pose proof (re_infos_ok _ _ _ Hid Hr) as OK.
  ent OK He f. ent OK Hj g. subst i c j d. pose proof (meetF_spec _ f g ff gf) as M.
  pose proof (fun x => hull_meet _ f g x ff gf) as HM.
  destruct (meetF f g) as [m|].
  - right. destruct M as [Hm M]. exists (fidx (topo_of id dim) m), (fcod (topo_of id dim) m).
    split; [now apply face_entity|]. split.
    + intros l e Hl. ent OK Hl h. subst l e. rewrite !(sub_of_le id dim r OK); auto.
    + intros x. rewrite !(point_of_face id dim r OK) by assumption. rewrite HM. split; [eauto|].
      intros (m' & E & Q). now injection E as <-.
  - left. split.
    + intros k e Hk. ent OK Hk h. subst k e. rewrite !(sub_of_le id dim r OK); auto.
    + intros x. rewrite !(point_of_face id dim r OK) by assumption. rewrite HM. intros (m & E & _). discriminate.
Qed.
Print Assumptions C72_meet.

(** two subentities are contained in a smallest common one *)
Theorem C72_join :
  forall id dim r i c j d, (id < 2 ^ N.of_nat dim)%N -> re_infos id dim = Some r ->
    entity r dim i c -> entity r dim j d ->
    exists k e, entity r dim k e
      /\ forall l f, entity r dim l f -> sub_of r k e l f <-> sub_of r i c l f /\ sub_of r j d l f.
Proof.
  intros id dim r i c j d Hid Hr He Hj. rewrite <- bit_pow in Hid. pose proof (re_infos_ok _ _ _ Hid Hr) as OK.
  ent OK He f. ent OK Hj g. subst i c j d. destruct (joinF_spec _ f g ff gf) as [Hm M].
  exists (fidx (topo_of id dim) (joinF f g)), (fcod (topo_of id dim) (joinF f g)).
  split; [now apply face_entity|]. intros l e Hl. ent OK Hl h. subst l e. rewrite !(sub_of_le id dim r OK); auto.
Qed.
Print Assumptions C72_join.

(** every point of the element lies in a smallest subentity *)
Theorem C72_smallest_subentity :
  forall id dim r x, (id < 2 ^ N.of_nat dim)%N -> re_infos id dim = Some r ->
    in_hull dim (referenceCorners id dim) x ->
    exists i c, entity r dim i c /\ point_of id dim r i c x
      /\ forall j d, entity r dim j d -> point_of id dim r j d x <-> sub_of r i c j d.
Proof.
  intros id dim r x Hid Hr H. rewrite <- bit_pow in Hid. pose proof (re_infos_ok _ _ _ Hid Hr) as OK.
  apply hull_whole in H. destruct (smallest_face _ x H) as (f & F & P & Q).
  exists (fidx (topo_of id dim) f), (fcod (topo_of id dim) f). split; [now apply face_entity|].
  split; [now apply point_of_face|]. intros j d Hj. ent OK Hj g. subst j d.
  rewrite (point_of_face id dim r OK g x gf), (sub_of_le id dim r OK g f gf F). split; [now apply Q|].
  intros L. apply (proj2 (face_supporting _ g x gf)). apply (proj1 (face_supporting _ f x F)) in P.
  destruct P as [P1 P2]. split; [assumption|]. intros F' F1 F2 L'. apply P2; auto. eapply leF_trans; eauto.
Qed.
Print Assumptions C72_smallest_subentity.

(** containment of subentities is inclusion of point sets *)
Theorem C72_containment_is_inclusion :
  forall id dim r i c k cc, (id < 2 ^ N.of_nat dim)%N -> re_infos id dim = Some r ->
    entity r dim i c -> entity r dim k cc ->
    sub_of r k cc i c <-> (forall x, point_of id dim r k cc x -> point_of id dim r i c x).
Proof.
  intros id dim r i c k cc Hid Hr He Hk. pose proof Hid as Hid'. rewrite <- bit_pow in Hid'.
  pose proof (re_infos_ok _ _ _ Hid' Hr) as OK.
  ent OK He f. ent OK Hk g. subst i c k cc.
  rewrite (sub_of_le id dim r OK f g ff gf). split.
  - intros L x. rewrite !(point_of_face id dim r OK) by assumption.  intros P.
    apply (proj2 (face_supporting _ f x ff)). apply (proj1 (face_supporting _ g x gf)) in P.
    destruct P as [P1 P2]. split; [assumption|]. intros F' F1 F2 L'. apply P2; auto. eapply leF_trans; eauto.
  - intros H. apply (vertices_determine (topo_of id dim)); auto. intros v V L.
    specialize (H (forg (topo_of id dim) v)). rewrite !(point_of_face id dim r OK) in H by assumption. 
    set (w := fun u => if Face_eq_dec u v then 1 else 0).
    assert (SW : forall h : Face -> R, lsum (fun u => w u * h u) (verts (topo_of id dim)) = h v).
    { intros h. pose proof (proj2 (in_verts (topo_of id dim) v) V) as I. pose proof (faces_NoDup (topo_of id dim) (tdim (topo_of id dim))) as ND.
      fold (verts (topo_of id dim)) in ND. revert I ND. generalize (verts (topo_of id dim)). intros l I ND.
      induction ND as [|a l Ha ND IH]; [contradiction|]. rewrite lsum_cons. unfold w at 1.
      destruct (Face_eq_dec a v) as [->|E].
      - rewrite lsum_0; [lra|]. intros u U. unfold w. destruct (Face_eq_dec u v) as [->|]; [contradiction|lra].
      - destruct I as [->|I]; [contradiction|]. rewrite IH by assumption. lra. }
    assert (W0 : forall u, In u (verts (topo_of id dim)) -> 0 <= w u) by (intros u _; unfold w; destruct (Face_eq_dec u v); lra).
    assert (W1 : lsum w (verts (topo_of id dim)) = 1).
    { rewrite (lsum_ext _ (fun u => w u * 1)) by (intros; lra). apply (SW (fun _ => 1)). }
    assert (W2 : forall k, (k < tdim (topo_of id dim))%nat -> forg (topo_of id dim) v k = lsum (fun u => w u * forg (topo_of id dim) u k) (verts (topo_of id dim)))
      by (intros k _; symmetry; apply (SW (fun u => forg (topo_of id dim) u k))).
    assert (P : hullL (topo_of id dim) (fverts (topo_of id dim) g) (forg (topo_of id dim) v)).
    { apply (hullL_support (topo_of id dim) w g _ W0 W1 W2). intros u _ N. unfold w. destruct (Face_eq_dec u v) as [->|]; [contradiction|reflexivity]. }
    apply H in P. destruct (leF_dec f v) as [Q|Q]; [assumption|].
    pose proof (weights_on_face (topo_of id dim) w _ f ff W0 W1 W2 P v (proj2 (in_verts (topo_of id dim) v) V) Q) as Z.
    unfold w in Z. destruct (Face_eq_dec v v); [lra|contradiction].
Qed.
Print Assumptions C72_containment_is_inclusion.

(** the points of (i,c) are the image of the embedding geometry<c>(i) of its reference element *)
Theorem C72_points_are_embedding_image :
  forall id dim r i c x, (id < 2 ^ N.of_nat dim)%N -> re_infos id dim = Some r -> entity r dim i c ->
    exists e, re_geometry id dim c i = Some e
      /\ (point_of id dim r i c x
          <-> exists y, in_hull (dim - c) (referenceCorners (subTopologyId id dim c i) (dim - c)) y
                /\ forall k, (k < dim)%nat -> x k = emb_global (dim - c) e y k).
Proof.
  intros id dim r i c x Hid Hr He. rewrite <- bit_pow in Hid. pose proof (re_infos_ok _ _ _ Hid Hr) as OK.
  pose proof He as [Hc Hi]. rewrite (ok_re_size _ _ _ OK) in Hi by assumption.
  rewrite <- size_tsize in Hi by assumption.
  destruct (sub_data id dim c i Hid Hc Hi) as (f & Hf & Ec & Ei & G & U & S & TD).
  exists (fpair (topo_of id dim) f). split; [assumption|].
  transitivity (hullL (topo_of id dim) (fverts (topo_of id dim) f) x).
  { rewrite <- Ei, <- Ec. apply point_of_face; assumption. }
  rewrite (fverts_image _ f x Hf). rewrite tdim_topo_of. split; intros (y & Y1 & Y2); exists y.
  - split; [|intros k Hk; rewrite emb_global_Emb by assumption; now apply Y2].
    apply hull_whole. now rewrite U.
  - split; [apply hull_whole in Y1; now rewrite U in Y1|].
    intros k Hk. rewrite (Y2 k Hk). now rewrite emb_global_Emb.
Qed.
Print Assumptions C72_points_are_embedding_image.

(** the pyramid over a square: its edge 5 lies in the facets 2 and 3 only; the base facet 0 and
    the apex facets meet in edges; the two opposite base edges 0 and 1 do not meet *)
Example C72_example :
  let sub i c cc := obind (re_infos 3 3) (fun r => re_subEntities r i c cc) in
  (map (fun j => option_map (existsb (Nat.eqb 5)) (sub j 1 2)) [0; 1; 2; 3; 4]
   = [Some false; Some false; Some true; Some true; Some false])%nat
  /\ sub 5%nat 2%nat 3%nat = Some [1; 4]%nat
  /\ sub 0%nat 2%nat 3%nat = Some [0; 2]%nat /\ sub 1%nat 2%nat 3%nat = Some [1; 3]%nat.
Proof. vm_compute. repeat split. Qed.

(** the long edge of the triangle: corner 0 is at distance slack -1, the corners 1 and 2 on it *)
Example C72_slack_example :
  forall r, re_infos 0 2 = Some r ->
    facet_slack 0 2 r 2 (fun _ => 0) (-1)
    /\ facet_slack 0 2 r 2 (fun k => if Nat.eqb k 0 then 1 else 0) 0
    /\ ~ sub_of r 0 2 2 1 /\ sub_of r 1 2 2 1.
Proof.
  intros r Hr. vm_compute in Hr. injection Hr as <-.
  assert (P : exists p, re_position 0 2 ltac:(let t := eval vm_compute in (re_infos 0 2) in
                match t with Some ?u => exact u end) 2 1 = Some p /\ p 0%nat = / 2 /\ p 1%nat = / 2).
  { eexists. split; [reflexivity|]. split; cbn; unfold vscale, vadd, upd, vzero; cbn; lra. }
  destruct P as (p & P & P0 & P1).
  split; [|split; [|split]].
  - eexists _, p. split; [reflexivity|]. split; [exact P|]. cbn. rewrite P0, P1. unfold vscale, vadd, upd, vzero. cbn. lra.
  - eexists _, p. split; [reflexivity|]. split; [exact P|]. cbn. rewrite P0, P1. unfold vscale, vadd, upd, vzero. cbn. lra.
  - intros (l & E & I). vm_compute in E. injection E as <-. destruct I as [I|[I|[]]]; discriminate.
  - eexists. split; [vm_compute; reflexivity|]. now left.
Qed.
