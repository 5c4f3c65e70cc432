(** Property theorems C16 - C23: geometry of the reference elements. *)
From Coq Require Import NArith ZArith PeanoNat Bool List Lia Reals Lra FunctionalExtensionality Factorial.
From Verif Require Import M_Type M_RefTopo M_RefGeo P_Type P_Type2 S_Topo P_Topo P_RefTopo P_RefTopo2 P_RefTopo3 P_RSum P_RefGeo P_RefGeo2 P_RefGeo3 S_RefGeo P_RefVol P_Det P_RefDet P_RefGeo4.
Import ListNotations.
Local Open Scope R_scope.

(** ** C16 reference corners *)

Theorem C16_corner_count :
  forall id dim, length (referenceCorners id dim) = size id dim dim.
Proof. intros id dim. rewrite corners_length, size_tsize by lia. unfold verts. now rewrite tdim_topo_of. Qed.
Print Assumptions C16_corner_count.

Theorem C16_corner_coordinates :
  forall id dim i x, nth_error (referenceCorners id dim) i = Some x ->
    forall k, (x k = 0 \/ x k = 1) /\ ((dim <= k)%nat -> x k = 0).
Proof.
  intros id dim i x H k. destruct (corner_nth _ _ _ _ H) as (v & V & _ & -> & _).
  split; [now apply vertex_01|]. intros Hk. apply forg_support. now rewrite tdim_topo_of.
Qed.
Print Assumptions C16_corner_coordinates.

Theorem C16_corners_distinct :
  forall id dim i j x y,
    nth_error (referenceCorners id dim) i = Some x -> nth_error (referenceCorners id dim) j = Some y ->
    (forall k, (k < dim)%nat -> x k = y k) -> i = j.
Proof.
  intros id dim i j x y Hx Hy E.
  destruct (corner_nth _ _ _ _ Hx) as (v & V & <- & -> & _).
  destruct (corner_nth _ _ _ _ Hy) as (w & W & <- & -> & _).
  f_equal. apply (vertex_distinct (topo_of id dim)); auto. now rewrite tdim_topo_of.
Qed.
Print Assumptions C16_corners_distinct.

Theorem C16_corner_zero_is_origin :
  forall id dim, exists x, nth_error (referenceCorners id dim) 0 = Some x /\ forall k, x k = 0.
Proof.
  intros id dim. destruct (corner0 (topo_of id dim)) as (v & l & E & O).
  exists (forg (topo_of id dim) v). rewrite corners_verts, E. cbn [map nth_error]. rewrite O. split; reflexivity.
Qed.
Print Assumptions C16_corner_zero_is_origin.

Theorem C16_cube_corners :
  forall id dim i x, (id < 2 ^ N.of_nat dim)%N -> (dim < 256)%nat -> isCube (GT2 id dim) = true ->
    nth_error (referenceCorners id dim) i = Some x ->
    forall k, x k = if Nat.testbit i k then 1 else 0.
Proof.
  intros id dim i x Hid Hd Hc H k. rewrite <- bit_pow in Hid.
  destruct (corner_nth _ _ _ _ H) as (v & V & _ & -> & Ev & L). apply isCube_cubT in Hc; auto.
  subst v. apply cubT_corner; auto. now rewrite <- cubT_verts_length.
Qed.
Print Assumptions C16_cube_corners.

Theorem C16_simplex_corners :
  forall id dim i x, (id < 2 ^ N.of_nat dim)%N -> isSimplex (GT2 id dim) = true ->
    nth_error (referenceCorners id dim) i = Some x ->
    forall k, x k = if Nat.eqb i (S k) then 1 else 0.
Proof.
  intros id dim i x Hid Hc H k. rewrite <- bit_pow in Hid.
  destruct (corner_nth _ _ _ _ H) as (v & V & _ & -> & Ev & L). apply isSimplex_simT in Hc; auto.
  subst v. apply simT_corner; auto. rewrite (simT_verts_length _ Hc) in L. lia.
Qed.
Print Assumptions C16_simplex_corners.

Lemma corner_hull id dim i x : nth_error (referenceCorners id dim) i = Some x ->
  in_hull dim (referenceCorners id dim) x.
Proof.
  intros H. assert (L : (i < length (referenceCorners id dim))%nat) by (apply nth_error_Some; congruence).
  exists (fun j => if Nat.eqb j i then 1 else 0). split; [|split].
  - intros j _. destruct (Nat.eqb_spec j i); lra.
  - rewrite Ssum_rsum. now apply (rsum_delta _ i (fun _ => 1)).
  - intros k _. rewrite Ssum_rsum.
    rewrite (rsum_ext _ _ (fun j => if Nat.eqb j i then nth j (referenceCorners id dim) (fun _ => 0) k else 0)).
    + rewrite (rsum_delta _ i (fun j => nth j (referenceCorners id dim) (fun _ => 0) k)) by assumption.
      now rewrite (nth_error_nth _ _ _ H).
    + intros j _. destruct (Nat.eqb_spec j i); [apply Rmult_1_l|apply Rmult_0_l].
Qed.

Theorem C16_corners_inside :
  forall id dim i x tol, 0 < tol -> nth_error (referenceCorners id dim) i = Some x ->
    checkInside id dim x tol 1 = true.
Proof.
  intros id dim i x tol Ht H. apply checkInside_spec, insideT_accept; [assumption|].
  apply in_hull_insideT. rewrite tdim_topo_of, <- corners_verts. now apply corner_hull in H.
Qed.
Print Assumptions C16_corners_inside.

(** the pyramid over a square: apex (0,0,1) *)
Example C16_example :
  length (referenceCorners 3 3) = 5%nat
  /\ (exists x, nth_error (referenceCorners 3 3) 4 = Some x /\ x 0%nat = 0 /\ x 1%nat = 0 /\ x 2%nat = 1)
  /\ (exists x, nth_error (referenceCorners 3 3) 3 = Some x /\ x 0%nat = 1 /\ x 1%nat = 1 /\ x 2%nat = 0).
Proof. repeat split; (eexists; split; [reflexivity|]; repeat split; reflexivity). Qed.

(** ** C17 embeddings *)

Theorem C17_embedding_corners :
  forall id dim r i c k x, (id < 2 ^ N.of_nat dim)%N -> re_infos id dim = Some r ->
    (c <= dim)%nat -> (i < size id dim c)%nat ->
    nth_error (referenceCorners (subTopologyId id dim c i) (dim - c)) k = Some x ->
    exists e v y, re_geometry id dim c i = Some e
      /\ re_subEntity r i c k dim = Some v
      /\ nth_error (referenceCorners id dim) v = Some y
      /\ forall j, emb_global (dim - c) e x j = y j.
Proof.
  intros id dim r i c k x Hid Hr Hc Hi Hx. rewrite <- bit_pow in Hid.
  pose proof (re_infos_ok _ _ _ Hid Hr) as OK.
  destruct (sub_data id dim c i Hid Hc Hi) as (f & Hf & Ec & Ei & G & U & _ & TD).
  destruct (corner_nth _ _ _ _ Hx) as (g & Vg & Eg & -> & Ng & L). rewrite U in *.
  exists (fpair (topo_of id dim) f), (fidx (topo_of id dim) (emb f g)), (forg (topo_of id dim) (emb f g)).
  pose proof (emb_vertex _ f g Hf Vg) as VV.
  split; [assumption|]. split; [|split].
  - assert (W : want (topo_of id dim) f dim
                = map (fun g => fidx (topo_of id dim) (emb f g)) (verts (ftype (topo_of id dim) f))).
    { rewrite <- want_vertices by assumption. now rewrite tdim_topo_of. }
    rewrite <- Ei, <- Ec. rewrite (re_subEntity_want id dim _ r f k dim OK eq_refl Hf) by
      (try lia; rewrite W, map_length; exact L).
    rewrite W. apply (map_nth_error (fun g => fidx (topo_of id dim) (emb f g))). subst g. now apply nth_error_nth'.
  - now apply nth_error_corner.
  - intros j. rewrite emb_global_Emb by assumption. rewrite Emb_Lin, forg_emb; [reflexivity|assumption|apply Vg].
Qed.
Print Assumptions C17_embedding_corners.

(** stronger: the embeddings compose, as maps, along subEntity *)
Theorem C17_embeddings_compose :
  forall id dim r i c cc j, (id < 2 ^ N.of_nat dim)%N -> re_infos id dim = Some r ->
    (c <= cc <= dim)%nat -> (i < size id dim c)%nat ->
    (j < size (subTopologyId id dim c i) (dim - c) (cc - c))%nat ->
    exists e e' e'' k,
      re_geometry id dim c i = Some e
      /\ re_geometry (subTopologyId id dim c i) (dim - c) (cc - c) j = Some e'
      /\ re_subEntity r i c j cc = Some k
      /\ re_geometry id dim cc k = Some e''
      /\ forall y m, emb_global (dim - c) e (emb_global (dim - cc) e' y) m = emb_global (dim - cc) e'' y m.
Proof.
  intros id dim r i c cc j Hid Hr Hc Hi Hj. rewrite <- bit_pow in Hid.
  pose proof (re_infos_ok _ _ _ Hid Hr) as OK.
  destruct (sub_data id dim c i Hid ltac:(lia) Hi) as (f & Hf & Ec & Ei & G & U & S & TD).
  destruct (sub_data _ (dim - c) (cc - c) j S ltac:(lia) Hj) as (g & Hg & Egc & Egi & G' & U' & _ & TD').
  rewrite U in *. set (T := topo_of id dim) in *.
  destruct (emb_face T f g Hf Hg) as (E1 & E2 & E3).
  assert (CC : fcod T (emb f g) = cc) by (rewrite E2; lia).
  exists (fpair T f), (fpair (ftype T f) g), (fpair T (emb f g)), (fidx T (emb f g)).
  split; [assumption|]. split; [assumption|]. split; [|split].
  - assert (W : nth_error (want T f cc) j = Some (fidx T (emb f g))).
    { unfold want. destruct (Nat.leb_spec (fcod T f) cc); [|lia]. unfold subnums. rewrite Ec.
      apply (map_nth_error (fun g => fidx T (emb f g))). rewrite <- Egc, <- Egi. now apply fidx_nth. }
    rewrite <- Ei, <- Ec. rewrite (re_subEntity_want id dim T r f j cc OK eq_refl Hf); try lia; auto.
    apply nth_error_Some. congruence.
  - unfold re_geometry. rewrite referenceEmbeddings_spec by lia. fold T.
    apply map_nth_error. rewrite <- CC. now apply fidx_nth.
  - intros y m.
    assert (A : forall x, emb_global (dim - c) (fpair T f) x = Emb T f x) by (intros; now rewrite <- TD).
    assert (B : forall x, emb_global (dim - cc) (fpair (ftype T f) g) x = Emb (ftype T f) g x).
    { intros x. unfold Emb. rewrite TD'. f_equal. lia. }
    assert (C : forall x, emb_global (dim - cc) (fpair T (emb f g)) x = Emb T (emb f g) x).
    { intros x. unfold Emb. rewrite E3, TD'. f_equal. lia. }
    rewrite A, B, C, !Emb_Lin, forg_emb, <- Lin_emb by assumption. rewrite Rplus_assoc. f_equal.
    rewrite <- Lin_add. apply Lin_ext. intros; apply Emb_Lin.
Qed.
Print Assumptions C17_embeddings_compose.

(** face 3 of the pyramid (a triangle): embedded corner 2 is the apex *)
Example C17_example :
  obind (re_infos 3 3) (fun r => re_subEntity r 3 1 2 3) = Some 4%nat
  /\ exists e, re_geometry 3 3 1 3 = Some e
     /\ emb_global 2 e (upd vzero 1%nat 1) 2%nat = 1 /\ emb_global 2 e (upd vzero 0%nat 1) 2%nat = 0.
Proof.
  split; [vm_compute; reflexivity|]. eexists. split; [reflexivity|].
  cbn; unfold emb_global, upd, vzero, mupd, midentity, mzero, neg_row; cbn; lra.
Qed.

(** ** C18 checkInside *)

Theorem C18_hull_accepted :
  forall id dim x tol, 0 < tol -> in_hull dim (referenceCorners id dim) x ->
    checkInside id dim x tol 1 = true.
Proof.
  intros id dim x tol Ht H. apply checkInside_spec, insideT_accept; [assumption|].
  apply in_hull_insideT. now rewrite tdim_topo_of, <- corners_verts.
Qed.
Print Assumptions C18_hull_accepted.

(** all tolerances together accept exactly the convex hull *)
Theorem C18_zero_tolerance :
  forall id dim x,
    (forall tol, 0 < tol -> checkInside id dim x tol 1 = true)
    <-> in_hull dim (referenceCorners id dim) x.
Proof.
  intros id dim x. split.
  - intros H. rewrite corners_verts. rewrite <- (tdim_topo_of id dim) at 1. apply in_hull_insideT.
    apply acceptT_inter. intros tol Ht. now apply checkInside_spec, H.
  - intros H tol Ht. now apply C18_hull_accepted.
Qed.
Print Assumptions C18_zero_tolerance.

Theorem C18_monotone :
  forall id dim x tol tol', tol <= tol' ->
    checkInside id dim x tol 1 = true -> checkInside id dim x tol' 1 = true.
Proof.
  intros id dim x tol tol' Ht H. apply checkInside_spec. apply checkInside_spec in H.
  now apply (acceptT_mono _ x tol).
Qed.
Print Assumptions C18_monotone.

Theorem C18_accepted_near_hull :
  forall id dim x tol, 0 < tol -> checkInside id dim x tol 1 = true ->
    exists y, in_hull dim (referenceCorners id dim) y
      /\ forall k, (k < dim)%nat -> Rabs (x k - y k) <= INR dim * tol.
Proof.
  intros id dim x tol Ht H. apply checkInside_spec in H.
  destruct (acceptT_near _ x tol 1 Ht ltac:(lra) H) as (y & Y1 & Y2).
  rewrite Rmax_left in Y1 by lra. exists y. rewrite tdim_topo_of in Y2. split; [|assumption].
  apply in_hull_insideT in Y1. now rewrite tdim_topo_of, <- corners_verts in Y1.
Qed.
Print Assumptions C18_accepted_near_hull.

Example C18_example :
  checkInside 0 2 (fun k => / 2) (/ 10) 1 = true /\ checkInside 0 2 (fun k => 3 / 4) (/ 10) 1 = false
  /\ checkInside 3 2 (fun k => 3 / 4) (/ 10) 1 = true.
Proof.
  cbn. unfold Rltb. repeat split; repeat (destruct (Rlt_dec _ _)); cbn; try reflexivity; lra.
Qed.

(** ** C19 positions *)

Theorem C19_position_mean :
  forall id dim r i c, (id < 2 ^ N.of_nat dim)%N -> re_infos id dim = Some r ->
    (c <= dim)%nat -> (i < size id dim c)%nat ->
    exists p vs, re_position id dim r i c = Some p
      /\ re_subEntities r i c dim = Some vs /\ (0 < length vs)%nat
      /\ forall k, p k = Ssum (length vs) (fun j => nth (nth j vs O) (referenceCorners id dim) vzero k)
                         / INR (length vs).
Proof.
  intros id dim r i c Hid Hr Hc Hi. rewrite <- bit_pow in Hid.
  pose proof (re_infos_ok _ _ _ Hid Hr) as OK.
  destruct (sub_data id dim c i Hid Hc Hi) as (f & Hf & Ec & Ei & _).
  destruct (re_position_spec id dim r f OK Hf) as (p & P & PV). rewrite Ec, Ei in P.
  exists p, (want (topo_of id dim) f dim). split; [assumption|].
  assert (W : want (topo_of id dim) f dim
                = map (fun g => fidx (topo_of id dim) (emb f g)) (verts (ftype (topo_of id dim) f))).
  { rewrite <- want_vertices by assumption. now rewrite tdim_topo_of. }
  split; [|split].
  - rewrite <- Ei, <- Ec. now apply (re_subEntities_face id dim _ r f dim OK eq_refl).
  - rewrite W, map_length. apply verts_length_pos.
  - intros k. rewrite PV, Emb_mean by assumption. rewrite W, map_length. f_equal.
    rewrite Ssum_rsum, (lsum_nth _ _ FPt). apply rsum_ext. intros j Hj.
    rewrite (nth_indep _ O (fidx (topo_of id dim) (emb f FPt))) by (now rewrite map_length).
    rewrite (map_nth (fun g => fidx (topo_of id dim) (emb f g))).
    set (g := nth j (verts (ftype (topo_of id dim) f)) FPt).
    assert (Vg : vertexF (ftype (topo_of id dim) f) g) by (apply in_verts, nth_In; exact Hj).
    now rewrite (nth_error_nth _ _ _ (nth_error_corner id dim _ (emb_vertex _ f g Hf Vg))).
Qed.
Print Assumptions C19_position_mean.

Theorem C19_position_inside :
  forall id dim r i c p, (id < 2 ^ N.of_nat dim)%N -> re_infos id dim = Some r ->
    (c <= dim)%nat -> (i < size id dim c)%nat -> re_position id dim r i c = Some p ->
    in_hull dim (referenceCorners id dim) p.
Proof.
  intros id dim r i c p Hid Hr Hc Hi Hp. rewrite <- bit_pow in Hid.
  pose proof (re_infos_ok _ _ _ Hid Hr) as OK.
  destruct (sub_data id dim c i Hid Hc Hi) as (f & Hf & Ec & Ei & _).
  destruct (re_position_spec id dim r f OK Hf) as (p' & P & PV). rewrite Ec, Ei, Hp in P. injection P as <-.
  rewrite corners_verts, <- (tdim_topo_of id dim) at 1.
  replace p with (Emb (topo_of id dim) f (meanT (ftype (topo_of id dim) f)))
    by (apply functional_extensionality; intros; now rewrite PV).
  apply in_hull_hullT. apply Emb_hull; [assumption|]. apply meanT_hull.
Qed.
Print Assumptions C19_position_inside.

Theorem C19_position_embedding :
  forall id dim r i c r', (id < 2 ^ N.of_nat dim)%N -> re_infos id dim = Some r ->
    (c <= dim)%nat -> (i < size id dim c)%nat ->
    re_infos (subTopologyId id dim c i) (dim - c) = Some r' ->
    exists p e q, re_position id dim r i c = Some p
      /\ re_geometry id dim c i = Some e
      /\ re_position (subTopologyId id dim c i) (dim - c) r' 0 0 = Some q
      /\ forall k, p k = emb_global (dim - c) e q k.
Proof.
  intros id dim r i c r' Hid Hr Hc Hi Hr'. rewrite <- bit_pow in Hid.
  pose proof (re_infos_ok _ _ _ Hid Hr) as OK.
  destruct (sub_data id dim c i Hid Hc Hi) as (f & Hf & Ec & Ei & G & U & S & TD).
  pose proof (re_infos_ok _ _ _ S Hr') as OK'.
  destruct (re_position_spec id dim r f OK Hf) as (p & P & PV). rewrite Ec, Ei in P.
  set (s := subTopologyId id dim c i) in *.
  destruct (whole_face (topo_of s (dim - c))) as (W1 & W2 & W3).
  destruct (re_position_spec s (dim - c) r' _ OK' W1) as (q & Q & QV). rewrite W2 in Q.
  assert (fidx (topo_of s (dim - c)) (whole (topo_of s (dim - c))) = O) as F0.
  { pose proof (fidx_lt _ _ W1) as L. rewrite W2, tsize_0 in L. lia. }
  rewrite F0 in Q. exists p, (fpair (topo_of id dim) f), q. repeat split; try assumption.
  intros k. rewrite PV, emb_global_Emb by assumption. rewrite !Emb_Lin. f_equal. apply Lin_ext.
  intros j Hj. rewrite QV, W3, Emb_whole, U; [reflexivity|]. now rewrite U.
Qed.
Print Assumptions C19_position_embedding.

Example C19_example :
  exists p, obind (re_infos 3 3) (fun r => re_position 3 3 r 0 0) = Some p
    /\ p 0%nat = 2 / 5 /\ p 1%nat = 2 / 5 /\ p 2%nat = 1 / 5.
Proof.
  assert (V : (3 < bit 3)%N) by (vm_compute; reflexivity).
  destruct (re_infos_spec 3 3 V) as (r & E & OK). rewrite E. cbn [obind].
  destruct (whole_face (topo_of 3 3)) as (W1 & W2 & W3).
  destruct (re_position_spec 3 3 r _ OK W1) as (q & Q & QV).
  exists q. split; [exact Q|]. rewrite !QV, W3, !Emb_whole by (cbn; lia).
  unfold meanT. cbn. unfold upd, vzero. cbn. repeat split; lra.
Qed.

(** ** C20 position is documented as the centre of gravity *)

(** the documented claim is false: the pyramid *)
Theorem C20_centre_of_gravity_refuted :
  exists id dim r p k, (id < 2 ^ N.of_nat dim)%N /\ re_infos id dim = Some r
    /\ re_position id dim r 0 0 = Some p /\ (k < dim)%nat
    /\ p k = 1 / 5 /\ centroidT (topo_of id dim) k = 1 / 4.
Proof.
  assert (V : (3 < bit 3)%N) by (vm_compute; reflexivity).
  destruct (re_infos_spec 3 3 V) as (r & E & OK).
  destruct (whole_face (topo_of 3 3)) as (W1 & W2 & W3).
  destruct (re_position_spec 3 3 r _ OK W1) as (q & Q & QV).
  exists 3%N, 3%nat, r, q, 2%nat. split; [vm_compute; reflexivity|]. split; [exact E|].
  split; [exact Q|]. split; [lia|]. rewrite QV, W3, Emb_whole by (cbn; lia). split.
  - unfold meanT. cbn. unfold upd, vzero. cbn. lra.
  - change (topo_of 3 3) with (Pyr (Pri (Pri Pt))).
    change 2%nat with (tdim (Pri (Pri Pt))). rewrite centroid_Pyr_top. cbn. lra.
Qed.
Print Assumptions C20_centre_of_gravity_refuted.

(** exactly when it is true: no cone over a non-simplex, i.e. once a prism step occurs all
    later steps are prism steps *)
Theorem C20_centre_of_gravity_iff :
  forall id dim r p, (id < 2 ^ N.of_nat dim)%N -> re_infos id dim = Some r ->
    re_position id dim r 0 0 = Some p ->
    (forall k, (k < dim)%nat -> p k = centroidT (topo_of id dim) k)
    <-> (forall j k, (1 <= j < k)%nat -> (k < dim)%nat ->
           N.testbit id (N.of_nat k) = false -> N.testbit id (N.of_nat j) = false).
Proof.
  intros id dim r p Hid Hr Hp. rewrite <- bit_pow in Hid.
  pose proof (re_infos_ok _ _ _ Hid Hr) as OK.
  destruct (whole_face (topo_of id dim)) as (W1 & W2 & W3).
  destruct (re_position_spec id dim r _ OK W1) as (q & Q & QV).
  assert (fidx (topo_of id dim) (whole (topo_of id dim)) = O) as F0.
  { pose proof (fidx_lt _ _ W1) as L. rewrite W2, tsize_0 in L. lia. }
  rewrite W2, F0, Hp in Q. injection Q as <-.
  rewrite <- balanced_bits, <- mean_centroid, tdim_topo_of.
  split; intros H k Hk; specialize (H k Hk); rewrite QV, W3, Emb_whole in * by (now rewrite tdim_topo_of);
    assumption.
Qed.
Print Assumptions C20_centre_of_gravity_iff.

(** for every subentity whose own type satisfies the condition (in particular simplices,
    cubes and prisms): position(i,c) is the image of its centre of gravity *)
Theorem C20_centre_of_gravity_cases :
  forall id dim r i c, (id < 2 ^ N.of_nat dim)%N -> re_infos id dim = Some r ->
    (c <= dim)%nat -> (i < size id dim c)%nat ->
    (forall j k, (1 <= j < k)%nat -> (k < dim - c)%nat ->
       N.testbit (subTopologyId id dim c i) (N.of_nat k) = false ->
       N.testbit (subTopologyId id dim c i) (N.of_nat j) = false) ->
    exists p e, re_position id dim r i c = Some p /\ re_geometry id dim c i = Some e
      /\ forall k, p k = emb_global (dim - c) e (centroidT (topo_of (subTopologyId id dim c i) (dim - c))) k.
Proof.
  intros id dim r i c Hid Hr Hc Hi Hb. rewrite <- bit_pow in Hid.
  pose proof (re_infos_ok _ _ _ Hid Hr) as OK.
  destruct (sub_data id dim c i Hid Hc Hi) as (f & Hf & Ec & Ei & G & U & S & TD).
  destruct (re_position_spec id dim r f OK Hf) as (p & P & PV). rewrite Ec, Ei in P.
  apply balanced_bits in Hb. rewrite <- mean_centroid, U in Hb.
  exists p, (fpair (topo_of id dim) f). repeat split; try assumption.
  intros k. rewrite PV, emb_global_Emb by assumption. rewrite !Emb_Lin, U. f_equal. apply Lin_ext. exact Hb.
Qed.
Print Assumptions C20_centre_of_gravity_cases.

Example C20_example : centroidT (topo_of 0 2) 0 = 1 / 3 /\ centroidT (topo_of 3 3) 2 = 1 / 4.
Proof.
  split.
  - change (topo_of 0 2) with (Pyr (Pyr Pt)). rewrite centroid_Pyr by (cbn; lia).
    rewrite (centroid_Pyr_top Pt : centroidT (Pyr Pt) 0 = _). cbn. lra.
  - change (topo_of 3 3) with (Pyr (Pri (Pri Pt))).
    change 2%nat with (tdim (Pri (Pri Pt))). rewrite centroid_Pyr_top. cbn. lra.
Qed.

(** ** C21 reference volume *)

(** the value is the exact (iterated integral) volume if and only if the volume of the
    base exceeds 2^-32 *)
Theorem C21_volume_exact_iff :
  forall id dim, (dim < 256)%nat ->
    (referenceVolume id dim = volumeT (topo_of id dim)
     <-> / 2 ^ 32 < volumeT (topo_of id (pred dim))).
Proof. exact (fun id dim => referenceVolume_iff id dim). Qed.
Print Assumptions C21_volume_exact_iff.

(** so the documented claim fails for large dimensions *)
Theorem C21_volume_refuted :
  exists id dim, (id < 2 ^ N.of_nat dim)%N /\ (dim < 256)%nat
    /\ volumeT (topo_of id dim) = / 87178291200
    /\ referenceVolume id dim = / 27048749056.
Proof.
  exists 0%N, 14%nat. split; [reflexivity|]. split; [lia|]. split.
  - rewrite volumeT_tvol. unfold tvol. f_equal.
  - unfold referenceVolume. unfold Rdiv. rewrite Rmult_1_l. f_equal.
Qed.
Print Assumptions C21_volume_refuted.

Theorem C21_volume_small_dimension :
  forall id dim, (dim <= 13)%nat -> referenceVolume id dim = volumeT (topo_of id dim).
Proof. intros id dim H. rewrite volumeT_tvol. now apply referenceVolume_small. Qed.
Print Assumptions C21_volume_small_dimension.

(** product with [0,1] keeps the volume, a cone divides it by the dimension *)
Theorem C21_volume_recursion :
  forall b, volumeT (Pri b) = volumeT b /\ volumeT (Pyr b) = volumeT b / INR (tdim (Pyr b)).
Proof. intros b. rewrite !volumeT_tvol. split; [reflexivity|apply tvol_Pyr]. Qed.
Print Assumptions C21_volume_recursion.

Theorem C21_volume_simplex :
  forall id dim, (id < 2 ^ N.of_nat dim)%N -> isSimplex (GT2 id dim) = true ->
    volumeT (topo_of id dim) = / INR (fact dim).
Proof.
  intros id dim Hid H. rewrite <- bit_pow in Hid. apply isSimplex_simT in H; auto.
  rewrite volumeT_tvol. unfold tvol. rewrite tvolinv_fact_simplex, tdim_topo_of, nat_N_Z, <- INR_IZR_INZ by assumption.
  reflexivity.
Qed.
Print Assumptions C21_volume_simplex.

Theorem C21_volume_cube :
  forall id dim, (id < 2 ^ N.of_nat dim)%N -> (dim < 256)%nat -> isCube (GT2 id dim) = true ->
    referenceVolume id dim = 1 /\ volumeT (topo_of id dim) = 1.
Proof.
  intros id dim Hid Hd H. rewrite <- bit_pow in Hid. apply isCube_cubT in H; auto.
  assert (V : volumeT (topo_of id dim) = 1).
  { rewrite volumeT_tvol. unfold tvol. rewrite tvolinv_cube by assumption. cbn. lra. }
  split; [|assumption]. rewrite <- V. apply referenceVolume_iff; [assumption|].
  rewrite volumeT_tvol. unfold tvol.
  assert (E : tvolinv (topo_of id (pred dim)) = 1%N).
  { destruct dim; [reflexivity|]. pose proof (tvolinv_base_le id dim) as L.
    pose proof (tvolinv_cube _ H). pose proof (tvolinv_pos (topo_of id dim)). cbn [pred]. lia. }
  rewrite E. cbn. lra.
Qed.
Print Assumptions C21_volume_cube.

Example C21_example : referenceVolume 3 3 = 1 / 3 /\ referenceVolume 5 3 = 1 / 2 /\ referenceVolume 0 3 = 1 / 6.
Proof. repeat split. Qed.

(** ** C22 integration outer normals *)

Theorem C22_normal_count :
  forall id dim, (1 <= dim)%nat -> length (referenceIntegrationOuterNormals id dim) = size id dim 1.
Proof.
  intros id dim H. rewrite referenceIntegrationOuterNormals_spec, map_length, size_tsize by lia. reflexivity.
Qed.
Print Assumptions C22_normal_count.

(** orthogonal to the image of every direction in the face *)
Theorem C22_normal_orthogonal :
  forall id dim i n e y z, (1 <= dim)%nat ->
    nth_error (referenceIntegrationOuterNormals id dim) i = Some n ->
    re_geometry id dim 1 i = Some e ->
    Ssum dim (fun k => n k * (emb_global (dim - 1) e y k - emb_global (dim - 1) e z k)) = 0.
Proof.
  intros id dim i n e y z Hd Hn He.
  destruct (normal_nth _ _ _ _ Hd Hn) as (f & Hf & Ec & Ei & -> & G). rewrite He in G. injection G as ->.
  assert (TD : tdim (ftype (topo_of id dim) f) = (dim - 1)%nat) by (now rewrite tdim_ftype, Ec, tdim_topo_of).
  rewrite Ssum_rsum, !emb_global_Emb by assumption.
  pose proof (nrm_face _ f y Hf Ec) as E1. pose proof (nrm_face _ f z Hf Ec) as E2.
  rewrite tdim_topo_of in E1, E2. unfold dot in E1, E2.
  rewrite (rsum_ext _ _ (fun k => nrm (topo_of id dim) f k * Emb (topo_of id dim) f y k
                        - nrm (topo_of id dim) f k * Emb (topo_of id dim) f z k)) by (intros; lra).
  rewrite rsum_minus, E1, E2. lra.
Qed.
Print Assumptions C22_normal_orthogonal.

(** every point x of the element is behind the plane through any point of the face *)
Theorem C22_normal_outward :
  forall id dim i n e x y, (1 <= dim)%nat ->
    nth_error (referenceIntegrationOuterNormals id dim) i = Some n ->
    re_geometry id dim 1 i = Some e ->
    in_hull dim (referenceCorners id dim) x ->
    Ssum dim (fun k => (x k - emb_global (dim - 1) e y k) * n k) <= 0.
Proof.
  intros id dim i n e x y Hd Hn He Hx.
  destruct (normal_nth _ _ _ _ Hd Hn) as (f & Hf & Ec & Ei & -> & G). rewrite He in G. injection G as ->.
  assert (TD : tdim (ftype (topo_of id dim) f) = (dim - 1)%nat) by (now rewrite tdim_ftype, Ec, tdim_topo_of).
  rewrite Ssum_rsum, !emb_global_Emb by assumption.
  rewrite corners_verts, <- (tdim_topo_of id dim) in Hx at 1. apply in_hull_insideT in Hx.
  pose proof (nrm_support_inside _ f x 1 Hf Ec Hx) as E1. pose proof (nrm_face _ f y Hf Ec) as E2.
  rewrite tdim_topo_of in E1, E2. unfold dot in E1, E2.
  rewrite (rsum_ext _ _ (fun k => nrm (topo_of id dim) f k * x k
                        - nrm (topo_of id dim) f k * Emb (topo_of id dim) f y k)) by (intros; lra).
  rewrite rsum_minus, E2. lra.
Qed.
Print Assumptions C22_normal_outward.

(** and the centre is strictly behind it, so the normal is not zero and not inward *)
Theorem C22_normal_strict :
  forall id dim r i n e y p, (id < 2 ^ N.of_nat dim)%N -> (1 <= dim)%nat -> re_infos id dim = Some r ->
    nth_error (referenceIntegrationOuterNormals id dim) i = Some n ->
    re_geometry id dim 1 i = Some e -> re_position id dim r 0 0 = Some p ->
    Ssum dim (fun k => (p k - emb_global (dim - 1) e y k) * n k) < 0.
Proof.
  intros id dim r i n e y p Hid Hd Hr Hn He Hp. rewrite <- bit_pow in Hid.
  pose proof (re_infos_ok _ _ _ Hid Hr) as OK.
  destruct (whole_face (topo_of id dim)) as (W1 & W2 & W3).
  destruct (re_position_spec id dim r _ OK W1) as (q & Q & QV).
  assert (fidx (topo_of id dim) (whole (topo_of id dim)) = O) as F0.
  { pose proof (fidx_lt _ _ W1) as L. rewrite W2, tsize_0 in L. lia. }
  rewrite W2, F0, Hp in Q. injection Q as <-.
  destruct (normal_nth _ _ _ _ Hd Hn) as (f & Hf & Ec & Ei & -> & G). rewrite He in G. injection G as ->.
  assert (TD : tdim (ftype (topo_of id dim) f) = (dim - 1)%nat) by (now rewrite tdim_ftype, Ec, tdim_topo_of).
  rewrite Ssum_rsum, !emb_global_Emb by assumption.
  pose proof (nrm_mean_strict _ f Hf Ec) as E1. pose proof (nrm_face _ f y Hf Ec) as E2.
  rewrite tdim_topo_of in E1, E2. unfold dot in E1, E2.
  rewrite (rsum_ext _ _ (fun k => nrm (topo_of id dim) f k * meanT (topo_of id dim) k
                        - nrm (topo_of id dim) f k * Emb (topo_of id dim) f y k)).
  - rewrite rsum_minus, E2. lra.
  - intros k Hk. rewrite QV, W3, Emb_whole by (now rewrite tdim_topo_of). lra.
Qed.
Print Assumptions C22_normal_strict.

(** the sloped face of the triangle *)
Example C22_example :
  exists n, nth_error (referenceIntegrationOuterNormals 0 2) 2 = Some n /\ n 0%nat = 1 /\ n 1%nat = 1.
Proof. eexists. split; [reflexivity|]. cbn. unfold dot, upd, vzero. cbn. split; lra. Qed.

(** ** C23 closing and length of the normals *)

Theorem C23_normals_close :
  forall id dim k, (id < 2 ^ N.of_nat dim)%N -> (1 <= dim)%nat ->
    Ssum (size id dim 1) (fun i => volumeT (topo_of (subTopologyId id dim 1 i) (dim - 1))
                                   * nth i (referenceIntegrationOuterNormals id dim) vzero k) = 0.
Proof. intros id dim k Hid. rewrite <- bit_pow in Hid. now apply normals_close. Qed.
Print Assumptions C23_normals_close.

(** the same with the volumes the code computes, as long as these are exact *)
Theorem C23_normals_close_code_volume :
  forall id dim k, (id < 2 ^ N.of_nat dim)%N -> (1 <= dim <= 14)%nat ->
    Ssum (size id dim 1) (fun i => referenceVolume (subTopologyId id dim 1 i) (dim - 1)
                                   * nth i (referenceIntegrationOuterNormals id dim) vzero k) = 0.
Proof.
  intros id dim k Hid Hd. rewrite <- (C23_normals_close id dim k Hid ltac:(lia)).
  rewrite !Ssum_rsum. apply rsum_ext. intros i Hi. now rewrite C21_volume_small_dimension by lia.
Qed.
Print Assumptions C23_normals_close_code_volume.

(** |n|^2 = det (J J^T) for the transposed Jacobian J of geometry<1>(i) *)
Theorem C23_normal_length :
  forall id dim i n e, (1 <= dim)%nat ->
    nth_error (referenceIntegrationOuterNormals id dim) i = Some n ->
    re_geometry id dim 1 i = Some e ->
    Ssum dim (fun k => n k * n k)
    = detR (dim - 1) (fun a b => Ssum dim (fun k => snd e a k * snd e b k)).
Proof.
  intros id dim i n e Hd Hn He.
  destruct (normal_nth _ _ _ _ Hd Hn) as (f & Hf & Ec & Ei & -> & G). rewrite He in G. injection G as ->.
  rewrite Ssum_rsum. pose proof (normal_gram _ f Hf Ec) as E. rewrite tdim_topo_of in E. unfold dot in E at 2.
  rewrite <- E. apply detR_ext. intros a b _ _. rewrite Ssum_rsum. reflexivity.
Qed.
Print Assumptions C23_normal_length.

(** the sloped face of the tetrahedron has |n|^2 = 3 *)
Example C23_example :
  exists n, nth_error (referenceIntegrationOuterNormals 0 3) 3 = Some n
    /\ Ssum 3 (fun k => n k * n k) = 3.
Proof. eexists. split; [reflexivity|]. cbn. unfold dot, upd, vzero. cbn. lra. Qed.
