(** Positions, normals and volumes. *)
From Coq Require Import NArith PeanoNat Bool List Lia Reals Lra FunctionalExtensionality.
From Verif Require Import M_Type M_RefTopo M_RefGeo P_Type P_Type2 S_Topo P_Topo P_RefTopo P_RefTopo2 P_RefTopo3 P_RSum P_RefGeo P_RefGeo2 S_RefGeo.
Import ListNotations.
Local Open Scope R_scope.

(** ** Positions *)

Definition meanT (T : Topo) : Vec :=
  fun k => lsum (fun v => forg T v k) (verts T) / INR (length (verts T)).

Lemma verts_length_pos T : (0 < length (verts T))%nat.
Proof. apply tsize_pos. lia. Qed.

Lemma meanT_hull T : hullT T (meanT T) 1.
Proof.
  pose proof (verts_length_pos T) as P. assert (Q : 0 < INR (length (verts T))) by (apply lt_0_INR; lia).
  exists (fun _ => / INR (length (verts T))). split; [|split].
  - intros v _. left. now apply Rinv_0_lt_compat.
  - rewrite lsum_const. field. lra.
  - intros k _. unfold meanT. rewrite lsum_scal. unfold Rdiv. lra.
Qed.

Lemma sum_corners_spec get n (v : nat -> Vec) : (forall j, (j < n)%nat -> get j = Some (v j)) ->
  exists s, sum_corners get n = Some s /\ forall k, s k = rsum n (fun j => v j k).
Proof.
  induction n as [|n IH]; intros H.
  - exists vzero. split; reflexivity.
  - destruct IH as (s & E & S); [intros; apply H; lia|].
    exists (vadd s (v n)). cbn [sum_corners]. rewrite E, (H n) by lia. cbn [obind].
    split; [reflexivity|]. intros k. unfold vadd. rewrite S. reflexivity.
Qed.

Lemma emb_vertex T f g : is_face T f -> vertexF (ftype T f) g -> vertexF T (emb f g).
Proof.
  intros Hf [G1 G2]. destruct (emb_face T f g Hf G1) as (A & B & _). split; [assumption|].
  rewrite B, G2, tdim_ftype by assumption. pose proof (fcod_le T f Hf). lia.
Qed.

Lemma nth_error_corner id dim v : vertexF (topo_of id dim) v ->
  nth_error (referenceCorners id dim) (fidx (topo_of id dim) v) = Some (forg (topo_of id dim) v).
Proof.
  intros [V1 V2]. rewrite referenceCorners_spec.
  rewrite nth_error_map. rewrite tdim_topo_of in V2.
  pose proof (fidx_nth _ _ V1) as E. rewrite V2 in E. rewrite E. reflexivity.
Qed.

Lemma want_vertices T f : is_face T f ->
  want T f (tdim T) = map (fun g => fidx T (emb f g)) (verts (ftype T f)).
Proof.
  intros Hf. unfold want, subnums, verts. pose proof (fcod_le T f Hf).
  destruct (Nat.leb_spec (fcod T f) (tdim T)); [|lia]. now rewrite tdim_ftype.
Qed.

(** Emb maps weighted sums of corners *)
Lemma Emb_comb T f (w : Face -> R) l : lsum w l = 1 ->
  (forall g, In g l -> vertexF (ftype T f) g) -> is_face T f ->
  forall k, Emb T f (fun j => lsum (fun g => w g * forg (ftype T f) g j) l) k
            = lsum (fun g => w g * forg T (emb f g) k) l.
Proof.
  intros W V Hf k. rewrite Emb_Lin.
  rewrite (lsum_ext _ (fun g => forg T f k * w g + w g * Lin T f (forg (ftype T f) g) k)).
  2:{ intros g Hg. rewrite forg_emb; [lra|assumption|apply (V g Hg)]. }
  rewrite lsum_plus, lsum_scal, W. rewrite Rmult_1_r. f_equal.
  unfold Lin.
  rewrite (lsum_ext (fun g => w g * rsum _ _)
            (fun g => rsum (tdim (ftype T f)) (fun j => w g * (fjt T f j k * forg (ftype T f) g j))))
    by (intros; symmetry; apply rsum_scal).
  rewrite lsum_rsum_swap. apply rsum_ext. intros j Hj. rewrite <- lsum_scal. apply lsum_ext.
  intros; lra.
Qed.

Lemma Emb_mean T f k : is_face T f ->
  Emb T f (meanT (ftype T f)) k
  = lsum (fun g => forg T (emb f g) k) (verts (ftype T f)) / INR (length (verts (ftype T f))).
Proof.
  intros Hf. set (n := length (verts (ftype T f))).
  assert (Q : 0 < INR n) by (apply lt_0_INR, verts_length_pos).
  pose proof (Emb_comb T f (fun _ => / INR n) (verts (ftype T f))) as E.
  rewrite lsum_const in E. fold n in E. specialize (E ltac:(field; lra)).
  specialize (E (fun g Hg => proj1 (in_verts _ g) Hg) Hf k).
  rewrite lsum_scal in E. unfold Rdiv. rewrite Rmult_comm, <- E. f_equal.
  apply functional_extensionality. intros j. unfold meanT. rewrite lsum_scal. fold n. unfold Rdiv. lra.
Qed.

Lemma Emb_hull T f y : is_face T f -> hullT (ftype T f) y 1 -> hullT T (Emb T f y) 1.
Proof.
  intros Hf (w & W0 & W1 & W2).
  set (l := verts (ftype T f)) in *.
  (* weight of v: sum of the w g with emb f g = v *)
  pose (Feqb := fun a b : Face => if (ltac:(decide equality) : {a = b} + {a <> b}) then true else false).
  assert (FE : forall a b, Feqb a b = true <-> a = b).
  { intros a b. unfold Feqb. destruct (_ : {a = b} + {a <> b}); split; auto; discriminate. }
  exists (fun v => lsum (fun g => if Feqb (emb f g) v then w g else 0) l).
  assert (SW : forall F : Face -> R,
     lsum (fun v => lsum (fun g => if Feqb (emb f g) v then w g else 0) l * F v) (verts T)
     = lsum (fun g => w g * F (emb f g)) l).
  { intros F.
    assert (SW2 : forall l', (forall g, In g l' -> vertexF (ftype T f) g) ->
       lsum (fun v => lsum (fun g => if Feqb (emb f g) v then w g else 0) l' * F v) (verts T)
       = lsum (fun g => w g * F (emb f g)) l').
    { induction l' as [|g l' IH]; intros HV.
      - cbn [lsum fold_right]. apply lsum_0. intros; lra.
      - rewrite lsum_cons, <- IH by (intros; apply HV; now right).
        rewrite (lsum_ext _ (fun v => (if Feqb (emb f g) v then w g * F (emb f g) else 0)
            + lsum (fun g => if Feqb (emb f g) v then w g else 0) l' * F v)).
        2:{ intros v _. rewrite lsum_cons. destruct (Feqb (emb f g) v) eqn:E; [|lra].
            apply FE in E. subst v. lra. }
        rewrite lsum_plus. f_equal.
        pose proof (emb_vertex T f g Hf (HV g (or_introl eq_refl))) as VV.
        apply in_verts in VV. pose proof (faces_NoDup T (tdim T)) as ND. fold (verts T) in ND.
        revert VV ND. generalize (verts T). generalize (w g * F (emb f g)). clear - FE.
        intros c l VV ND. induction ND as [|v l Hv ND IH]; [contradiction|].
        rewrite lsum_cons. destruct VV as [->|VV].
        + rewrite (proj2 (FE _ _) eq_refl), lsum_0; [lra|]. intros v' Hv'.
          destruct (Feqb (emb f g) v') eqn:E; [|reflexivity]. apply FE in E. subst v'. contradiction.
        + rewrite IH by assumption. destruct (Feqb (emb f g) v) eqn:E; [|lra].
          apply FE in E. subst v. contradiction. }
    apply SW2. intros g Hg. now apply in_verts. }
  split; [|split].
  - intros v _. apply lsum_nonneg. intros g Hg. destruct (Feqb _ _); [auto|lra].
  - rewrite <- W1.
    rewrite (lsum_ext _ (fun v => lsum (fun g => if Feqb (emb f g) v then w g else 0) l * 1)) by (intros; lra).
    rewrite (SW (fun _ => 1)). apply lsum_ext. intros; lra.
  - intros k Hk. rewrite (SW (fun v => forg T v k)).
    rewrite <- (Emb_comb T f w l W1); [|intros g Hg; now apply in_verts|assumption].
    rewrite !Emb_Lin. f_equal. apply Lin_ext. intros j Hj. now apply W2.
Qed.

Lemma re_position_spec id dim r f : re_ok id dim r -> is_face (topo_of id dim) f ->
  exists p, re_position id dim r (fidx (topo_of id dim) f) (fcod (topo_of id dim) f) = Some p
    /\ forall k, p k = Emb (topo_of id dim) f (meanT (ftype (topo_of id dim) f)) k.
Proof.
  intros OK Hf. set (T := topo_of id dim) in *.
  assert (TD : tdim T = dim) by apply tdim_topo_of.
  unfold re_position. destruct (Nat.eqb_spec (fcod T f) dim) as [E|E].
  - assert (V : vertexF T f) by (split; [assumption|lia]).
    exists (forg T f). split; [apply nth_error_corner; exact V|]. intros k. now rewrite vertex_Emb.
  - destruct (ok_re_info _ _ _ OK f Hf) as (s & Es & I). fold T in Es.
    unfold re_size3, re_subEntity. rewrite Es. cbn [obind].
    rewrite (ok_size _ _ _ _ I) by lia. fold T.
    set (l := verts (ftype T f)).
    assert (WV : want T f dim = map (fun g => fidx T (emb f g)) l) by (rewrite <- TD; now apply want_vertices).
    destruct (sum_corners_spec
      (fun j => obind (info_number s j dim) (nth_error (referenceCorners id dim)))
      (length (want T f dim)) (fun j => forg T (emb f (nth j l FPt)))) as (sm & ES & SM).
    { intros j Hj. rewrite (ok_number _ _ _ _ I) by (auto; lia). fold T. rewrite WV in Hj |- *.
      rewrite map_length in Hj. rewrite nth_error_map, (nth_error_nth' _ FPt) by assumption.
      cbn [option_map obind]. apply nth_error_corner. apply emb_vertex; [assumption|].
      apply in_verts. now apply nth_In. }
    rewrite ES. cbn [obind]. eexists. split; [reflexivity|]. intros k. unfold vscale. rewrite SM.
    rewrite Emb_mean by assumption. fold l. rewrite WV, map_length.
    rewrite (lsum_nth _ l FPt). unfold Rdiv. lra.
Qed.

(** ** Normals *)

Fixpoint nrm (T : Topo) (f : Face) : Vec :=
  match T, f with
  | Pri b, FSide f => nrm b f
  | Pri b, FBot _ => upd vzero (tdim b) (-1)
  | Pri b, FTop _ => upd vzero (tdim b) 1
  | Pyr b, FBase _ => upd vzero (tdim b) (-1)
  | Pyr b, FCone f => upd (nrm b f) (tdim b) (dot (tdim b) (nrm b f) (forg b f))
  | Pyr b, FApex => upd vzero (tdim b) 1
  | _, _ => vzero
  end.

Lemma nrm_support T : forall f k, (tdim T <= k)%nat -> nrm T f k = 0.
Proof.
  induction T as [|b IH|b IH]; intros f k Hk; destruct f; cbn [nrm tdim] in *; try reflexivity;
    try (rewrite upd_ne by lia; first [reflexivity | apply IH; lia]). apply IH; lia.
Qed.

Lemma combine_map_prefix {A B C} (F : A * B -> C) (g : Face -> A) (h : Face -> B) l l2 :
  firstn (length l) l2 = map h l ->
  map F (combine (map g l) l2) = map (fun f => F (g f, h f)) l.
Proof.
  revert l2. induction l as [|a l IH]; intros l2 E; [reflexivity|].
  destruct l2 as [|b l2]; [discriminate|]. cbn [length firstn map] in E. injection E as E1 E2.
  cbn [map combine]. rewrite IH by assumption. now subst b.
Qed.

Lemma referenceNormals_spec cdim dim : forall id origins, (1 <= dim <= cdim)%nat ->
  firstn (tsize (topo_of id dim) 1) origins = map (forg (topo_of id dim)) (faces (topo_of id dim) 1) ->
  referenceNormals cdim id dim origins = map (nrm (topo_of id dim)) (faces (topo_of id dim) 1).
Proof.
  induction dim as [|d IH]; intros id origins Hd HO; [lia|].
  destruct d as [|d].
  - cbn [referenceNormals].
    destruct (topo_cases id 0) as [[_ ->]|[[_ ->]|(_ & -> & _)]]; reflexivity.
  - set (d' := S d) in *. cbn [referenceNormals]. fold d'.
    change (match d' with O => [upd vzero 0 (-1); upd vzero 0 1] | S _ => ?x end) with x.
    destruct (topo_cases id d') as [[P ET]|[[P ET]|(_ & _ & ?)]]; [| |lia].
    + cbn [Nat.eqb] in *. rewrite P, ET in *. cbn [faces] in *. rewrite map_app, map_app.
      rewrite faces_0 in *. cbn [map app] in *.
      rewrite map_map.
      rewrite (IH (baseTopologyId id (S d') 1) origins); rewrite ?topo_of_base; [|unfold d'; lia|].
      * cbn [nrm]. rewrite tdim_topo_of. reflexivity.
      * rewrite map_app, map_map in HO. cbn [forg] in HO.
        unfold tsize in HO. cbn [faces] in HO. rewrite faces_0, app_length, map_length in HO.
        apply (f_equal (firstn (length (faces (topo_of id d') 1)))) in HO.
        rewrite firstn_firstn, Nat.min_l in HO by lia. unfold tsize. rewrite HO.
        rewrite firstn_app, map_length, Nat.sub_diag, firstn_O, app_nil_r.
        apply firstn_all2. now rewrite map_length.
    + rewrite P, ET in *. cbn [faces] in *. rewrite faces_0, tdim_topo_of in *. cbn [map app] in *.
      destruct (Nat.eqb_spec 1 (S d')); [unfold d' in *; lia|]. rewrite app_nil_r in *.
      rewrite !map_map in *. cbn [forg nrm] in *. rewrite tdim_topo_of.
      f_equal.
      assert (HO' : firstn (length (faces (topo_of id d') 1)) (tl origins)
                    = map (forg (topo_of id d')) (faces (topo_of id d') 1)).
      { unfold tsize in HO. cbn [faces] in HO. rewrite faces_0, tdim_topo_of in HO. cbn [map app] in HO.
        destruct (Nat.eqb_spec 1 (S d')); [lia|]. rewrite app_nil_r in HO. cbn [length] in HO.
        rewrite map_length in HO.
        destruct origins as [|o origins]; [discriminate|]. cbn [firstn] in HO. injection HO as _ HO. exact HO. }
      rewrite (IH (baseTopologyId id (S d') 1) (tl origins)); rewrite ?topo_of_base; [|unfold d'; lia|exact HO'].
      rewrite (combine_map_prefix _ (nrm (topo_of id d')) (forg (topo_of id d'))) by exact HO'.
      apply map_ext. intros f. f_equal.
      apply dot_trunc; [lia|]. intros k Hk. apply nrm_support. rewrite tdim_topo_of. lia.
Qed.

Lemma referenceIntegrationOuterNormals_spec id dim : (1 <= dim)%nat ->
  referenceIntegrationOuterNormals id dim = map (nrm (topo_of id dim)) (faces (topo_of id dim) 1).
Proof.
  intros H. unfold referenceIntegrationOuterNormals. rewrite referenceOrigins_spec by lia.
  apply referenceNormals_spec; [lia|]. unfold tsize. apply firstn_all2. now rewrite map_length.
Qed.

(** n . (tangent of the face) = 0 *)
Lemma nrm_orthogonal T : forall f y, is_face T f -> fcod T f = 1%nat ->
  dot (tdim T) (nrm T f) (Lin T f y) = 0.
Proof.
  induction T as [|b IH|b IH]; intros f y Hf Hc; destruct f; cbn [is_face] in Hf; try contradiction;
    cbn [fcod] in Hc; cbn [nrm tdim].
  - discriminate.
  - unfold dot. rewrite rsum_S, nrm_support by lia.
    rewrite (rsum_ext _ _ (fun k => nrm b f k * Lin b f y k)).
    2:{ intros k Hk. rewrite Lin_Side. destruct (Nat.eqb_spec k (tdim b)); [lia|reflexivity]. }
    fold (dot (tdim b) (nrm b f) (Lin b f y)). rewrite IH by assumption. lra.
  - rewrite dot_upd by (auto; reflexivity). rewrite dot_vzero, Lin_Bot, Lin_support by lia. lra.
  - rewrite dot_upd by (auto; reflexivity). rewrite dot_vzero, Lin_Top, Lin_support by lia. lra.
  - rewrite dot_upd by (auto; reflexivity). rewrite dot_vzero, Lin_Base, Lin_support by lia. lra.
  - rewrite dot_upd by (auto; apply nrm_support; lia). rewrite Lin_Cone, Nat.eqb_refl.
    unfold dot at 1. rewrite rsum_S, nrm_support, Rmult_0_l, Rplus_0_r by lia.
    rewrite (rsum_ext _ _ (fun k => nrm b f k * Lin b f y k - y (tdim (ftype b f)) * (nrm b f k * forg b f k))).
    2:{ intros k Hk. rewrite Lin_Cone. destruct (Nat.eqb_spec k (tdim b)); [lia|]. lra. }
    rewrite rsum_minus, rsum_scal. fold (dot (tdim b) (nrm b f) (Lin b f y)).
    fold (dot (tdim b) (nrm b f) (forg b f)). rewrite IH by assumption. lra.
  - rewrite dot_upd by (auto; reflexivity). rewrite dot_vzero. unfold Lin. cbn [ftype tdim rsum]. lra.
Qed.

(** the supporting value of the face *)
Definition hgt (T : Topo) (f : Face) : R := dot (tdim T) (nrm T f) (forg T f).

Lemma hgt_Side b f : hgt (Pri b) (FSide f) = hgt b f.
Proof.
  unfold hgt. cbn [tdim nrm forg]. unfold dot. rewrite rsum_S, (nrm_support b f (tdim b)) by lia. lra.
Qed.
Lemma hgt_Bot b f : hgt (Pri b) (FBot f) = 0.
Proof.
  unfold hgt. cbn [tdim nrm forg]. rewrite dot_upd by (auto; reflexivity).
  rewrite dot_vzero, forg_support by lia. lra.
Qed.
Lemma hgt_Top b f : hgt (Pri b) (FTop f) = 1.
Proof.
  unfold hgt. cbn [tdim nrm forg]. rewrite dot_upd by (auto; reflexivity). rewrite dot_vzero, upd_eq. lra.
Qed.
Lemma hgt_Base b f : hgt (Pyr b) (FBase f) = 0.
Proof.
  unfold hgt. cbn [tdim nrm forg]. rewrite dot_upd by (auto; reflexivity).
  rewrite dot_vzero, forg_support by lia. lra.
Qed.
Lemma hgt_Cone b f : hgt (Pyr b) (FCone f) = hgt b f.
Proof.
  unfold hgt. cbn [tdim nrm forg]. rewrite dot_upd by (auto; apply nrm_support; lia).
  rewrite (forg_support b f (tdim b)) by lia. unfold dot. rewrite rsum_S, (nrm_support b f (tdim b)) by lia. lra.
Qed.
Lemma hgt_Apex b : hgt (Pyr b) FApex = 1.
Proof.
  unfold hgt. cbn [tdim nrm forg]. rewrite dot_upd by (auto; reflexivity). rewrite dot_vzero, upd_eq. lra.
Qed.

Lemma nrm_support_inside T : forall f x a, is_face T f -> fcod T f = 1%nat -> insideT T x a ->
  dot (tdim T) (nrm T f) x <= a * hgt T f.
Proof.
  induction T as [|b IH|b IH]; intros f x a Hf Hc H; destruct f; cbn [is_face] in Hf; try contradiction;
    cbn [fcod] in Hc; cbn [insideT] in H.
  - discriminate.
  - rewrite hgt_Side. cbn [nrm tdim]. unfold dot. rewrite rsum_S, nrm_support by lia.
    specialize (IH f x a Hf Hc (proj2 H)). unfold dot in IH. lra.
  - rewrite hgt_Bot. cbn [nrm tdim]. rewrite dot_upd by (auto; reflexivity). rewrite dot_vzero. lra.
  - rewrite hgt_Top. cbn [nrm tdim]. rewrite dot_upd by (auto; reflexivity). rewrite dot_vzero. lra.
  - rewrite hgt_Base. cbn [nrm tdim]. rewrite dot_upd by (auto; reflexivity). rewrite dot_vzero. lra.
  - rewrite hgt_Cone. cbn [nrm tdim]. rewrite dot_upd by (auto; apply nrm_support; lia).
    unfold dot at 1. rewrite rsum_S, nrm_support, Rmult_0_l, Rplus_0_r by lia.
    specialize (IH f x _ Hf Hc (proj2 H)). unfold dot in IH at 1.
    fold (hgt b f). lra.
  - rewrite hgt_Apex. cbn [nrm tdim]. rewrite dot_upd by (auto; reflexivity). rewrite dot_vzero. lra.
Qed.

Lemma dot_plus_r n v w w' : dot n v (fun k => w k + w' k) = dot n v w + dot n v w'.
Proof. unfold dot. rewrite <- rsum_plus. apply rsum_ext. intros; lra. Qed.

(** points of the face lie on the supporting plane *)
Lemma nrm_face T f y : is_face T f -> fcod T f = 1%nat ->
  dot (tdim T) (nrm T f) (Emb T f y) = hgt T f.
Proof.
  intros Hf Hc. unfold Emb, emb_global. cbn [fst snd fpair]. rewrite dot_plus_r.
  fold (Lin T f y). rewrite nrm_orthogonal by assumption. unfold hgt. lra.
Qed.

(** the face is not the whole supporting set: a strictly interior point *)
Lemma nrm_nonzero T : forall f, is_face T f -> fcod T f = 1%nat ->
  exists k, (k < tdim T)%nat /\ nrm T f k <> 0.
Proof.
  induction T as [|b IH|b IH]; intros f Hf Hc; destruct f; cbn [is_face] in Hf; try contradiction;
    cbn [fcod] in Hc; cbn [nrm tdim]; try discriminate.
  - destruct (IH f Hf Hc) as (k & H1 & H2). exists k. split; [lia|assumption].
  - exists (tdim b). rewrite upd_eq. split; [lia|lra].
  - exists (tdim b). rewrite upd_eq. split; [lia|lra].
  - exists (tdim b). rewrite upd_eq. split; [lia|lra].
  - destruct (IH f Hf Hc) as (k & H1 & H2). exists k. rewrite upd_ne by lia. split; [lia|assumption].
  - exists (tdim b). rewrite upd_eq. split; [lia|lra].
Qed.

(** the mean of the corners is strictly below every facet *)
Lemma nrm_mean_strict T f : is_face T f -> fcod T f = 1%nat ->
  dot (tdim T) (nrm T f) (meanT T) < hgt T f.
Proof.
  revert f. induction T as [|b IH|b IH]; intros f Hf Hc; destruct f; cbn [is_face] in Hf; try contradiction;
    cbn [fcod] in Hc; try discriminate.
  all: set (n := INR (length (verts b))); assert (Q : 0 < n) by (apply lt_0_INR, verts_length_pos).
  1-3: assert (M : forall k, (k < tdim b)%nat -> meanT (Pri b) k = meanT b k)
    by (intros k Hk; unfold meanT; rewrite verts_Pri, lsum_app, !lsum_map, app_length, !map_length, plus_INR;
        cbn [forg]; rewrite (lsum_ext (fun a => upd _ _ _ _) (fun v => forg b v k)) by (intros; now rewrite upd_ne by lia);
        fold n; field; lra).
  1-3: assert (MD : meanT (Pri b) (tdim b) = 1 / 2)
    by (unfold meanT; rewrite verts_Pri, lsum_app, !lsum_map, app_length, !map_length, plus_INR; cbn [forg];
        rewrite lsum_0 by (intros; apply forg_support; lia);
        rewrite (lsum_ext _ (fun _ => 1)) by (intros; apply upd_eq); rewrite lsum_const; fold n; field; lra).
  4-6: assert (M : forall k, (k < tdim b)%nat -> meanT (Pyr b) k = n / (n + 1) * meanT b k)
    by (intros k Hk; unfold meanT; rewrite verts_Pyr, lsum_app, lsum_map, app_length, map_length, plus_INR;
        cbn [forg lsum fold_right length INR]; rewrite upd_ne by lia; unfold vzero, lsum;
        fold n; field; lra).
  4-6: assert (MD : meanT (Pyr b) (tdim b) = 1 / (n + 1))
    by (unfold meanT; rewrite verts_Pyr, lsum_app, lsum_map, app_length, map_length, plus_INR; cbn [forg];
        rewrite lsum_0 by (intros; apply forg_support; lia);
        cbn [lsum fold_right length INR]; rewrite upd_eq; fold n; field; lra).
  4-6: assert (P1 : 0 < 1 / (n + 1) < 1)
    by (split; [apply Rdiv_lt_0_compat; lra|apply (Rmult_lt_reg_r (n + 1)); [lra|]; unfold Rdiv; rewrite Rmult_assoc, Rinv_l by lra; lra]).
  - rewrite hgt_Side. cbn [nrm tdim]. unfold dot. rewrite rsum_S, nrm_support by lia.
    rewrite (rsum_ext _ _ (fun k => nrm b f k * meanT b k)) by (intros; now rewrite M).
    specialize (IH f Hf Hc). unfold dot in IH. lra.
  - rewrite hgt_Bot. cbn [nrm tdim]. rewrite dot_upd by (auto; reflexivity). rewrite dot_vzero, MD. lra.
  - rewrite hgt_Top. cbn [nrm tdim]. rewrite dot_upd by (auto; reflexivity). rewrite dot_vzero, MD. lra.
  - rewrite hgt_Base. cbn [nrm tdim]. rewrite dot_upd by (auto; reflexivity). rewrite dot_vzero, MD. lra.
  - rewrite hgt_Cone. cbn [nrm tdim]. rewrite dot_upd by (auto; apply nrm_support; lia).
    unfold dot at 1. rewrite rsum_S, nrm_support, Rmult_0_l, Rplus_0_r by lia.
    rewrite (rsum_ext _ _ (fun k => n / (n + 1) * (nrm b f k * meanT b k))) by (intros; rewrite M by assumption; lra).
    rewrite rsum_scal, MD. specialize (IH f Hf Hc). unfold dot in IH at 1. fold (hgt b f).
    set (s := rsum _ _) in *. set (h := hgt b f) in *.
    replace (n / (n + 1)) with (1 - 1 / (n + 1)) by (field; lra).
    set (u := 1 / (n + 1)) in *.
    assert ((1 - u) * s < (1 - u) * h) by (apply Rmult_lt_compat_l; lra). lra.
  - rewrite hgt_Apex. cbn [nrm tdim]. rewrite dot_upd by (auto; reflexivity). rewrite dot_vzero, MD. lra.
Qed.

(** ** Volumes *)

Fixpoint tvolinv (T : Topo) : N :=
  match T with
  | Pt => 1
  | Pri b => tvolinv b
  | Pyr b => N.of_nat (S (tdim b)) * tvolinv b
  end%N.
Definition tvol (T : Topo) : R := / IZR (Z.of_N (tvolinv T)).

Lemma tvolinv_pos T : (0 < tvolinv T)%N.
Proof. induction T; cbn [tvolinv]; lia. Qed.
Lemma tvolinv_IZR_pos T : 0 < IZR (Z.of_N (tvolinv T)).
Proof. apply IZR_lt. pose proof (tvolinv_pos T). lia. Qed.
Lemma tvol_pos T : 0 < tvol T.
Proof. apply Rinv_0_lt_compat, tvolinv_IZR_pos. Qed.
Lemma tvol_Pri b : tvol (Pri b) = tvol b. Proof. reflexivity. Qed.
Lemma tvol_Pyr b : tvol (Pyr b) = tvol b / INR (S (tdim b)).
Proof.
  unfold tvol. cbn [tvolinv]. rewrite N2Z.inj_mul, mult_IZR, nat_N_Z, <- INR_IZR_INZ.
  pose proof (tvolinv_IZR_pos b). assert (0 < INR (S (tdim b))) by (apply lt_0_INR; lia).
  rewrite Rinv_mult. unfold Rdiv. lra.
Qed.

(** the divergence theorem for x |-> x *)
Lemma hgt_vol T : (1 <= tdim T)%nat ->
  lsum (fun f => hgt T f * tvol (ftype T f)) (faces T 1) = INR (tdim T) * tvol T.
Proof.
  induction T as [|b IH|b IH]; cbn [tdim]; intros H; [lia| |].
  - cbn [faces]. rewrite faces_0. cbn [map app]. rewrite lsum_app, lsum_map.
    cbn [lsum fold_right ftype]. rewrite hgt_Bot, hgt_Top.
    rewrite (proj2 (proj2 (whole_face b))), tvol_Pri, S_INR.
    rewrite (lsum_ext _ (fun f => hgt b f * tvol (ftype b f))) by (intros; now rewrite hgt_Side, tvol_Pri).
    destruct (Nat.eq_dec (tdim b) 0) as [E|E].
    + rewrite faces_big by lia. rewrite E. cbn. lra.
    + rewrite IH by lia. lra.
  - cbn [faces]. rewrite faces_0. cbn [map app]. rewrite lsum_cons, lsum_app, lsum_map, hgt_Base.
    destruct (Nat.eq_dec (tdim b) 0) as [E|E].
    + rewrite faces_big by lia. rewrite E. cbn [Nat.eqb lsum fold_right]. rewrite hgt_Apex.
      assert (b = Pt) as -> by (destruct b; cbn in E; try lia; reflexivity).
      cbn [ftype]. rewrite tvol_Pyr. cbn [tdim INR]. unfold tvol. simpl. lra.
    + destruct (Nat.eqb_spec 1 (S (tdim b))); [lia|]. cbn [lsum fold_right].
      rewrite (lsum_ext _ (fun f => / INR (tdim b) * (hgt b f * tvol (ftype b f)))).
      2:{ intros f Hf. apply in_faces in Hf. destruct Hf as [F1 F2]. rewrite hgt_Cone. cbn [ftype].
          rewrite tvol_Pyr, tdim_ftype, F2 by assumption. replace (S (tdim b - 1)) with (tdim b) by lia.
          unfold Rdiv. lra. }
      rewrite lsum_scal, IH by lia. rewrite tvol_Pyr.
      assert (0 < INR (tdim b)) by (apply lt_0_INR; lia).
      assert (0 < INR (S (tdim b))) by (apply lt_0_INR; lia). cbn [lsum fold_right]. field. lra.
Qed.

Lemma nrm_close T : (1 <= tdim T)%nat -> forall k,
  lsum (fun f => tvol (ftype T f) * nrm T f k) (faces T 1) = 0.
Proof.
  induction T as [|b IH|b IH]; cbn [tdim]; intros H k; [lia| |].
  - cbn [faces]. rewrite faces_0. cbn [map app]. rewrite lsum_app, lsum_map.
    cbn [lsum fold_right ftype nrm]. rewrite (proj2 (proj2 (whole_face b))).
    rewrite (lsum_ext _ (fun f => tvol (ftype b f) * nrm b f k)) by (intros; now rewrite tvol_Pri).
    assert (Z : lsum (fun f => tvol (ftype b f) * nrm b f k) (faces b 1) = 0).
    { destruct (Nat.eq_dec (tdim b) 0); [now rewrite faces_big by lia|apply IH; lia]. }
    rewrite Z. unfold upd, vzero. destruct (k =? tdim b)%nat; lra.
  - cbn [faces]. rewrite faces_0. cbn [map app]. rewrite lsum_cons, lsum_app, lsum_map.
    cbn [ftype nrm]. rewrite (proj2 (proj2 (whole_face b))).
    destruct (Nat.eq_dec (tdim b) 0) as [E|E].
    + rewrite faces_big by lia. rewrite E. cbn [Nat.eqb lsum fold_right ftype nrm].
      assert (b = Pt) as -> by (destruct b; cbn in E; try lia; reflexivity).
      unfold upd, vzero. destruct (k =? _)%nat; lra.
    + destruct (Nat.eqb_spec 1 (S (tdim b))); [lia|].
      assert (0 < INR (tdim b)) by (apply lt_0_INR; lia).
      assert (TV : forall f, In f (faces b 1) -> tvol (Pyr (ftype b f)) = / INR (tdim b) * tvol (ftype b f)).
      { intros f Hf. apply in_faces in Hf. destruct Hf as [F1 F2].
        rewrite tvol_Pyr, tdim_ftype, F2 by assumption. replace (S (tdim b - 1)) with (tdim b) by lia.
        unfold Rdiv. lra. }
      destruct (Nat.eq_dec k (tdim b)) as [->|Ek].
      * rewrite upd_eq.
        rewrite (lsum_ext _ (fun f => / INR (tdim b) * (hgt b f * tvol (ftype b f)))).
        2:{ intros f Hf. rewrite upd_eq, TV by assumption. fold (hgt b f). lra. }
        rewrite lsum_scal, hgt_vol by lia. cbn [lsum fold_right]. field. lra.
      * rewrite upd_ne by assumption. unfold vzero at 1.
        rewrite (lsum_ext _ (fun f => / INR (tdim b) * (tvol (ftype b f) * nrm b f k))).
        2:{ intros f Hf. rewrite upd_ne, TV by assumption. lra. }
        rewrite lsum_scal, IH by lia. cbn [lsum fold_right]. lra.
Qed.
