(** Index-level access to the geometric data of the reference elements. *)
From Coq Require Import NArith PeanoNat Bool List Lia Reals Lra FunctionalExtensionality.
From Verif Require Import M_Type M_RefTopo M_RefGeo P_Type P_Type2 S_Topo P_Topo P_RefTopo P_RefTopo2 P_RefTopo3 P_RSum P_RefGeo P_RefGeo2 P_RefGeo3 S_RefGeo P_RefVol P_Det P_RefDet.
Import ListNotations.
Local Open Scope R_scope.

Lemma corners_length id dim : length (referenceCorners id dim) = length (verts (topo_of id dim)).
Proof. rewrite referenceCorners_spec, map_length. unfold verts. now rewrite tdim_topo_of. Qed.

Lemma corners_verts id dim : referenceCorners id dim = map (forg (topo_of id dim)) (verts (topo_of id dim)).
Proof. rewrite referenceCorners_spec. unfold verts. now rewrite tdim_topo_of. Qed.

Lemma corner_nth id dim i x : nth_error (referenceCorners id dim) i = Some x ->
  exists v, vertexF (topo_of id dim) v /\ fidx (topo_of id dim) v = i /\ x = forg (topo_of id dim) v
    /\ v = nth i (verts (topo_of id dim)) FPt /\ (i < length (verts (topo_of id dim)))%nat.
Proof.
  rewrite corners_verts, nth_error_map. destruct (nth_error _ i) as [v|] eqn:E; [|discriminate].
  cbn [option_map]. intros H. injection H as <-. exists v.
  assert (L : (i < length (verts (topo_of id dim)))%nat) by (apply nth_error_Some; congruence).
  pose proof (nth_face _ _ _ _ E) as (F1 & F2 & F3).
  repeat split; auto. symmetry. now apply nth_error_nth.
Qed.

(** everything the code computes for subentity (i,c) *)
Lemma sub_data id dim c i : (id < bit dim)%N -> (c <= dim)%nat -> (i < size id dim c)%nat ->
  exists f, is_face (topo_of id dim) f /\ fcod (topo_of id dim) f = c /\ fidx (topo_of id dim) f = i
    /\ re_geometry id dim c i = Some (fpair (topo_of id dim) f)
    /\ topo_of (subTopologyId id dim c i) (dim - c) = ftype (topo_of id dim) f
    /\ (subTopologyId id dim c i < bit (dim - c))%N
    /\ tdim (ftype (topo_of id dim) f) = (dim - c)%nat.
Proof.
  intros Hid Hc Hi. rewrite size_tsize in Hi by assumption.
  destruct (nth_face_ex _ _ _ Hi) as (f & E & Hf & Ec & Ei).
  exists f. repeat split; auto.
  - unfold re_geometry. rewrite referenceEmbeddings_spec, nth_error_map, E by assumption. reflexivity.
  - rewrite <- Ec, <- Ei. now apply subTopologyId_spec.
  - rewrite <- Ec, <- Ei. now apply subTopologyId_spec.
  - now rewrite tdim_ftype, Ec, tdim_topo_of.
Qed.

Lemma normal_nth id dim i n : (1 <= dim)%nat -> nth_error (referenceIntegrationOuterNormals id dim) i = Some n ->
  exists f, is_face (topo_of id dim) f /\ fcod (topo_of id dim) f = 1%nat /\ fidx (topo_of id dim) f = i
    /\ n = nrm (topo_of id dim) f /\ re_geometry id dim 1 i = Some (fpair (topo_of id dim) f).
Proof.
  intros Hd. rewrite referenceIntegrationOuterNormals_spec, nth_error_map by assumption.
  destruct (nth_error _ i) as [f|] eqn:E; [|discriminate]. cbn [option_map]. intros H. injection H as <-.
  destruct (nth_face _ _ _ _ E) as (F1 & F2 & F3). exists f. repeat split; auto.
  unfold re_geometry. now rewrite referenceEmbeddings_spec, nth_error_map, E.
Qed.

Lemma emb_global_Emb id dim c f y : tdim (ftype (topo_of id dim) f) = (dim - c)%nat ->
  emb_global (dim - c) (fpair (topo_of id dim) f) y = Emb (topo_of id dim) f y.
Proof. intros <-. reflexivity. Qed.

Lemma re_infos_ok id dim r : (id < bit dim)%N -> re_infos id dim = Some r -> re_ok id dim r.
Proof.
  intros Hid Hr. destruct (re_infos_spec id dim Hid) as (r' & E & OK). rewrite Hr in E. injection E as <-. exact OK.
Qed.

Lemma balanced_bits id d : balanced (topo_of id d) <->
  forall j k, (1 <= j < k)%nat -> (k < d)%nat ->
    N.testbit id (N.of_nat k) = false -> N.testbit id (N.of_nat j) = false.
Proof.
  induction d as [|d IH].
  - cbn. split; [intros _ j k ? ?; lia|auto].
  - cbn [topo_of]. destruct (N.testbit id (N.of_nat d)) eqn:E.
    + assert (G : (forall j k, (1 <= j < k)%nat -> (k < d)%nat ->
        N.testbit id (N.of_nat k) = false -> N.testbit id (N.of_nat j) = false)
        <-> (forall j k, (1 <= j < k)%nat -> (k < S d)%nat ->
        N.testbit id (N.of_nat k) = false -> N.testbit id (N.of_nat j) = false)).
      { split; intros H j k Hj Hk B.
        - destruct (Nat.eq_dec k d) as [->|N]; [congruence|]. apply (H j k); auto. lia.
        - apply (H j k); auto; lia. }
      cbn [balanced]. rewrite IH. exact G.
    + cbn [balanced]. rewrite simT_topo. split.
      * intros H j k Hj Hk B. apply H. lia.
      * intros H j Hj. apply (H j d); auto; lia.
Qed.

(** the code's 32 bit arithmetic is wrong as soon as the base value does not fit *)
Lemma referenceVolumeInverse_big dim id : (dim < 256)%nat ->
  (2 ^ 32 <= tvolinv (topo_of id (pred dim)))%N ->
  (referenceVolumeInverse id dim < tvolinv (topo_of id dim))%N.
Proof.
  intros Hd H. destruct dim as [|d]; [vm_compute in H; congruence|]. cbn [pred] in H.
  cbn [referenceVolumeInverse].
  set (v := N.modulo (referenceVolumeInverse _ d) (2 ^ 32)).
  assert (V : (v < 2 ^ 32)%N) by (apply N.mod_lt; discriminate).
  destruct (topo_cases id d) as [[P ->]|[[P ->]|(P & -> & E)]]; [| |subst d; vm_compute in H; congruence];
    rewrite P; cbn [tvolinv].
  - lia.
  - eapply N.le_lt_trans; [apply N.mod_le; discriminate|]. rewrite tdim_topo_of, N.mul_comm.
    apply N.mul_lt_mono_pos_l; lia.
Qed.

Lemma referenceVolume_iff id dim : (dim < 256)%nat ->
  referenceVolume id dim = volumeT (topo_of id dim) <-> / 2 ^ 32 < volumeT (topo_of id (pred dim)).
Proof.
  intros Hd. rewrite !volumeT_tvol.
  assert (P32 : 2 ^ 32 = IZR (Z.of_N (2 ^ 32))) by (rewrite pow_IZR; reflexivity).
  assert (C : / 2 ^ 32 < tvol (topo_of id (pred dim)) <-> (tvolinv (topo_of id (pred dim)) < 2 ^ 32)%N).
  { unfold tvol. pose proof (tvolinv_IZR_pos (topo_of id (pred dim))) as P.
    assert (P2 : 0 < 2 ^ 32) by lra. rewrite P32 in *. split; intros H.
    - apply Rinv_lt_contravar in H; [|apply Rmult_lt_0_compat; now apply Rinv_0_lt_compat].
      rewrite !Rinv_inv in H. apply lt_IZR in H. lia.
    - apply Rinv_lt_contravar; [now apply Rmult_lt_0_compat|]. apply IZR_lt. lia. }
  rewrite C. split; intros H.
  - destruct (N.lt_ge_cases (tvolinv (topo_of id (pred dim))) (2 ^ 32)) as [L|G]; [assumption|exfalso].
    pose proof (referenceVolumeInverse_big dim id Hd G) as B.
    unfold referenceVolume, tvol in H.
    assert (E : IZR (Z.of_N (referenceVolumeInverse id dim)) = IZR (Z.of_N (tvolinv (topo_of id dim)))).
    { unfold Rdiv in H. rewrite Rmult_1_l in H. apply (f_equal Rinv) in H. now rewrite !Rinv_inv in H. }
    apply eq_IZR in E. lia.
  - unfold referenceVolume, tvol. rewrite referenceVolumeInverse_spec by assumption. unfold Rdiv. lra.
Qed.

Lemma normals_close id dim k : (id < bit dim)%N -> (1 <= dim)%nat ->
  Ssum (size id dim 1) (fun i => volumeT (topo_of (subTopologyId id dim 1 i) (dim - 1))
                                 * nth i (referenceIntegrationOuterNormals id dim) vzero k) = 0.
Proof.
  intros Hid Hd. rewrite Ssum_rsum. set (T := topo_of id dim).
  rewrite <- (nrm_close T) with (k := k); [|unfold T; rewrite tdim_topo_of; lia].
  rewrite (lsum_nth _ (faces T 1) FPt). rewrite size_tsize by lia. fold T. fold (tsize T 1).
  apply rsum_ext. intros i Hi.
  destruct (sub_data id dim 1 i Hid Hd) as (f & Hf & Ec & Ei & _ & U & _);
    [rewrite size_tsize by lia; exact Hi|]. fold T in Hf, Ec, Ei, U.
  rewrite U, volumeT_tvol, referenceIntegrationOuterNormals_spec by assumption. fold T.
  pose proof (fidx_nth T f Hf) as F. rewrite Ec, Ei in F.
  rewrite (nth_error_nth _ _ _ (map_nth_error (nrm T) _ _ F)).
  rewrite (nth_error_nth _ _ _ F). reflexivity.
Qed.

Lemma Emb_whole T y k : (k < tdim T)%nat -> Emb T (whole T) y k = y k.
Proof.
  intros H. rewrite Emb_Lin, forg_whole. unfold Lin, vzero. rewrite tdim_ftype_whole, fjt_whole.
  rewrite (rsum_ext _ _ (fun j => if Nat.eqb j k then y j else 0)).
  - rewrite (rsum_delta _ k y) by assumption. lra.
  - intros j Hj. unfold midentity. destruct (Nat.eqb_spec j k); [|simpl; lra].
    destruct (Nat.ltb_spec j (tdim T)); [simpl; lra|lia].
Qed.
