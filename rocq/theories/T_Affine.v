(** Property theorems C27 - C29: AffineGeometry and AxisAlignedCubeGeometry. *)
From Coq Require Import PeanoNat NArith Lia Bool List Reals Lra FunctionalExtensionality.
From Verif Require Import M_Type M_RefTopo M_RefGeo M_Matrix M_Affine S_Topo S_RefGeo S_Matrix P_Type P_Type2 P_Topo P_RefTopo P_RefTopo2 P_RefTopo3 P_RSum
  P_RefGeo P_RefGeo2 P_RefGeo3 P_RefGeo4 P_RefVol P_Det P_RefDet P_MxBridge P_Matrix P_Matrix2 P_Matrix3 P_Matrix4 P_Matrix5 P_Affine P_AACube T_RefGeo T_Matrix.
Import ListNotations.
Local Open Scope R_scope.

(** ** C27 global / local round trip *)

(** the constructor succeeds for every full rank Jacobian, whatever the uninitialised buffers hold *)
Theorem C27_construction :
  forall mydim cdim id r o jt ret j1 j2, (mydim <= cdim)%nat -> row_independent mydim cdim jt ->
    exists g, affine_from_jacobian mydim cdim id r o jt ret j1 j2 = Some g.
Proof.
  intros mydim cdim id r o jt ret j1 j2 Hm Hr.
  destruct (affine_from_jacobian_ok mydim cdim id r o jt ret j1 j2 Hm Hr) as (g & E & _). eauto.
Qed.
Print Assumptions C27_construction.

(** global is the affine map with the given origin and transposed Jacobian *)
Theorem C27_global_affine :
  forall mydim cdim id r o jt ret j1 j2 g, (mydim <= cdim)%nat -> row_independent mydim cdim jt ->
    affine_from_jacobian mydim cdim id r o jt ret j1 j2 = Some g ->
    (forall x k, ag_global mydim g x k = o k + mvec mydim (mtr jt) x k) /\
    (forall x k, ag_jacobianTransposed g x = jt /\ ag_jacobian g x = mtr jt /\
       ag_global mydim g (fun _ => 0) k = o k).
Proof.
  intros mydim cdim id r o jt ret j1 j2 g Hm Hr E.
  destruct (affine_from_jacobian_inv _ _ _ _ _ _ _ _ _ g Hm Hr E) as (_ & _ & EO & EJ & _).
  split.
  - intros x k. unfold ag_global, mvec, mtr. now rewrite EO, EJ.
  - intros x k. unfold ag_jacobianTransposed, ag_jacobian, ag_global, mtr. rewrite EO, EJ. repeat split.
    rewrite rsum_0; [ring|]. intros; ring.
Qed.
Print Assumptions C27_global_affine.

Theorem C27_local_global :
  forall mydim cdim id r o jt ret j1 j2 g x, (mydim <= cdim)%nat -> row_independent mydim cdim jt ->
    affine_from_jacobian mydim cdim id r o jt ret j1 j2 = Some g ->
    veq mydim (ag_local cdim g (ag_global mydim g x)) x.
Proof.
  intros mydim cdim id r o jt ret j1 j2 g x Hm Hr E j Hj.
  destruct (affine_from_jacobian_inv _ _ _ _ _ _ _ _ _ g Hm Hr E) as (_ & _ & _ & _ & OK).
  now apply (ag_local_global mydim cdim).
Qed.
Print Assumptions C27_local_global.

Theorem C27_global_local_square :
  forall n id r o jt ret j1 j2 g y, row_independent n n jt ->
    affine_from_jacobian n n id r o jt ret j1 j2 = Some g ->
    veq n (ag_global n g (ag_local n g y)) y.
Proof.
  intros n id r o jt ret j1 j2 g y Hr E k Hk.
  destruct (affine_from_jacobian_inv _ _ _ _ _ _ _ _ _ g (le_n n) Hr E) as (_ & _ & _ & _ & OK).
  now apply ag_global_local.
Qed.
Print Assumptions C27_global_local_square.

(** otherwise the orthogonal projection: the residual is orthogonal to the image plane,
    and the projected point is the unique closest point of the image *)
Theorem C27_global_local_projection :
  forall mydim cdim id r o jt ret j1 j2 g y, (mydim <= cdim)%nat -> row_independent mydim cdim jt ->
    affine_from_jacobian mydim cdim id r o jt ret j1 j2 = Some g ->
    let p := ag_global mydim g (ag_local cdim g y) in
    (forall x x', rsum cdim (fun k => (ag_global mydim g x k - ag_global mydim g x' k) * (y k - p k)) = 0) /\
    (forall z, rsum cdim (fun k => (p k - y k) * (p k - y k))
               <= rsum cdim (fun k => (ag_global mydim g z k - y k) * (ag_global mydim g z k - y k))) /\
    (forall z, rsum cdim (fun k => (ag_global mydim g z k - y k) * (ag_global mydim g z k - y k))
               <= rsum cdim (fun k => (p k - y k) * (p k - y k)) -> veq cdim (ag_global mydim g z) p).
Proof.
  intros mydim cdim id r o jt ret j1 j2 g y Hm Hr E p.
  destruct (affine_from_jacobian_inv _ _ _ _ _ _ _ _ _ g Hm Hr E) as (_ & _ & _ & _ & OK).
  assert (ORT : forall x x', rsum cdim (fun k => (ag_global mydim g x k - ag_global mydim g x' k) * (y k - p k)) = 0).
  { intros x x'. rewrite (rsum_ext cdim _ (fun k => rsum mydim (fun i => (x i - x' i) * (ag_jt g i k * (y k - p k))))).
    - rewrite rsum_swap. apply rsum_0. intros i Hi. rewrite rsum_scal.
      assert (Q := ag_orthogonal mydim cdim g y i OK Hi). fold p in Q. rewrite Q. ring.
    - intros k Hk. unfold ag_global.
      replace (_ - _) with (rsum mydim (fun i => (x i - x' i) * ag_jt g i k)).
      + rewrite <- rsum_scal_r. apply rsum_ext. intros; ring.
      + rewrite (rsum_ext mydim _ (fun i => ag_jt g i k * x i - ag_jt g i k * x' i)) by (intros; ring).
        rewrite rsum_minus. ring. }
  split; [exact ORT|]. split; [intro z; now apply ag_minimal|].
  intros z Hz k Hk.
  assert (S : rsum cdim (fun k => (ag_global mydim g z k - p k) * (ag_global mydim g z k - p k)) <= 0).
  { assert (Q := ORT z (ag_local cdim g y)). fold p in Q.
    assert (D : rsum cdim (fun k => (ag_global mydim g z k - y k) * (ag_global mydim g z k - y k))
       = rsum cdim (fun k => (p k - y k) * (p k - y k)) + rsum cdim (fun k => (ag_global mydim g z k - p k) * (ag_global mydim g z k - p k))
         - 2 * rsum cdim (fun k => (ag_global mydim g z k - p k) * (y k - p k))).
    { rewrite <- rsum_scal, <- rsum_plus, <- rsum_minus. apply rsum_ext. intros; ring. }
    rewrite Q in D. lra. }
  assert (Z := rsum_sq_0 cdim (fun k => ag_global mydim g z k - p k)). cbv beta in Z.
  apply Rminus_diag_uniq. apply Z; [|assumption].
  apply Rle_antisym; [exact S|]. apply rsum_nonneg. intros; apply Rle_0_sqr.
Qed.
Print Assumptions C27_global_local_projection.

(** jacobianInverse is a left inverse of the Jacobian, and the Moore-Penrose inverse *)
Theorem C27_jacobian_inverse :
  forall mydim cdim id r o jt ret j1 j2 g x, (mydim <= cdim)%nat -> row_independent mydim cdim jt ->
    affine_from_jacobian mydim cdim id r o jt ret j1 j2 = Some g ->
    meq mydim mydim (mmul cdim (ag_jacobianInverse g x) (ag_jacobian g x)) mone /\
    moore_penrose mydim cdim (ag_jacobianTransposed g x) (ag_jacobianInverseTransposed g x) /\
    0 < ag_integrationElement g x /\
    ag_integrationElement g x * ag_integrationElement g x = detR mydim (mmul cdim jt (mtr jt)).
Proof.
  intros mydim cdim id r o jt ret j1 j2 g x Hm Hr E.
  destruct (affine_from_jacobian_inv _ _ _ _ _ _ _ _ _ g Hm Hr E) as (_ & _ & _ & EJ & OK).
  split; [|split; [|split]].
  - intros i j Hi Hj. assert (Q := ao_inv _ _ _ OK j i Hj Hi). unfold mmul, ag_jacobianInverse, ag_jacobian in *.
    rewrite (rsum_ext cdim _ (fun k => ag_jt g j k * ag_jit g k i)) by (intros; ring). rewrite Q. unfold mone.
    now rewrite Nat.eqb_sym.
  - unfold affine_from_jacobian in E. destruct (C25_right_moore_penrose mydim cdim jt ret j1 j2 Hm Hr) as (d & X & E' & MP).
    rewrite E' in E. cbn [obind] in E. injection E as <-. exact MP.
  - exact (ao_pos _ _ _ OK).
  - rewrite <- EJ. exact (ao_sq _ _ _ OK).
Qed.
Print Assumptions C27_jacobian_inverse.

(** a segment of length 5 in the plane: the point (7, -1) projects to parameter 17/25 *)
Example C27_example : exists g, affine_from_jacobian 1 2 0 [] (fun _ => 0) row34 (fun _ _ => 7) (fun _ _ => 8) (fun _ _ => 9) = Some g /\
  ag_integrationElement g (fun _ => 0) = 5 /\ ag_local 2 g (fun k => match k with 0%nat => 7 | _ => -1 end) 0%nat = 17 / 25.
Proof.
  destruct C25_example as (d & X & E & X0 & X1 & D). unfold affine_from_jacobian. rewrite E. cbn [obind].
  eexists. split; [reflexivity|]. split; [exact D|]. unfold ag_local, mtv. cbn -[Rmult Rplus]. rewrite X0, X1. lra.
Qed.

(** ** C28 corners, centre, volume *)

(** construction from corner coordinates: success whenever the edges are independent *)
Theorem C28_construction :
  forall mydim cdim id r coords junk ret j1 j2, (mydim <= cdim)%nat -> (mydim < length coords)%nat ->
    (forall w : Vec, (forall k, (k < cdim)%nat -> rsum mydim (fun i => w i * (nth (S i) coords vzero k - nth 0 coords vzero k)) = 0) ->
        forall i, (i < mydim)%nat -> w i = 0) ->
    exists g, affine_from_corners mydim cdim id r coords junk ret j1 j2 = Some g.
Proof.
  intros mydim cdim id r coords junk ret j1 j2 Hm Hl Hi. unfold affine_from_corners.
  destruct coords as [|o coords]; [simpl in Hl; lia|]. cbn [nth_error obind].
  destruct (corner_rows_ok (o :: coords) o junk mydim Hl) as [jt E]. rewrite E. cbn [obind].
  assert (C := corner_rows_spec _ _ _ _ _ E).
  apply C27_construction; [assumption|]. intros w Hw. apply Hi. intros k Hk. rewrite <- (Hw k Hk).
  unfold mvec, mtr. apply rsum_ext. intros i Hi'. destruct (C i Hi') as (c & Ec & Hc).
  rewrite Hc, (nth_error_nth _ _ vzero Ec). simpl. ring.
Qed.
Print Assumptions C28_construction.

Lemma corners_inv mydim cdim id r coords junk ret j1 j2 g : affine_from_corners mydim cdim id r coords junk ret j1 j2 = Some g ->
  exists o, nth_error coords 0 = Some o /\ ag_id g = id /\ ag_ref g = r /\ ag_origin g = o /\
    forall i, (i < mydim)%nat -> exists c, nth_error coords (S i) = Some c /\ forall k, ag_jt g i k = c k - o k.
Proof.
  unfold affine_from_corners. destruct (nth_error coords 0) as [o|]; [|discriminate]. cbn [obind].
  destruct (corner_rows mydim coords o junk) as [jt|] eqn:E; [|discriminate]. cbn [obind].
  unfold affine_from_jacobian. destruct (rightInvA mydim cdim jt ret j1 j2) as [[d X]|]; [|discriminate]. cbn [obind].
  intro H. injection H as <-. exists o. cbn. repeat split; auto. now apply (corner_rows_spec coords o junk).
Qed.

(** corner i of a simplex is coordinate vector i *)
Theorem C28_simplex_corners :
  forall mydim cdim id r coords junk ret j1 j2 g i, (id < 2 ^ N.of_nat mydim)%N -> isSimplex (GT2 id mydim) = true ->
    affine_from_corners mydim cdim id r coords junk ret j1 j2 = Some g -> (i <= mydim)%nat ->
    exists c p, nth_error coords i = Some c /\ ag_corner mydim g i = Some p /\ forall k, p k = c k.
Proof.
  intros mydim cdim id r coords junk ret j1 j2 g i Hid Hs E Hi.
  destruct (corners_inv _ _ _ _ _ _ _ _ _ _ E) as (o & Eo & EI & ER & EO & EJ).
  unfold ag_corner. rewrite EI, ER. unfold re_position. rewrite Nat.eqb_refl.
  assert (L : (i < length (referenceCorners id mydim))%nat).
  { rewrite C16_corner_count, size_tsize by lia. assert (Q := Hs). rewrite <- bit_pow in Hid. apply isSimplex_simT in Q; auto.
    assert (V := simT_verts_length _ Q). unfold verts in V. rewrite !tdim_topo_of in V. unfold tsize. lia. }
  destruct (nth_error (referenceCorners id mydim) i) as [x|] eqn:Ex; [|apply nth_error_None in Ex; lia].
  assert (X := C16_simplex_corners id mydim i x Hid Hs Ex). cbn [obind].
  destruct i as [|i].
  - exists o. eexists. split; [assumption|]. split; [reflexivity|]. intro k. unfold ag_global. rewrite EO, rsum_0; [ring|].
    intros j Hj. rewrite X. simpl. ring.
  - destruct (EJ i ltac:(lia)) as (c & Ec & Hc). exists c. eexists. split; [assumption|]. split; [reflexivity|].
    intro k. unfold ag_global. rewrite EO, (rsum_ext mydim _ (fun j => if Nat.eqb j i then ag_jt g j k else 0)).
    + rewrite (rsum_delta mydim i (fun j => ag_jt g j k)) by lia. rewrite Hc. ring.
    + intros j Hj. rewrite X. cbn [Nat.eqb]. rewrite Nat.eqb_sym. destruct (Nat.eqb j i); ring.
Qed.
Print Assumptions C28_simplex_corners.

(** corner(i) = global of the i-th reference corner, for every reference element *)
Theorem C28_corner :
  forall mydim g i, ag_corners mydim g = length (referenceCorners (ag_id g) mydim) /\
    ag_corner mydim g i = option_map (ag_global mydim g) (nth_error (referenceCorners (ag_id g) mydim) i).
Proof.
  intros mydim g i. split; [symmetry; apply C16_corner_count|]. unfold ag_corner, re_position. rewrite Nat.eqb_refl.
  now destruct (nth_error _ i).
Qed.
Print Assumptions C28_corner.

(** center() is the mean of the corners *)
Theorem C28_center :
  forall mydim g, (ag_id g < 2 ^ N.of_nat mydim)%N -> re_infos (ag_id g) mydim = Some (ag_ref g) ->
    exists c, ag_center mydim g = Some c /\ (0 < ag_corners mydim g)%nat /\
      forall k, c k * INR (ag_corners mydim g) =
        rsum (ag_corners mydim g) (fun i => match ag_corner mydim g i with Some p => p k | None => 0 end).
Proof.
  intros mydim g Hid Hr. rewrite (proj1 (C28_corner mydim g 0)).
  rewrite <- bit_pow in Hid. assert (OK := re_infos_ok _ _ _ Hid Hr).
  set (T := topo_of (ag_id g) mydim).
  destruct (whole_face T) as (W1 & W2 & W3).
  destruct (re_position_spec (ag_id g) mydim (ag_ref g) (whole T) OK W1) as (p & P & PV).
  fold T in P, PV. rewrite W2 in P.
  assert (I0 : fidx T (whole T) = 0%nat).
  { assert (Q := fidx_lt T (whole T) W1). rewrite W2, tsize_0 in Q. lia. }
  rewrite I0 in P. unfold ag_center. rewrite P. cbn [obind]. eexists. split; [reflexivity|].
  rewrite corners_verts, map_length. fold T. split; [apply verts_length_pos|]. intro k.
  assert (NN : INR (length (verts T)) <> 0) by (apply not_0_INR; assert (Q := verts_length_pos T); lia).
  set (n := length (verts T)) in *.
  assert (EX : ag_global mydim g p k = ag_global mydim g (fun j => rsum n (fun i => / INR n * forg T (nth i (verts T) FPt) j)) k).
  { unfold ag_global. f_equal. apply rsum_ext. intros j Hj. f_equal. rewrite PV, W3, Emb_whole by (unfold T; now rewrite tdim_topo_of).
    unfold meanT. fold n. rewrite (lsum_nth _ _ FPt). fold n. rewrite rsum_scal. unfold Rdiv. ring. }
  rewrite EX, (ag_global_comb mydim g n (fun _ => / INR n) (fun i => forg T (nth i (verts T) FPt))).
  - rewrite rsum_scal, Rmult_comm, <- Rmult_assoc, Rinv_r, Rmult_1_l by assumption. apply rsum_ext. intros i Hi.
    rewrite (proj2 (C28_corner mydim g i)), corners_verts. fold T. rewrite nth_error_map, (nth_error_nth' _ FPt) by assumption. reflexivity.
  - rewrite rsum_const. field. assumption.
Qed.
Print Assumptions C28_center.

Theorem C28_volume :
  forall mydim cdim id r o jt ret j1 j2 g, (mydim <= cdim)%nat -> (mydim <= 13)%nat -> row_independent mydim cdim jt ->
    affine_from_jacobian mydim cdim id r o jt ret j1 j2 = Some g ->
    ag_volume mydim g = sqrt (detR mydim (mmul cdim jt (mtr jt))) * volumeT (topo_of id mydim).
Proof.
  intros mydim cdim id r o jt ret j1 j2 g Hm Hd Hr E.
  destruct (affine_from_jacobian_inv _ _ _ _ _ _ _ _ _ g Hm Hr E) as (EI & _ & _ & EJ & OK).
  unfold ag_volume. rewrite EI, C21_volume_small_dimension by assumption. f_equal.
  rewrite <- EJ, <- (ao_sq _ _ _ OK), sqrt_square; [reflexivity|]. left. exact (ao_pos _ _ _ OK).
Qed.
Print Assumptions C28_volume.

(** the Jacobian is the derivative: global is affine with linear part jt^T; hence it preserves
    all affine combinations *)
Theorem C28_affine_combination :
  forall mydim g n (w : nat -> R) (p : nat -> Vec) k, rsum n w = 1 ->
    ag_global mydim g (fun j => rsum n (fun i => w i * p i j)) k = rsum n (fun i => w i * ag_global mydim g (p i) k).
Proof. exact ag_global_comb. Qed.
Print Assumptions C28_affine_combination.

(** the geometries stored by the reference elements can be constructed: their Jacobians have full rank *)
Theorem C28_subentity_geometries :
  forall id dim c i e r ret j1 j2, (id < 2 ^ N.of_nat dim)%N -> (c <= dim)%nat -> (i < size id dim c)%nat ->
    re_geometry id dim c i = Some e ->
    exists g, affine_from_jacobian (dim - c) dim (subTopologyId id dim c i) r (fst e) (snd e) ret j1 j2 = Some g /\
      (forall x k, ag_global (dim - c) g x k = emb_global (dim - c) e x k) /\
      (forall x, veq (dim - c) (ag_local dim g (ag_global (dim - c) g x)) x).
Proof.
  intros id dim c i e r ret j1 j2 Hid Hc Hi He. rewrite <- bit_pow in Hid.
  assert (HR := embedding_independent id dim c i e Hid Hc Hi He).
  destruct (affine_from_jacobian_ok (dim - c) dim (subTopologyId id dim c i) r (fst e) (snd e) ret j1 j2 ltac:(lia) HR)
    as (g & E & EI & ER & EO & EJ & OK).
  exists g. split; [exact E|]. split.
  - intros x k. unfold ag_global, emb_global. rewrite EO, EJ. reflexivity.
  - intros x j Hj. now apply (ag_local_global (dim - c) dim).
Qed.
Print Assumptions C28_subentity_geometries.

(** a segment from (1,1) to (4,5) *)
Example C28_example :
  exists g, affine_from_corners 1 2 0 [] [(fun _ => 1); (fun k => match k with 0%nat => 4 | _ => 5 end)]
      (fun _ _ => 6) (fun _ _ => 7) (fun _ _ => 8) (fun _ _ => 9) = Some g
    /\ (exists p, ag_corner 1 g 1 = Some p /\ p 0%nat = 4 /\ p 1%nat = 5).
Proof.
  destruct (C28_construction 1 2 0 [] [(fun _ => 1); (fun k => match k with 0%nat => 4 | _ => 5 end)] (fun _ _ => 6) (fun _ _ => 7) (fun _ _ => 8) (fun _ _ => 9)) as [g E]; simpl; try lia.
  - intros w H i Hi. assert (i = 0)%nat by lia. subst. assert (Q := H 0%nat ltac:(lia)). lra.
  - exists g. split; [exact E|].
    destruct (C28_simplex_corners 1 2 0 [] _ _ _ _ _ g 1 ltac:(reflexivity) ltac:(reflexivity) E ltac:(lia)) as (c & p & Ec & Ep & H).
    exists p. split; [exact Ep|]. simpl in Ec. injection Ec as <-. split; apply H.
Qed.

(** ** C29 axis aligned cubes *)

(** the position of axis i among the selected axes *)
Definition rank (axes : nat -> bool) (i : nat) : nat := length (filter axes (seq 0 i)).
Lemma rank_bcount axes i : bcount i axes = rank axes i.
Proof. unfold rank. symmetry. apply filter_rank. Qed.

(** the invariant all three constructors establish *)
Theorem C29_constructors :
  (forall n l u, aac_wf n n (aac_make2 n l u)) /\
  (forall dim cd l u axes, rank axes cd = dim -> exists g, aac_make3 dim cd l u axes = Some g /\ aac_wf dim cd g /\
      forall i, (i < cd)%nat -> ac_lower g i = l i /\ ac_axes g i = axes i /\ ac_upper g i = if axes i then u i else l i) /\
  (forall dim cd l u axes, rank axes cd <> dim -> aac_make3 dim cd l u axes = None) /\
  (forall cd l, aac_wf 0 cd (aac_make1 l)).
Proof.
  split; [exact wf_make2|]. split; [|split; [|exact wf_make1]].
  - intros dim cd l u axes H. rewrite <- rank_bcount in H.
    destruct (aac_make3 dim cd l u axes) as [g|] eqn:E.
    + exists g. split; [reflexivity|]. split; [eapply wf_make3; eassumption|].
      unfold aac_make3 in E. rewrite H, Nat.eqb_refl in E. injection E as <-. cbn [ac_lower ac_upper ac_axes].
      intros i Hi. split; [reflexivity|]. split; [reflexivity|]. etransitivity; [apply make3_upper|].
      rewrite (proj2 (Nat.ltb_lt i cd)) by assumption. now destruct (axes i).
    + unfold aac_make3 in E. rewrite H, Nat.eqb_refl in E. discriminate.
  - intros dim cd l u axes H. unfold aac_make3. rewrite rank_bcount. now rewrite (proj2 (Nat.eqb_neq _ _) H).
Qed.
Print Assumptions C29_constructors.

Section C29.
Variables (dim cd : nat) (g : AACube).
Hypothesis W : aac_wf dim cd g.
Let axes := ac_axes g.
Let l := ac_lower g.
Let u := ac_upper g.

Theorem C29_global :
  forall x i, (i < cd)%nat -> aac_global dim cd g x i = if axes i then l i + x (rank axes i) * (u i - l i) else l i.
Proof. intros x i Hi. rewrite <- rank_bcount. now apply global_spec. Qed.

(** corner k = global of corner k of the reference cube *)
Theorem C29_corners :
  aac_corners dim = (2 ^ dim)%nat /\
  forall k i, (k < aac_corners dim)%nat -> (i < cd)%nat ->
    aac_corner dim cd g k i = aac_global dim cd g (fun j => if Nat.testbit k j then 1 else 0) i /\
    aac_corner dim cd g k i = (if axes i && Nat.testbit k (rank axes i) then u i else l i).
Proof.
  split; [reflexivity|]. intros k i Hk Hi. rewrite C29_global, corner_spec, rank_bcount by assumption.
  fold axes l u. destruct (axes i); cbn [andb]; [|split; reflexivity]. destruct (Nat.testbit k (rank axes i)); split; lra.
Qed.

Theorem C29_local_global :
  (forall i, (i < cd)%nat -> axes i = true -> l i <> u i) ->
  forall x, veq dim (aac_local dim cd g (aac_global dim cd g x)) x.
Proof.
  intros NZ x j Hj. destruct (bcount_surj axes cd j) as (i & Hi & A & B); [unfold axes; now rewrite (aw_count _ _ _ W)|].
  rewrite <- B. unfold axes in *. rewrite (local_spec dim cd g W) by assumption.
  rewrite (global_spec dim cd g W), A by assumption. unfold ext. fold l u. field. specialize (NZ i Hi A). lra.
Qed.

(** global o local is the orthogonal projection onto the plane of the box: identity on the
    axes, the fixed coordinate elsewhere *)
Theorem C29_global_local :
  (forall i, (i < cd)%nat -> axes i = true -> l i <> u i) ->
  forall y i, (i < cd)%nat -> aac_global dim cd g (aac_local dim cd g y) i = if axes i then y i else l i.
Proof.
  intros NZ y i Hi. rewrite (global_spec dim cd g W) by assumption. fold axes. destruct (axes i) eqn:A; [|reflexivity].
  unfold axes in *. rewrite (local_spec dim cd g W) by assumption. unfold ext. fold l u. field. specialize (NZ i Hi A). lra.
Qed.

(** the image of the reference cube is exactly the box *)
Theorem C29_box :
  (forall i, (i < cd)%nat -> axes i = true -> l i < u i) ->
  forall y, (exists x, (forall j, (j < dim)%nat -> 0 <= x j <= 1) /\ veq cd (aac_global dim cd g x) y) <->
            (forall i, (i < cd)%nat -> if axes i then l i <= y i <= u i else y i = l i).
Proof.
  intros LU y. split.
  - intros (x & Hx & E) i Hi. rewrite <- (E i Hi), C29_global by assumption. destruct (axes i) eqn:A; [|reflexivity].
    assert (Q := Hx (rank axes i)). rewrite <- rank_bcount in *. specialize (Q (wf_rank dim cd g W i Hi A)).
    specialize (LU i Hi A). nra.
  - intro H. exists (aac_local dim cd g y). split.
    + intros j Hj. destruct (bcount_surj axes cd j) as (i & Hi & A & B); [unfold axes; now rewrite (aw_count _ _ _ W)|].
      rewrite <- B. unfold axes in *. rewrite (local_spec dim cd g W) by assumption. unfold ext.
      specialize (H i Hi). rewrite A in H. specialize (LU i Hi A). unfold l, u in *.
      assert (P : 0 < ac_upper g i - ac_lower g i) by lra.
      split.
      * apply Rmult_le_pos; [lra|]. left. now apply Rinv_0_lt_compat.
      * apply (Rmult_le_reg_r (ac_upper g i - ac_lower g i)); [assumption|]. unfold Rdiv. rewrite Rmult_assoc, Rinv_l by lra. lra.
    + intros i Hi. rewrite C29_global_local; auto.
      * specialize (H i Hi). destruct (axes i); [reflexivity|]. now symmetry.
      * intros i' Hi' A'. specialize (LU i' Hi' A'). lra.
Qed.

(** the Jacobian is the derivative of global *)
Theorem C29_jacobian :
  forall x h i, (i < cd)%nat ->
    aac_global dim cd g (fun j => x j + h j) i - aac_global dim cd g x i
    = rsum dim (fun j => aac_jacobianTransposed dim cd g j i * h j).
Proof.
  intros x h i Hi. rewrite !(global_spec dim cd g W) by assumption. fold axes.
  rewrite (rsum_ext dim _ (fun j => if Nat.eqb j (bcount i axes) then (if axes i then ext g i * h j else 0) else 0)).
  - destruct (axes i) eqn:A.
    + rewrite (rsum_delta dim (bcount i axes) (fun j => ext g i * h j)) by now apply (wf_rank dim cd g W). ring.
    + rewrite rsum_0; [ring|]. intros j Hj. now destruct (Nat.eqb j (bcount i axes)).
  - intros j Hj. rewrite (jt_spec dim cd g W) by assumption. fold axes. rewrite (Nat.eqb_sym j). destruct (axes i); cbn [andb].
    + destruct (Nat.eqb (bcount i axes) j); ring.
    + destruct (Nat.eqb (bcount i axes) j); ring.
Qed.

Theorem C29_jacobian_inverse :
  (forall i, (i < cd)%nat -> axes i = true -> l i <> u i) ->
  meq dim dim (mmul cd (aac_jacobianTransposed dim cd g) (aac_jacobianInverseTransposed dim cd g)) mone /\
  moore_penrose dim cd (aac_jacobianTransposed dim cd g) (aac_jacobianInverseTransposed dim cd g).
Proof.
  intros NZ. assert (NZ' : forall i, (i < cd)%nat -> ac_axes g i = true -> ext g i <> 0).
  { intros i Hi A. specialize (NZ i Hi A). unfold ext. unfold l, u in NZ. lra. }
  split; [now apply aac_inverse|].
  destruct (aac_pinv dim cd g W NZ') as (G & HG & HX).
  destruct (right_mp HG) as (P1 & P2 & P3 & P4).
  set (A := aac_jacobianTransposed dim cd g) in *. set (X := aac_jacobianInverseTransposed dim cd g) in *.
  assert (AX : meq dim dim (mmul cd A X) (mmul cd A (mmul dim (mtr A) G))) by now apply meq_mulR.
  assert (XA : meq cd cd (mmul dim X A) (mmul dim (mmul dim (mtr A) G) A)) by now apply meq_mulL.
  split; [|split; [|split]].
  - eapply meq_trans; [apply meq_mulL, AX|]. exact P1.
  - eapply meq_trans; [apply meq_mulL, XA|]. eapply meq_trans; [apply meq_mulR, HX|].
    eapply meq_trans; [exact P2|]. now apply meq_sym.
  - intros i j Hi Hj. unfold mtr at 1. rewrite !AX by assumption. now apply P3.
  - intros i j Hi Hj. unfold mtr at 1. rewrite !XA by assumption. now apply P4.
Qed.

(** volume: the product of the extents, equal to the integration element, and consistent with the Jacobian *)
Theorem C29_volume :
  aac_volume dim cd g = fold_right Rmult 1 (map (fun i => u i - l i) (filter axes (seq 0 cd))) /\
  (forall x, aac_integrationElement dim cd g x = aac_volume dim cd g) /\
  aac_volume dim cd g * aac_volume dim cd g =
    detR dim (mmul cd (aac_jacobianTransposed dim cd g) (mtr (aac_jacobianTransposed dim cd g))) /\
  ((forall i, (i < cd)%nat -> axes i = true -> l i < u i) -> 0 < aac_volume dim cd g).
Proof.
  split; [|split; [reflexivity|split; [now apply aac_volume_gram|]]]; rewrite (volume_spec dim cd g W); unfold aprod; fold axes.
  - assert (F : forall n, forN n (fun i v => if axes i then v * ext g i else v) 1 = fold_right Rmult 1 (map (fun i => u i - l i) (filter axes (seq 0 n)))).
    { induction n; [reflexivity|]. cbn [forN]. rewrite IHn, seq_S, filter_app, map_app, fold_right_app. cbn [Nat.add filter].
      assert (S : forall b L, fold_right Rmult b L = fold_right Rmult 1 L * b).
      { induction L; simpl; [ring|]. rewrite IHL. ring. }
      destruct (axes n); cbn [map fold_right]; [|ring]. rewrite (S (_ * 1)). unfold ext, l, u. ring. }
    apply F.
  - intro H. assert (F : forall n, (n <= cd)%nat -> 0 < forN n (fun i v => if axes i then v * ext g i else v) 1).
    { induction n; intro L; cbn [forN]; [lra|]. specialize (IHn ltac:(lia)). destruct (axes n) eqn:A; [|assumption].
      apply Rmult_lt_0_compat; [assumption|]. specialize (H n L A). unfold ext. unfold l, u in H. lra. }
    apply F. lia.
Qed.

Theorem C29_center :
  forall i, (i < cd)%nat -> aac_center dim cd g i = aac_global dim cd g (fun _ => 1 / 2) i.
Proof. intros i Hi. rewrite (center_spec dim cd g W), (global_spec dim cd g W) by assumption. reflexivity. Qed.
End C29.
Print Assumptions C29_global.
Print Assumptions C29_corners.
Print Assumptions C29_local_global.
Print Assumptions C29_global_local.
Print Assumptions C29_box.
Print Assumptions C29_jacobian.
Print Assumptions C29_jacobian_inverse.
Print Assumptions C29_volume.
Print Assumptions C29_center.

(** the corner order is that of the reference element: the isCube corners of C16 *)
Theorem C29_corners_reference :
  forall dim cd g id k x, aac_wf dim cd g -> (id < 2 ^ N.of_nat dim)%N -> (dim < 256)%nat -> isCube (GT2 id dim) = true ->
    nth_error (referenceCorners id dim) k = Some x ->
    (k < aac_corners dim)%nat /\ veq cd (aac_corner dim cd g k) (aac_global dim cd g x).
Proof.
  intros dim cd g id k x W Hid Hd Hc E.
  assert (K : (k < aac_corners dim)%nat).
  { assert (L : (k < length (referenceCorners id dim))%nat) by (apply nth_error_Some; congruence).
    assert (Hid' := Hid). rewrite <- bit_pow in Hid'. assert (Q := Hc). apply isCube_cubT in Q; auto.
    rewrite corners_verts, map_length in L. rewrite (cubT_verts_length _ Q) in L. unfold aac_corners.
    now rewrite tdim_topo_of in L. }
  split; [exact K|]. intros i Hi.
  rewrite (proj1 (proj2 (C29_corners dim cd g W) k i K Hi)).
  rewrite !(C29_global dim cd g W) by assumption.
  now rewrite (C16_cube_corners id dim k x Hid Hd Hc E).
Qed.
Print Assumptions C29_corners_reference.

(** a rectangle [1,3] x {5} x [2,6] in space; axes 0 and 2 *)
Example C29_example :
  exists g, aac_make3 2 3 (fun k => match k with 0%nat => 1 | 1%nat => 5 | _ => 2 end)
              (fun k => match k with 0%nat => 3 | 1%nat => 99 | _ => 6 end) (fun i => negb (Nat.eqb i 1)) = Some g
    /\ aac_volume 2 3 g = 8
    /\ aac_corner 2 3 g 2 0%nat = 1 /\ aac_corner 2 3 g 2 1%nat = 5 /\ aac_corner 2 3 g 2 2%nat = 6
    /\ aac_jacobianTransposed 2 3 g 1%nat 2%nat = 4.
Proof.
  eexists. split; [reflexivity|]. unfold aac_volume, aac_corner, aac_jacobianTransposed; simpl.
  unfold mupd, upd, mzero. simpl. unfold upd. simpl. repeat split; lra.
Qed.
