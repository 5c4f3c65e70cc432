(** * C98  The Jacobians of cubes in IEEE arithmetic *)
From Coq Require Import PeanoNat NArith ZArith Bool List Reals Lra Lia FunctionalExtensionality.
From Flocq Require Import Core IEEE754.BinarySingleNaN.
From Verif Require Import M_Type M_RefTopo M_RefGeo M_Matrix M_MultiLinear M_Float M_FloatGlobal M_FloatLocal S_Topo S_RefGeo S_Matrix S_MultiLinear S_FloatGlobal
  P_Type P_RefTopo P_RefTopo3 P_RSum P_RefGeo P_RefGeo2 P_RefGeo3 P_ML1 P_ML2 P_ML3 P_Float P_FloatNear P_FloatGlobal P_FloatGlobal2 P_FloatGlobal3 P_FloatGlobal4 P_FloatGlobal6
  T_RefGeo T_Float T_FloatGlobal P_FloatJac P_FloatJac2.
Import ListNotations.
Local Open Scope R_scope.

(** the point with coordinate j replaced *)
Definition moved {A} (x : nat -> A) (j : nat) (t : A) : nat -> A := fun i => if Nat.eqb i j then t else x i.
(** cubes: no cone in the construction *)
Definition is_cube (id : N) (dim : nat) : Prop := ncones (topo_of id dim) = 0%nat.

Lemma ew_affine T : forall x j t rf i, cones T = 0%nat -> (j < tdim T)%nat ->
  nth i (ew T 1 (moved x j t) rf) 0 = nth i (ew T 1 (moved x j 0) rf) 0 + t * (nth i (ew T 1 (moved x j 1) rf) 0 - nth i (ew T 1 (moved x j 0) rf) 0).
Proof.
  induction T as [|b IH|b IH]; intros x j t rf i C Hj; cbn [tdim cones ew] in *; [lia| |discriminate C].
  unfold moved at 2 4 6 8 10 12 14 16. destruct (Nat.eqb_spec (tdim b) j) as [E|N].
  - subst j. assert (X : forall t r, ew b 1 (moved x (tdim b) t) r = ew b 1 x r).
    { intros s r. apply ew_ext. intros k Hk. unfold moved. destruct (Nat.eqb_spec k (tdim b)); [lia|reflexivity]. }
    rewrite !X. destruct (Nat.lt_ge_cases i (nv b)) as [L|L].
    + rewrite !app_nth1 by (rewrite ew_length; lia). rewrite !ew_shape by exact L. ring.
    + rewrite !app_nth2 by (rewrite ew_length; lia). rewrite !ew_length. destruct (Nat.lt_ge_cases (i - nv b) (nv b)) as [L'|L'].
      * rewrite !ew_shape by exact L'. ring.
      * rewrite !nth_overflow by (rewrite ew_length; lia). ring.
  - destruct (Nat.lt_ge_cases i (nv b)) as [L|L].
    + rewrite !app_nth1 by (rewrite ew_length; lia). apply IH; [exact C|lia].
    + rewrite !app_nth2 by (rewrite ew_length; lia). rewrite !ew_length. apply IH; [exact C|lia].
Qed.
Lemma image_ew id dim corners x k : image id dim corners x k = rsum (nv (lt id dim)) (fun i => nth i (ew (lt id dim) 1 x 1) 0 * nth i corners vzero k).
Proof.
  unfold image. rewrite nv_lt. apply rsum_ext. intros i Hi. f_equal. rewrite ew_shape by (rewrite nv_lt; exact Hi). rewrite shape_lt, Rmult_1_l. f_equal.
  apply functional_extensionality. intro. ring.
Qed.
(** on a cube the image is affine along each axis *)
Lemma image_affine id dim corners x j k t : is_cube id dim -> (j < dim)%nat ->
  image id dim corners (moved x j t) k = image id dim corners (moved x j 0) k + t * (image id dim corners (moved x j 1) k - image id dim corners (moved x j 0) k).
Proof.
  intros C Hj. rewrite !image_ew. unfold is_cube in C. rewrite <- cones_lt in C. rewrite <- rsum_minus, <- rsum_scal, <- rsum_plus. apply rsum_ext. intros i Hi.
  rewrite (ew_affine _ x j t) by (rewrite ?tdim_lt; assumption). ring.
Qed.
Lemma affine_derivative f a b t : (forall s, f s = a + s * b) -> derivable_pt_lim f t b.
Proof.
  intro H. intros eps He. exists (mkposreal 1 Rlt_0_1). intros h Nh _. rewrite !H. replace ((a + (t + h) * b - (a + t * b)) / h - b) with 0 by (field; exact Nh). now rewrite Rabs_R0.
Qed.

Section C98.
Variables (prec emax : Z).
Context (Hp : Prec_gt_0 prec) (He : Prec_lt_emax prec emax).
Notation float := (binary_float prec emax).
Notation FVec := (nat -> float).
Notation u := (bpow radix2 (- prec)).
Notation eta := (bpow radix2 (2 - emax - prec)).
Notation one := (ofZ prec emax Hp He 1).
Notation jacobianTransposed := (fmlg_jacobianTransposed prec emax Hp He).

Lemma jac_spec cdim id dim jm jk corners x : is_cube id dim -> length corners = size id dim dim ->
  exists J, jacobianTransposed cdim id dim jm jk corners x = Some J /\ forall j k, (j < dim)%nat -> (k < cdim)%nat ->
    J j k = fcomb prec emax Hp He false (combine (frow prec emax Hp He (lt id dim) j one x one) corners) (jm j) k.
Proof.
  intros C HL. rewrite size_lt in HL. unfold is_cube in C. rewrite <- cones_lt in C.
  destruct (jt_spec prec emax Hp He cdim id dim jk dim false corners one x one jm (le_n _) C ltac:(lia)) as (J & E & R & _).
  exists J. split; [unfold fmlg_jacobianTransposed; now rewrite E|exact R].
Qed.

(** Whatever the coordinates are, numbers or not: each row has one weight for each corner, which depends neither on
    the corners nor on the coordinate that belongs to the row, and the entries of the row are the sums of the corners with these weights,
    rounded after each operation, in corner order.  No entry depends on the memory the matrix is written to. *)
Theorem C98_weights : forall id dim, is_cube id dim -> exists w : nat -> FVec -> list float,
  (forall j x, (j < dim)%nat -> length (w j x) = size id dim dim /\ forall x', (forall i, (i < dim)%nat -> i <> j -> x' i = x i) -> w j x' = w j x) /\
  forall cdim jm jk corners x, length corners = size id dim dim ->
  exists J, jacobianTransposed cdim id dim jm jk corners x = Some J /\ forall j k, (j < dim)%nat -> (k < cdim)%nat ->
    weighted prec emax Hp He (combine (w j x) corners) k = Some (J j k).
Proof.
  intros id dim C. exists (fun j x => frow prec emax Hp He (lt id dim) j one x one).
  pose proof C as C'. unfold is_cube in C'. rewrite <- cones_lt in C'. split.
  - intros j x Hj. rewrite size_lt. split; [apply frow_length; [exact C'|now rewrite tdim_lt]|]. intros x' H.
    assert (FE : forall T rf df x x', (forall i, (i < tdim T)%nat -> x' i = x i) -> fw prec emax Hp He T df x' rf = fw prec emax Hp He T df x rf).
    { clear. induction T as [|b IH|b IH]; intros rf df x x' H; cbn [P_FloatGlobal.fw tdim] in *; [reflexivity| |]; cbv zeta; rewrite (H (tdim b)) by lia;
        rewrite ?(IH _ df x x') by (intros; apply H; lia); [reflexivity|]. destruct (faway _ _ _ _ _); rewrite ?(IH _ _ x x') by (intros; apply H; lia); reflexivity. }
    assert (G : forall T rf, (forall i, (i < tdim T)%nat -> i <> j -> x' i = x i) -> frow prec emax Hp He T j one x' rf = frow prec emax Hp He T j one x rf).
    { induction T as [|b IH|b IH]; intros rf Hx; cbn [frow tdim] in *; try reflexivity. cbv zeta. destruct (Nat.eqb_spec j (tdim b)) as [E|N].
      - rewrite !(FE b _ one x x') by (intros; apply Hx; lia). reflexivity.
      - rewrite (Hx (tdim b)) by lia. rewrite !IH by (intros; apply Hx; lia). reflexivity. }
    apply G. intros i Hi. rewrite tdim_lt in Hi. now apply H.
  - intros cdim jm jk corners x HL. destruct (jac_spec cdim id dim jm jk corners x C HL) as (J & E & R). exists J. split; [exact E|].
    intros j k Hj Hk. rewrite R by assumption. rewrite size_lt in HL.
    assert (NE : combine (frow prec emax Hp He (lt id dim) j one x one) corners <> []).
    { apply combine_ne; rewrite frow_length by (rewrite ?tdim_lt; assumption); [apply nv_pos|lia]. }
    unfold weighted, fcomb. destruct (combine _ corners) as [|p l]; [now destruct NE|reflexivity].
Qed.

(** In particular row j does not depend on coordinate j: the same bits come out. *)
Corollary C98_independent : forall id dim, is_cube id dim -> forall cdim jm jk jm' jk' corners x j t, length corners = size id dim dim -> (j < dim)%nat ->
  exists J J', jacobianTransposed cdim id dim jm jk corners x = Some J /\ jacobianTransposed cdim id dim jm' jk' corners (moved x j t) = Some J' /\
    forall k, (k < cdim)%nat -> J' j k = J j k.
Proof.
  intros id dim C cdim jm jk jm' jk' corners x j t HL Hj. destruct (C98_weights id dim C) as (w & W & R).
  destruct (R cdim jm jk corners x HL) as (J & E & V). destruct (R cdim jm' jk' corners (moved x j t) HL) as (J' & E' & V').
  exists J, J'. split; [exact E|]. split; [exact E'|]. intros k Hk. specialize (V j k Hj Hk). specialize (V' j k Hj Hk).
  destruct (W j x Hj) as (_ & I). rewrite (I (moved x j t)) in V' by (intros i _ N; unfold moved; now rewrite (proj2 (Nat.eqb_neq i j) N)). congruence.
Qed.

(** On an edge of the reference cube parallel to axis j, row j is the difference of the end points of its image, each coordinate rounded once.  This
    holds whatever the j-th coordinate of the point is. *)
Theorem C98_edges : (2 <= prec)%Z -> forall id dim, is_cube id dim -> forall cdim jm jk corners x j lo hi a b p q,
  length corners = size id dim dim -> (forall c k, In c corners -> (k < cdim)%nat -> is_finite (c k) = true) -> (j < dim)%nat ->
  nth_error corners lo = Some a -> nth_error corners hi = Some b ->
  nth_error (referenceCorners id dim) lo = Some p -> nth_error (referenceCorners id dim) hi = Some q ->
  p j = 0 -> q j = 1 -> (forall i, (i < dim)%nat -> i <> j -> is_finite (x i) = true /\ B2R (x i) = p i /\ B2R (x i) = q i) ->
  exists J, jacobianTransposed cdim id dim jm jk corners x = Some J /\ forall k, (k < cdim)%nat ->
    is_finite (fsub prec emax Hp He (b k) (a k)) = true -> same_value (J j k) (fsub prec emax Hp He (b k) (a k)).
Proof.
  intros H2 id dim C cdim jm jk corners x j lo hi a b p q HL Fc Hj Ea Eb Ep Eq Pj Qj Hx.
  destruct (jac_spec cdim id dim jm jk corners x C HL) as (J & E & R). exists J. split; [exact E|]. intros k Hk FD.
  unfold is_cube in C. rewrite <- cones_lt in C. rewrite size_lt in HL.
  assert (L1 : (lo < nv (lt id dim))%nat) by (rewrite <- HL; apply nth_error_Some; congruence).
  assert (L3 : (hi < nv (lt id dim))%nat) by (rewrite <- HL; apply nth_error_Some; congruence).
  assert (RC : forall i r m, (i < nv (lt id dim))%nat -> nth_error (referenceCorners id dim) i = Some r -> rc (lt id dim) i m = r m).
  { intros i r m Hi Er. rewrite rc_lt by (rewrite <- nv_lt; exact Hi). rewrite <- rc_corner by (rewrite <- nv_lt; exact Hi). now rewrite (nth_error_nth _ _ _ Er). }
  assert (ED : edge prec emax (lt id dim) j lo hi x).
  { split; [exact L1|]. split; [exact L3|]. split; [now rewrite (RC _ _ _ L1 Ep)|]. split; [now rewrite (RC _ _ _ L3 Eq)|]. intros m Hm Nm. rewrite tdim_lt in Hm.
    destruct (Hx m Hm Nm) as (F & V1 & V3). split; (split; [exact F|]); [now rewrite (RC _ _ _ L1 Ep)|now rewrite (RC _ _ _ L3 Eq)]. }
  pose proof (frow_one prec emax Hp He H2 k (lt id dim) j lo hi false corners x one (jm j) C ltac:(rewrite tdim_lt; exact Hj) ltac:(lia) (fun c I => Fc c k I Hk)
    (is_one prec emax Hp He ltac:(lia)) ED eq_refl (fun _ => one)) as Q. cbv zeta in Q.
  rewrite (nth_error_nth _ _ _ Ea), (nth_error_nth _ _ _ Eb) in Q. specialize (Q FD). rewrite <- R in Q by assumption. destruct Q as (F & V).
  split; [exact F|]. split; [exact V|]. intro NZ. apply B2R_inj; [| |exact V]; apply is_finite_strict_B2R; [rewrite V|]; exact NZ.
Qed.

(** The error of all entries for points of the cube: (6N+16dim) u B with N corners, besides the smallest representable numbers. *)
Theorem C98_error : (7 <= prec)%Z -> forall id dim, is_cube id dim -> (Z.of_nat dim + 2 <= emax)%Z ->
  let N := INR (size id dim dim) in
  (6 * N + 16 * INR dim) * u <= / 4 ->
  forall cdim jm jk corners x B, length corners = size id dim dim -> B <= bpow radix2 (emax - 4) ->
  (forall c k, In c corners -> (k < cdim)%nat -> is_finite (c k) = true /\ Rabs (B2R (c k)) <= B) ->
  (forall i, (i < dim)%nat -> is_finite (x i) = true /\ 0 <= B2R (x i) <= 1) ->
  exists J, jacobianTransposed cdim id dim jm jk corners x = Some J /\ forall j k, (j < dim)%nat -> (k < cdim)%nat ->
    is_finite (J j k) = true /\
    exists D, derivable_pt_lim (fun t => image id dim (exactly corners) (moved (fun i => B2R (x i)) j t) k) (B2R (x j)) D
      /\ Rabs (B2R (J j k) - D) <= (6 * N + 16 * INR dim) * u * B + 3 * N * eta.
Proof.
  intros H7 id dim C Hd N HN cdim jm jk corners x B HL HB Hc Hx.
  destruct (jac_spec cdim id dim jm jk corners x C HL) as (J & E & R). exists J. split; [exact E|]. intros j k Hj Hk.
  subst N. rewrite size_lt in *. set (T := lt id dim) in *. assert (TD : tdim T = dim) by apply tdim_lt.
  assert (CT : cones T = 0%nat) by (unfold T; rewrite cones_lt; exact C).
  destruct (u_small prec H7) as (U0 & U1). set (N := INR (nv T)) in *. assert (N0 : 0 <= N) by apply pos_INR.
  assert (PNu : 0 <= N * u) by (apply Rmult_le_pos; lra). pose proof (pos_INR dim) as Pd. assert (Pdu : 0 <= INR dim * u) by (apply Rmult_le_pos; lra).
  destruct (row_weights prec emax Hp He H7 T j x CT) as (Fw & D); try (rewrite TD; assumption); [rewrite TD; lra|].
  rewrite TD in D.
  pose proof (frow_length prec emax Hp He T j one x one CT ltac:(rewrite TD; exact Hj)) as L.
  rewrite R by assumption. set (ws := frow prec emax Hp He T j one x one) in *.
  assert (X01 : forall i, (i < tdim T)%nat -> 0 <= B2R (x i) <= 1) by (intros i Hi; rewrite TD in Hi; apply Hx; exact Hi).
  pose proof (erow_length T j (fun k => B2R (x k)) 1 CT ltac:(rewrite TD; exact Hj)) as Lm.
  pose proof (erow_bound T j (fun k => B2R (x k)) 1 CT ltac:(rewrite TD; exact Hj) X01 Rle_0_1) as Mb.
  pose proof (erow_sum T j (fun k => B2R (x k)) 1 CT ltac:(rewrite TD; exact Hj) X01 Rle_0_1) as M1.
  pose proof (fun i => erow_diff T j (fun k => B2R (x k)) 1 i CT ltac:(rewrite TD; exact Hj)) as Md.
  set (m := erow T j (fun k => B2R (x k)) 1) in *.
  assert (LC : length (combine ws corners) = nv T) by (rewrite combine_length; lia).
  assert (B0 : 0 <= B).
  { destruct corners as [|c cs]; [pose proof (nv_pos T); cbn in HL; lia|].
    destruct (Hc c k (or_introl eq_refl) Hk) as (_ & Q). eapply Rle_trans; [apply Rabs_pos|exact Q]. }
  destruct (fcomb_err94 prec emax Hp He H7 k B (combine ws corners) (jm j)) as (G & EE).
  - lra.
  - eapply Rle_trans; [apply wabs_near with (m := m); lia|]. lra.
  - intros (w, c) Hp'. cbn [fst]. apply in_combine_l in Hp'. pose proof (wdist_each prec emax ws m 1 ltac:(lia) Mb w Hp'). lra.
  - intro Q. rewrite Q in LC. cbn in LC. pose proof (nv_pos T). lia.
  - rewrite LC. fold N. lra.
  - intros (w, c) Hp'. cbn [fst snd]. split; [|apply Hc; [eapply in_combine_r; exact Hp'|exact Hk]].
    rewrite Forall_forall in Fw. apply Fw. eapply in_combine_l. exact Hp'.
  - split; [exact G|]. rewrite LC in EE. fold N in EE.
    pose proof (wsum_esum prec emax k B ws m corners ltac:(lia) ltac:(lia) (fun c Hc' => proj2 (Hc c k Hc' Hk))) as E2.
    set (y := fun i => B2R (x i)) in *.
    exists (image id dim (exactly corners) (moved y j 1) k - image id dim (exactly corners) (moved y j 0) k).
    split; [apply affine_derivative with (a := image id dim (exactly corners) (moved y j 0) k); intro s; now apply image_affine|].
    assert (EQ : esum prec emax k m corners = image id dim (exactly corners) (moved y j 1) k - image id dim (exactly corners) (moved y j 0) k).
    { rewrite esum_rsum by lia. rewrite !image_ew, <- rsum_minus, Lm. apply rsum_ext. intros i Hi. rewrite Md. fold T. apply Rmult_minus_distr_r. }
    rewrite EQ in E2. assert (wdist prec emax ws m * B <= 16 * INR dim * u * B) by (apply Rmult_le_compat_r; lra).
    apply abs_le. apply abs_le in EE. apply abs_le in E2. unfold P_FloatNear.eta in EE. lra.
Qed.

(** Lines, quadrilaterals and hexahedra *)
Corollary C98_error_3 : (9 <= prec)%Z -> (5 <= emax)%Z -> forall id dim, (dim <= 3)%nat -> is_cube id dim ->
  forall cdim jm jk corners x B, length corners = size id dim dim -> 0 <= B <= bpow radix2 (emax - 4) ->
  (forall c k, In c corners -> (k < cdim)%nat -> is_finite (c k) = true /\ Rabs (B2R (c k)) <= B) ->
  (forall i, (i < dim)%nat -> is_finite (x i) = true /\ 0 <= B2R (x i) <= 1) ->
  exists J, jacobianTransposed cdim id dim jm jk corners x = Some J /\ forall j k, (j < dim)%nat -> (k < cdim)%nat ->
    is_finite (J j k) = true /\
    exists D, derivable_pt_lim (fun t => image id dim (exactly corners) (moved (fun i => B2R (x i)) j t) k) (B2R (x j)) D
      /\ Rabs (B2R (J j k) - D) <= 96 * u * B + 24 * eta.
Proof.
  intros P9 E5 id dim Hd C cdim jm jk corners x B HL HB Hc Hx.
  assert (N8 : (size id dim dim <= 8)%nat).
  { rewrite size_lt, nv_lt. apply Nat.le_trans with (2 ^ dim)%nat.
    - clear. induction dim as [|d IH]; [reflexivity|]. rewrite topo_S. cbn [Nat.pow]. pose proof (nv_pos (topo_of id d)).
      assert (1 <= 2 ^ d)%nat by (clear; induction d; cbn; lia). destruct (N.testbit id (N.of_nat d)); cbn [nv]; lia.
    - apply (Nat.pow_le_mono_r 2 dim 3); lia. }
  apply le_INR in N8. replace (INR 8) with 8 in N8 by (rewrite INR_IZR_INZ; reflexivity). pose proof (pos_INR (size id dim dim)) as N0.
  assert (D3 : INR dim <= 3) by (apply le_INR in Hd; replace (INR 3) with 3 in Hd by (rewrite INR_IZR_INZ; reflexivity); exact Hd).
  pose proof (pos_INR dim) as D0.
  assert (U : 0 < u <= / 512).
  { split; [apply bpow_gt_0|]. change (/ 512) with (bpow radix2 (-9)). apply bpow_le. lia. }
  destruct (C98_error ltac:(lia) id dim C ltac:(lia)) with (cdim := cdim) (jm := jm) (jk := jk) (corners := corners) (x := x) (B := B) as (J & E & V); auto; try lra.
  - apply Rle_trans with (96 * u); [apply Rmult_le_compat_r; lra|lra].
  - exists J. split; [exact E|]. intros j k Hj Hk. destruct (V j k Hj Hk) as (F & D & DD & Q). split; [exact F|]. exists D. split; [exact DD|]. eapply Rle_trans; [exact Q|].
    pose proof (bpow_gt_0 radix2 (2 - emax - prec)) as T0. set (t := eta) in *. clearbody t.
    apply Rplus_le_compat; [|apply Rmult_le_compat_r; lra].
    apply Rmult_le_compat_r; [lra|]. apply Rmult_le_compat_r; lra.
Qed.
End C98.
Print Assumptions C98_weights.
Print Assumptions C98_independent.
Print Assumptions C98_edges.
Print Assumptions C98_error.
Print Assumptions C98_error_3.

(** ** what does not hold, in single precision *)
(** The Jacobian of the unit square at height 1 is not horizontal: at (1/3, 0) the entry of the second row for the height is -2^-25. *)
Definition at_height_1 : list (nat -> binary_float 24 128) :=
  [vec3 (sgl 0 0) (sgl 0 0) (sgl 1 0); vec3 (sgl 1 0) (sgl 0 0) (sgl 1 0); vec3 (sgl 0 0) (sgl 1 0) (sgl 1 0); vec3 (sgl 1 0) (sgl 1 0) (sgl 1 0)].
Theorem C98_flat_refuted : exists (corners : list (nat -> binary_float 24 128)) x,
  length corners = size 3 2 2 /\ (forall c, In c corners -> is_finite (c 0%nat) = true /\ is_finite (c 1%nat) = true /\ B2R (c 2%nat) = 1)
  /\ 0 <= B2R (x 0%nat) <= 1 /\ 0 <= B2R (x 1%nat) <= 1
  /\ (forall j y, derivable_pt_lim (fun t => image 3 2 (exactly corners) (moved y j t) 2%nat) (y j) 0)
  /\ option_map (fun J => B2R (J 1%nat 2%nat)) (fmlg_jacobianTransposed 24 128 p24 e128 3 3 2 (fun _ => zro) (fun _ => zro) corners x) = Some (- bpow radix2 (-25)).
Proof.
  exists at_height_1, (pt2 (sgl 11184811 (-25)) (sgl 0 0)). split; [reflexivity|].
  assert (V1 : B2R (sgl 1 0) = 1) by (rewrite (sgl_value _ 8388608 (-23)) by reflexivity; cbn; lra).
  assert (V0 : B2R (sgl 0 0) = 0) by (apply (sgl_zero _ false); reflexivity).
  split. { intros c [<-|[<-|[<-|[<-|[]]]]]; (split; [reflexivity|]); (split; [reflexivity|]); exact V1. }
  split. { change (0 <= B2R (sgl 11184811 (-25)) <= 1). rewrite (sgl_value _ 11184811 (-25)) by reflexivity. cbn. lra. }
  split. { change (0 <= B2R (sgl 0 0) <= 1). rewrite V0. lra. }
  split.
  { intros j y. apply affine_derivative with (a := 1). intro s. unfold image, at_height_1, exactly.
    change (topo_of 3 2) with (Pri (Pri Pt)). cbn [nv Nat.add rsum shape Nat.ltb Nat.leb Nat.sub tdim map nth vec3]. rewrite V1. ring. }
  assert (G : forall (o : option (nat -> nat -> binary_float 24 128)), option_map (fun J => B2SF (J 1%nat 2%nat)) o = Some (SpecFloat.S754_finite true 8388608 (-48)) ->
    option_map (fun J => B2R (J 1%nat 2%nat)) o = Some (- bpow radix2 (-25))).
  { intros [J|] E; [|discriminate E]. cbn [option_map] in *. f_equal. injection E as E. destruct (J 1%nat 2%nat) as [s|s| |s m e pf]; try discriminate E.
    cbn [B2SF] in E. injection E as -> -> ->. cbn. unfold F2R. cbn. lra. }
  apply G. vm_compute. reflexivity.
Qed.
Print Assumptions C98_flat_refuted.

Lemma dbl_value : forall (x : binary_float 53 1024) m e,
  B2SF x = SpecFloat.S754_finite false m e -> B2R x = IZR (Z.pos m) * bpow radix2 e.
Proof. intros [s|s| |s m' e' p] m e E; try discriminate E. now injection E as -> -> ->. Qed.
(** a quadrilateral in double precision, at (1/2, 1/4): the exact derivatives are (9/4, 1/4), (1/2, 3/2) *)
Definition quad98 : list (nat -> binary_float 53 1024) :=
  map (fun p k => match k with O => dbl (fst p) 0 | _ => dbl (snd p) 0 end) [(0, 0); (2, 0); (0, 1); (3, 2)]%Z.
Definition mid98 : nat -> binary_float 53 1024 := fun k => match k with O => dbl 1 (-1) | _ => dbl 1 (-2) end.
Example C98_example : is_cube 3 2 /\ is_cube 2 2 /\ is_cube 7 3 /\ ~ is_cube 1 2
  /\ option_map (fun J => map (fun j => map (fun k => B2SF (J j k)) [0; 1]%nat) [0; 1]%nat)
       (fmlg_jacobianTransposed 53 1024 p53 e1024 2 3 2 (fun _ _ => dbl 0 0) (fun _ _ => dbl 0 0) quad98 mid98)
     = Some [[B2SF (dbl 9 (-2)); B2SF (dbl 1 (-2))]; [B2SF (dbl 1 (-1)); B2SF (dbl 3 (-1))]]
  /\ (exists J, fmlg_jacobianTransposed 53 1024 p53 e1024 2 3 2 (fun _ _ => dbl 0 0) (fun _ _ => dbl 0 0) quad98 mid98 = Some J /\
       forall j k, (j < 2)%nat -> (k < 2)%nat -> is_finite (J j k) = true /\
       exists D, derivable_pt_lim (fun t => image 3 2 (exactly quad98) (moved (fun i => B2R (mid98 i)) j t) k) (B2R (mid98 j)) D
         /\ Rabs (B2R (J j k) - D) <= 96 * bpow radix2 (-53) * 3 + 24 * bpow radix2 (-1075)).
Proof.
  split; [reflexivity|]. split; [reflexivity|]. split; [reflexivity|]. split; [discriminate|]. split; [vm_compute; reflexivity|].
  assert (V : forall z, In z [0; 1; 2; 3]%Z -> is_finite (dbl z 0) = true /\ B2R (dbl z 0) = IZR z).
  { intros z I. destruct I as [<-|[<-|[<-|[<-|[]]]]]; (split; [reflexivity|]).
    - assert (E : B2SF (dbl 0 0) = SpecFloat.S754_zero false) by (vm_compute; reflexivity). destruct (dbl 0 0); try discriminate E; reflexivity.
    - rewrite (dbl_value _ 4503599627370496 (-52)) by (vm_compute; reflexivity). cbn. lra.
    - rewrite (dbl_value _ 4503599627370496 (-51)) by (vm_compute; reflexivity). cbn. lra.
    - rewrite (dbl_value _ 6755399441055744 (-51)) by (vm_compute; reflexivity). cbn. lra. }
  apply (C98_error_3 53 1024 p53 e1024); try lia; try reflexivity.
  - split; [lra|]. apply Rle_trans with (bpow radix2 2); [cbn; lra|apply bpow_le; lia].
  - intros c k I Hk. assert (Q : exists z, In z [0; 1; 2; 3]%Z /\ c k = dbl z 0).
    { unfold quad98 in I. apply in_map_iff in I. destruct I as ((a, b) & <- & I). cbn [fst snd].
      assert (In a [0; 1; 2; 3]%Z /\ In b [0; 1; 2; 3]%Z) as (A & B) by (destruct I as [Q|[Q|[Q|[Q|[]]]]]; injection Q as <- <-; cbn; tauto).
      destruct k; eauto. }
    destruct Q as (z & Iz & ->). destruct (V z Iz) as (F & ->). split; [exact F|]. destruct Iz as [<-|[<-|[<-|[<-|[]]]]]; apply abs_le; lra.
  - intros i Hi. destruct i as [|i]; (split; [reflexivity|]); cbn [mid98].
    + rewrite (dbl_value _ 4503599627370496 (-53)) by (vm_compute; reflexivity). cbn. lra.
    + rewrite (dbl_value _ 4503599627370496 (-54)) by (vm_compute; reflexivity). cbn. lra.
Qed.
