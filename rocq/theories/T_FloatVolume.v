(** * C100  Volumes in IEEE arithmetic *)
From Coq Require Import PeanoNat NArith ZArith Bool List Reals Lra Lia FunctionalExtensionality.
From Flocq Require Import Core IEEE754.BinarySingleNaN.
From Verif Require Import M_Type M_RefTopo M_RefGeo M_Matrix M_MultiLinear M_Float M_FloatGlobal M_FloatLocal M_FloatVolume S_Topo S_RefGeo S_Matrix S_MultiLinear S_FloatGlobal S_FloatMat
  P_Type P_RefTopo P_RefTopo3 P_RSum P_RefGeo P_RefGeo2 P_RefGeo3 P_ML1 P_ML2 P_ML3 P_Float P_Float2 P_FloatNear P_FloatErr P_FloatRef P_FloatGlobal P_FloatGlobal2 P_FloatGlobal3 P_FloatGlobal4 P_FloatGlobal6
  P_FloatMat2 P_FloatMat4 T_RefGeo T_Float T_FloatGlobal T_FloatLocal T_FloatMat P_FloatJac P_FloatJac2 T_FloatJac T_FloatIntEl.
Import ListNotations.
Local Open Scope R_scope.

(** ** the volume of the reference element is 1/n with n at most 6 up to dimension 3 *)
Lemma inverse_step id d : exists id', referenceVolumeInverse id (S d) = (referenceVolumeInverse id' d mod 2 ^ 32)%N
  \/ referenceVolumeInverse id (S d) = ((referenceVolumeInverse id' d mod 2 ^ 32) * N.of_nat (S d) mod 2 ^ 64)%N.
Proof. exists (baseTopologyId id (S d) 1). cbn [referenceVolumeInverse]. cbv zeta. destruct (isPrism id (S d) 0); [left|right]; reflexivity. Qed.
Lemma inverse_3 id dim : (dim <= 3)%nat -> (1 <= referenceVolumeInverse id dim <= 6)%N.
Proof.
  assert (D0 : forall id, referenceVolumeInverse id 0 = 1%N) by reflexivity.
  assert (D1 : forall id, referenceVolumeInverse id 1 = 1%N) by (intro i; destruct (inverse_step i 0) as (i' & [-> | ->]); rewrite D0; reflexivity).
  assert (D2 : forall id, referenceVolumeInverse id 2 = 1%N \/ referenceVolumeInverse id 2 = 2%N) by (intro i; destruct (inverse_step i 1) as (i' & [-> | ->]); rewrite D1; [left|right]; reflexivity).
  intro H. destruct dim as [|[|[|[|d]]]]; [rewrite D0; lia|rewrite D1; lia|destruct (D2 id) as [-> | ->]; lia| |lia].
  destruct (inverse_step id 2) as (i' & [-> | ->]); destruct (D2 i') as [-> | ->]; cbn; lia.
Qed.
Lemma inverse_cube id : (is_cube id 2) -> referenceVolumeInverse id 2 = 1%N.
Proof.
  intro C. unfold is_cube in C. cbn [referenceVolumeInverse]. cbv zeta.
  assert (P1 : forall i, isPrism i 1 0 = true). { intro i. unfold isPrism. cbn [Nat.sub]. change (bit 0) with 1%N. apply negb_true_iff, N.eqb_neq. intro Q. apply (f_equal (fun v => N.testbit v 0)) in Q. rewrite N.land_spec, N.lor_spec, N.bits_0 in Q. cbn in Q. rewrite orb_true_r in Q. discriminate Q. }
  rewrite P1. assert (P2 : isPrism id 2 0 = true); [|rewrite P2; reflexivity].
  assert (TB : N.testbit id 1 = true). { rewrite topo_S in C. change (N.of_nat 1) with 1%N in C. destruct (N.testbit id 1); [reflexivity|]. rewrite topo_S in C. destruct (N.testbit id (N.of_nat 0)); discriminate C. }
  unfold isPrism. cbn [Nat.sub]. apply negb_true_iff, N.eqb_neq. intro Q. apply (f_equal (fun v => N.testbit v 1)) in Q. rewrite N.land_spec, N.lor_spec, N.bits_0, TB in Q. discriminate Q.
Qed.

Section C100.
Variables (prec emax : Z).
Context (Hp : Prec_gt_0 prec) (He : Prec_lt_emax prec emax).
Notation float := (binary_float prec emax).
Notation FVec := (nat -> float).
Notation FMat := (nat -> nat -> float).
Notation u := (bpow radix2 (- prec)).
Notation eta := (bpow radix2 (2 - emax - prec)).
Notation sub := (fsub prec emax Hp He).
Notation mul := (fmul prec emax Hp He).
Notation refVolume := (freferenceVolume prec emax Hp He).
Notation fin := (@is_finite prec emax).
Notation val := (@B2R prec emax).
Notation rnd := (round radix2 (SpecFloat.fexp prec emax) (round_mode mode_NE)).
Notation gam := (gam prec).

Lemma refvol id dim : (2 <= prec)%Z -> (prec + 2 <= emax)%Z -> (1 <= referenceVolumeInverse id dim)%N -> IZR (Z.of_N (referenceVolumeInverse id dim)) <= bpow radix2 prec ->
  fin (refVolume id dim) = true /\ val (refVolume id dim) = rnd (referenceVolume id dim) /\ bpow radix2 (2 - emax) <= referenceVolume id dim <= 1.
Proof.
  intros P2 E2 N1 N2. unfold freferenceVolume, referenceVolume. set (n := Z.of_N (referenceVolumeInverse id dim)) in *. assert (n1 : (1 <= n)%Z) by (unfold n; lia). clearbody n.
  destruct (ofZ_1 prec emax Hp He P2) as (O1 & O2). destruct (ofZ_nn prec emax Hp He ltac:(lia) n ltac:(lia) N2) as (F & _ & V).
  assert (R1 : 1 <= IZR n) by now apply IZR_le. assert (B : bpow radix2 (2 - emax) <= 1 / IZR n <= 1).
  { split.
    - apply Rle_trans with (bpow radix2 (- prec)); [apply bpow_le; lia|]. rewrite bpow_opp. unfold Rdiv. rewrite Rmult_1_l. apply Rinv_le_contravar; lra.
    - unfold Rdiv. rewrite Rmult_1_l. rewrite <- Rinv_1. apply Rinv_le_contravar; lra. }
  split; [|split; [|exact B]]; unfold fdiv.
  all: pose proof (Bdiv_correct prec emax Hp He mode_NE (ofZ prec emax Hp He 1) (ofZ prec emax Hp He n)) as C; rewrite V, O1 in C; specialize (C ltac:(lra));
    rewrite Rlt_bool_true in C by (apply (rnd_bound2 prec emax Hp He P2); rewrite Rabs_pos_eq by (pose proof (bpow_gt_0 radix2 (2 - emax)); lra); pose proof (one_max prec emax He P2); lra); destruct C as (C1 & C2 & _).
  - rewrite C2. exact O2.
  - exact C1.
Qed.

(** The volume of the reference element: one rounding of 1/n as long as n is an exact number of the format, exact if n is a power of two (cubes of all dimensions with n = 1, triangles and prisms with n = 2). *)
Theorem C100_reference : (2 <= prec)%Z -> (prec + 2 <= emax)%Z -> forall id dim,
  (1 <= referenceVolumeInverse id dim)%N -> IZR (Z.of_N (referenceVolumeInverse id dim)) <= bpow radix2 prec ->
  fin (refVolume id dim) = true /\ 0 < val (refVolume id dim) <= 1 /\ Rabs (val (refVolume id dim) - referenceVolume id dim) <= u * referenceVolume id dim /\
  ((exists j, Z.of_N (referenceVolumeInverse id dim) = 2 ^ Z.of_nat j)%Z -> val (refVolume id dim) = referenceVolume id dim).
Proof.
  intros P2 E2 id dim N1 N2. destruct (refvol id dim P2 E2 N1 N2) as (F & V & B). pose proof (bpow_gt_0 radix2 (2 - emax)) as Q. split; [exact F|].
  destruct (rel_normal prec emax Hp (referenceVolume id dim)) as (e & E & R1); [rewrite Rabs_pos_eq by lra; lra|]. rewrite V.
  assert (U : u <= / 4) by (change (/ 4) with (bpow radix2 (-2)); apply bpow_le; lia).
  assert (E' : - / 4 <= e <= / 4) by (apply abs_le; change (Rabs e <= u) in E; lra). split; [|split].
  - split; [rewrite R1; nra|]. apply (rnd_le1 prec emax Hp He P2). lra.
  - rewrite R1. replace (referenceVolume id dim * (1 + e) - referenceVolume id dim) with (e * referenceVolume id dim) by ring. rewrite Rabs_mult, (Rabs_pos_eq (referenceVolume id dim)) by lra. apply Rmult_le_compat_r; [lra|exact E].
  - intros (j & J). apply rnd_id. unfold referenceVolume in *. rewrite J in *.
    assert (QQ : IZR (2 ^ Z.of_nat j) = bpow radix2 (Z.of_nat j)) by (rewrite <- IZR_Zpower by lia; reflexivity).
    rewrite QQ in B |- *. unfold Rdiv in B |- *. rewrite Rmult_1_l, <- bpow_opp in B |- *.
    apply format_bpow; try assumption. destruct B as (B1 & _). apply le_bpow in B1. lia.
Qed.
Corollary C100_reference_3 : (3 <= prec)%Z -> (prec + 2 <= emax)%Z -> forall id dim, (dim <= 3)%nat ->
  fin (refVolume id dim) = true /\ 0 < val (refVolume id dim) <= 1 /\ Rabs (val (refVolume id dim) - referenceVolume id dim) <= u * referenceVolume id dim.
Proof.
  intros P3 E2 id dim Hd. pose proof (inverse_3 id dim Hd) as N. assert (P : 8 <= bpow radix2 prec) by (change 8 with (bpow radix2 3); apply bpow_le; lia).
  destruct (C100_reference ltac:(lia) E2 id dim ltac:(lia)) as (F & B & E & _); [|tauto]. apply Rle_trans with 8; [|exact P]. apply IZR_le. lia.
Qed.

(** ** quadrilaterals *)
Lemma mul_one a b : fin a = true -> fin b = true -> val b = 1 -> fin (mul a b) = true /\ val (mul a b) = val a.
Proof.
  intros Fa Fb Vb. pose proof (Bmult_correct prec emax Hp He mode_NE a b) as C. rewrite Vb, Rmult_1_r in C. rewrite round_generic in C by (try typeclasses eauto; apply generic_format_B2R).
  rewrite Rlt_bool_true in C by apply abs_B2R_lt_emax. destruct C as (C1 & C2 & _). unfold fmul. rewrite C1, C2, Fa, Fb. split; reflexivity.
Qed.
Lemma lt_cube2 id : is_cube id 2 -> lt id 2 = Pri (Pri Pt).
Proof.
  intro C. unfold is_cube in C. rewrite <- cones_lt in C. pose proof (tdim_lt id 2) as D. destruct (lt id 2) as [|[|[|b|b]|b]|b]; cbn in C, D; try discriminate; reflexivity.
Qed.
(** Half the cross product of the diagonals, up to 512 u B^2.  For convex quadrilaterals this is the area (C62). *)
Theorem C100_quadrilateral : (9 <= prec)%Z -> (prec + 2 <= emax)%Z -> forall id, is_cube id 2 ->
  forall jm jk j1 j2 (c0 c1 c2 c3 : FVec) B, 0 <= B ->
  (forall c k, In c [c0; c1; c2; c3] -> (k < 2)%nat -> fin (c k) = true /\ Rabs (val (c k)) <= B) ->
  eta <= u * B * B -> 12 * eta <= u * B -> 3 * B + 1 <= bpow radix2 (emax / 2 - 3) ->
  exists v, fmlg_volume prec emax Hp He 2 id 2 jm jk j1 j2 [c0; c1; c2; c3] = Some v /\ fin v = true /\ 0 <= val v /\
    Rabs (val v - Rabs ((val (c3 0%nat) - val (c0 0%nat)) * (val (c2 1%nat) - val (c1 1%nat)) - (val (c3 1%nat) - val (c0 1%nat)) * (val (c2 0%nat) - val (c1 0%nat))) / 2) <= 512 * u * B * B.
Proof.
  intros P9 E2 id C jm jk j1 j2 c0 c1 c2 c3 B B0 Hc H1 H3 H4.
  set (x := fcenter prec emax Hp He id 2). pose proof (cube_size id 2 C) as S4. cbn [Nat.pow Nat.mul Nat.add] in S4.
  assert (X : forall k, (k < 2)%nat -> fin (x k) = true /\ val (x k) = / 2).
  { intros k Hk. assert (P4 : 512 <= bpow radix2 prec) by (change 512 with (bpow radix2 9); apply bpow_le; lia).
    pose proof (C70_center prec emax Hp He ltac:(lia) E2 id 2 k ltac:(lia)) as Q. rewrite S4 in Q. replace (INR 4) with 4 in Q by (cbn; ring). specialize (Q ltac:(lra)). cbv zeta in Q. fold x in Q.
    destruct Q as (F & _ & _ & V). split; [exact F|]. rewrite V by (exists 2%nat; reflexivity).
    assert (RC : forall j, (j < 4)%nat -> nth j (referenceCorners id 2) vzero k = rc (Pri (Pri Pt)) j k).
    { intros j Hj. rewrite <- (lt_cube2 id C). assert (L : (j < nv (topo_of id 2))%nat) by (rewrite <- nv_lt, (lt_cube2 id C); exact Hj). rewrite rc_lt by exact L. now rewrite rc_corner by exact L. }
    cbn [Ssum]. rewrite !RC by lia. destruct k as [|[|k]]; [| |lia]; unfold vzero; cbn; unfold upd, vzero; cbn; lra. }
  set (D := fun j k => image id 2 (exactly [c0; c1; c2; c3]) (moved (fun i => val (x i)) j 1) k - image id 2 (exactly [c0; c1; c2; c3]) (moved (fun i => val (x i)) j 0) k).
  destruct (C99_positive prec emax Hp He P9 ltac:(lia) id C jm jk j1 j2 [c0; c1; c2; c3] x B D) as (v & E & F & Q & _); try assumption; try reflexivity.
  - split; [exact B0|]. apply Rle_trans with (bpow radix2 (emax / 2 - 3)); [lra|]. apply bpow_le. pose proof (Z.div_mod emax 2 ltac:(lia)). pose proof (Z.mod_pos_bound emax 2 ltac:(lia)). lia.
  - intros i Hi. destruct (X i Hi) as (F & ->). split; [exact F|lra].
  - intros j k Hj Hk. apply affine_derivative with (a := image id 2 (exactly [c0; c1; c2; c3]) (moved (fun i => val (x i)) j 0) k). intro s. now apply image_affine.
  - assert (P0 : 0 <= val v).
    { unfold fmlg_integrationElement in E. destruct (fmlg_jacobianTransposed _ _ _ _ _ _ _ _ _ _ _) as [J|]; [|discriminate E]. cbn [obind] in E.
      exact (proj1 (C71_det2 prec emax Hp He J j1 j2 v E F)). }
    assert (VR : fin (refVolume id 2) = true /\ val (refVolume id 2) = 1).
    { destruct (refvol id 2 ltac:(lia) E2) as (F1 & V1 & _); try (rewrite (inverse_cube id C)); [lia|change (IZR (Z.of_N 1)) with 1; change 1 with (bpow radix2 0); apply bpow_le; lia|].
      split; [exact F1|]. rewrite V1. unfold referenceVolume. rewrite (inverse_cube id C). change (IZR (Z.of_N 1)) with 1. replace (1 / 1) with 1 by field. apply rnd_id. apply format_1; [assumption|lia]. }
    destruct (mul_one v (refVolume id 2) F (proj1 VR) (proj2 VR)) as (F' & V').
    exists (mul v (refVolume id 2)). split; [unfold fmlg_volume; fold x; rewrite E; reflexivity|]. split; [exact F'|]. rewrite V'. split; [exact P0|].
    match goal with |- Rabs (_ - Rabs ?d / 2) <= _ => replace (Rabs d / 2) with (Rabs (D 0%nat 0%nat * D 1%nat 1%nat - D 1%nat 0%nat * D 0%nat 1%nat)); [exact Q|replace (Rabs d / 2) with (Rabs (d / 2)) by (unfold Rdiv; rewrite Rabs_mult, (Rabs_pos_eq (/ 2)) by lra; reflexivity)] end.
    f_equal. unfold D. rewrite !image_ew, (lt_cube2 id C). unfold exactly, moved. cbn [nv Nat.add rsum ew tdim app map nth Nat.eqb].
    rewrite (proj2 (X 0%nat ltac:(lia))), (proj2 (X 1%nat ltac:(lia))). field.
Qed.

(** ** triangles as AffineGeometry *)
Lemma abs_sub_comm (a b : float) : Babs (sub a b) = Babs (sub b a).
Proof.
  destruct (fin a) eqn:Fa; [destruct (fin b) eqn:Fb|].
  - pose proof (Bminus_correct prec emax Hp He mode_NE a b Fa Fb) as C1. pose proof (Bminus_correct prec emax Hp He mode_NE b a Fb Fa) as C2.
    assert (RN : rnd (val b - val a) = - rnd (val a - val b)) by (replace (val b - val a) with (- (val a - val b)) by ring; apply round_NE_opp). rewrite RN, Rabs_Ropp in C2.
    destruct (Rlt_bool (Rabs (rnd (val a - val b))) (bpow radix2 emax)).
    + destruct C1 as (V1 & F1 & _), C2 as (V2 & F2 & _). apply B2R_Bsign_inj; [unfold fsub; now rewrite is_finite_Babs|unfold fsub; now rewrite is_finite_Babs| |].
      * rewrite !B2R_Babs. unfold fsub. rewrite V1, V2. now rewrite Rabs_Ropp.
      * assert (S : forall z : float, is_nan z = false -> Bsign (Babs z) = false) by (intros [s|s| |s m e p] N; try discriminate N; reflexivity).
        unfold fsub. rewrite !S; [reflexivity|destruct (Bminus mode_NE b a); try discriminate F2; reflexivity|destruct (Bminus mode_NE a b); try discriminate F1; reflexivity].
    + destruct C1 as (V1 & _), C2 as (V2 & _). apply B2SF_inj. unfold fsub, binary_overflow in *. cbn [overflow_to_inf] in *.
      destruct (Bminus mode_NE a b); try discriminate V1. destruct (Bminus mode_NE b a); try discriminate V2. reflexivity.
  - destruct a as [|[]| |], b as [|[]| |]; try discriminate Fb; reflexivity.
  - destruct a as [|[]| |], b as [|[]| |]; try discriminate Fa; reflexivity.
Qed.
Notation triangle := (fai_corners prec emax Hp He 2 2).
Lemma triangle_some c0 c1 c2 ret j1 j2 : exists g, triangle [c0; c1; c2] ret j1 j2 = Some g /\
  fai_int prec emax g = Babs (sub (mul (sub (c1 0%nat) (c0 0%nat)) (sub (c2 1%nat) (c0 1%nat))) (mul (sub (c2 0%nat) (c0 0%nat)) (sub (c1 1%nat) (c0 1%nat)))).
Proof. eexists. split; reflexivity. Qed.

(** The volume of a triangle does not depend on the order of the second and the third corner: the same bits come out, for all floating point numbers, infinities and NaN included. *)
Theorem C100_order : forall id c0 c1 c2 ret ret' j1 j2 j1' j2', exists g g',
  triangle [c0; c1; c2] ret j1 j2 = Some g /\ triangle [c0; c2; c1] ret' j1' j2' = Some g' /\
  fai_volume prec emax Hp He id 2 g = fai_volume prec emax Hp He id 2 g'.
Proof.
  intros. destruct (triangle_some c0 c1 c2 ret j1 j2) as (g & E & V). destruct (triangle_some c0 c2 c1 ret' j1' j2') as (g' & E' & V').
  exists g, g'. split; [exact E|]. split; [exact E'|]. unfold fai_volume. rewrite V, V'. now rewrite abs_sub_comm.
Qed.

(** The volume of a triangle in the plane, if it is a number: half the determinant of the exact differences of the corners, up to five relative errors on the two products. *)
Theorem C100_triangle : (9 <= prec)%Z -> (prec + 2 <= emax)%Z -> forall id, (id < 2)%N -> forall c0 c1 c2 ret j1 j2, exists g, triangle [c0; c1; c2] ret j1 j2 = Some g /\
  let v := fai_volume prec emax Hp He id 2 g in fin v = true ->
  let p := (val (c1 0%nat) - val (c0 0%nat)) * (val (c2 1%nat) - val (c0 1%nat)) in
  let q := (val (c2 0%nat) - val (c0 0%nat)) * (val (c1 1%nat) - val (c0 1%nat)) in
  0 <= val v /\ Rabs (val v - Rabs (p - q) / 2) <= gam 5 * ((Rabs p + Rabs q) / 2) + ((1 + u) * (1 + u) + 1) * eta.
Proof.
  intros P9 E2 id Hid c0 c1 c2 ret j1 j2. destruct (triangle_some c0 c1 c2 ret j1 j2) as (g & E & V). exists g. split; [exact E|]. intros v Fv p q.
  destruct (u_small prec ltac:(lia)) as (U0 & U1). pose proof (bpow_gt_0 radix2 (2 - emax - prec)) as N0.
  assert (VR : val (refVolume id 2) = / 2).
  { assert (I2 : referenceVolumeInverse id 2 = 2%N) by (assert (id = 0 \/ id = 1)%N as [-> | ->] by lia; reflexivity).
    destruct (C100_reference ltac:(lia) E2 id 2) as (_ & _ & _ & X); rewrite ?I2; [lia|change (IZR (Z.of_N 2)) with (bpow radix2 1); apply bpow_le; lia|].
    rewrite X by (rewrite I2; exists 1%nat; reflexivity). unfold referenceVolume. rewrite I2. change (IZR (Z.of_N 2)) with 2. lra. }
  unfold v, fai_volume in Fv |- *. set (w := fai_int prec emax g) in *. pose proof (prod_err prec emax Hp He w (refVolume id 2) Fv) as PE. rewrite VR in PE.
  destruct (mul_fin prec emax Hp He _ _ Fv) as (Fw & _ & VV). rewrite V, is_finite_Babs in Fw.
  assert (W0 : 0 <= val w) by (rewrite V, B2R_Babs; apply Rabs_pos).
  split. { rewrite VV, VR. apply rnd_nn; [assumption..|]. lra. }
  pose proof (cross_err prec emax Hp He _ _ _ _ Fw) as CE.
  destruct (sub_fin prec emax Hp He _ _ Fw) as (Fp & Fq & _). destruct (mul_fin prec emax Hp He _ _ Fp) as (F1 & F2 & _). destruct (mul_fin prec emax Hp He _ _ Fq) as (F3 & F4 & _).
  assert (SD : forall a b : float, fin (sub a b) = true -> exists e, Rabs e <= u /\ val (sub a b) = (val a - val b) * (1 + e)).
  { intros a b Fs. destruct (sub_fin prec emax Hp He _ _ Fs) as (_ & _ & Vs). destruct (rel_minus prec emax Hp (val a) (val b) (generic_format_B2R _ _ _) (generic_format_B2R _ _ _)) as (e & Ee & R1).
    exists e. split; [exact Ee|]. now rewrite Vs. }
  destruct (SD _ _ F1) as (e1 & X1 & Y1). destruct (SD _ _ F2) as (e2 & X2 & Y2). destruct (SD _ _ F3) as (e3 & X3 & Y3). destruct (SD _ _ F4) as (e4 & X4 & Y4).
  rewrite Y1, Y2, Y3, Y4 in CE.
  replace ((val (c1 0%nat) - val (c0 0%nat)) * (1 + e1) * ((val (c2 1%nat) - val (c0 1%nat)) * (1 + e2))) with (p * ((1 + e1) * (1 + e2))) in CE by (unfold p; ring).
  replace ((val (c2 0%nat) - val (c0 0%nat)) * (1 + e3) * ((val (c1 1%nat) - val (c0 1%nat)) * (1 + e4))) with (q * ((1 + e3) * (1 + e4))) in CE by (unfold q; ring).
  assert (G : forall e f, Rabs e <= u -> Rabs f <= u -> Rabs ((1 + e) * (1 + f)) <= (1 + u) * (1 + u) /\ Rabs ((1 + e) * (1 + f) - 1) <= (1 + u) * (1 + u) - 1).
  { intros e f Ee Ef. split.
    - rewrite Rabs_mult. apply Rmult_le_compat; try apply Rabs_pos; (eapply Rle_trans; [apply Rabs_triang|]; rewrite Rabs_R1; lra).
    - replace ((1 + e) * (1 + f) - 1) with (e + f + e * f) by ring. eapply Rle_trans; [apply Rabs_triang|]. rewrite Rabs_mult. pose proof (Rabs_triang e f). pose proof (Rabs_pos e). pose proof (Rabs_pos f).
      assert (Rabs e * Rabs f <= u * u) by (apply Rmult_le_compat; assumption). lra. }
  destruct (G e1 e2 X1 X2) as (G1 & G2). destruct (G e3 e4 X3 X4) as (G3 & G4). set (s := (1 + e1) * (1 + e2)) in *. set (t := (1 + e3) * (1 + e4)) in *. clearbody s t.
  pose proof (Rabs_pos p) as Pp. pose proof (Rabs_pos q) as Pq.
  set (k := (1 + u) * (1 + u)) in *. assert (K1 : 1 <= k) by (unfold k; nra).
  assert (G20 : gam 2 = k - 1) by (unfold S_FloatMat.gam, S_FloatMat.grow, uro, k; cbn [pow]; ring). assert (G5 : gam 5 = k * k * (1 + u) - 1) by (unfold S_FloatMat.gam, S_FloatMat.grow, uro, k; cbn [pow]; ring).
  rewrite !Rabs_mult, G20 in CE. unfold uro, tiny in CE.
  assert (A1 : Rabs p * Rabs s <= Rabs p * k) by (apply Rmult_le_compat_l; assumption). assert (A2 : Rabs q * Rabs t <= Rabs q * k) by (apply Rmult_le_compat_l; assumption).
  assert (A3 : (k - 1) * (Rabs p * Rabs s + Rabs q * Rabs t) <= (k - 1) * (k * (Rabs p + Rabs q))) by (apply Rmult_le_compat_l; lra).
  assert (A4 : Rabs (p * s - q * t - (p - q)) <= (k - 1) * (Rabs p + Rabs q)).
  { replace (p * s - q * t - (p - q)) with (p * (s - 1) - q * (t - 1)) by ring. unfold Rminus at 1. eapply Rle_trans; [apply Rabs_triang|]. rewrite Rabs_Ropp, !Rabs_mult.
    assert (Rabs p * Rabs (s - 1) <= Rabs p * (k - 1)) by (apply Rmult_le_compat_l; assumption). assert (Rabs q * Rabs (t - 1) <= Rabs q * (k - 1)) by (apply Rmult_le_compat_l; assumption). lra. }
  set (d := sub (mul (sub (c1 0%nat) (c0 0%nat)) (sub (c2 1%nat) (c0 1%nat))) (mul (sub (c2 0%nat) (c0 0%nat)) (sub (c1 1%nat) (c0 1%nat)))) in *.
  assert (A5 : Rabs (val d - (p - q)) <= (k * k - 1) * (Rabs p + Rabs q) + 2 * (1 + u) * eta).
  { replace (val d - (p - q)) with ((val d - (p * s - q * t)) + (p * s - q * t - (p - q))) by ring. eapply Rle_trans; [apply Rabs_triang|]. lra. }
  assert (A6 : Rabs (val w - Rabs (p - q)) <= (k * k - 1) * (Rabs p + Rabs q) + 2 * (1 + u) * eta) by (rewrite V, B2R_Babs; eapply Rle_trans; [apply Rabs_triang_inv2|exact A5]).
  assert (A7 : Rabs (p - q) <= Rabs p + Rabs q) by (unfold Rminus; eapply Rle_trans; [apply Rabs_triang|]; rewrite Rabs_Ropp; lra).
  assert (A8 : val w <= k * k * (Rabs p + Rabs q) + 2 * (1 + u) * eta) by (apply abs_le in A6; lra).
  rewrite (Rabs_pos_eq (val w * / 2)) in PE by lra. unfold uro, tiny in PE.
  assert (A9 : u * (val w * / 2) <= u * ((k * k * (Rabs p + Rabs q) + 2 * (1 + u) * eta) * / 2)) by (apply Rmult_le_compat_l; lra).
  rewrite G5. apply abs_le in PE. apply abs_le in A6. fold k. apply abs_le. unfold k in *.
  split; lra.
Qed.

(** Two equal corners: the volume is 0 or not a number (the differences may overflow). *)
Theorem C100_degenerate : forall id c0 c1 c2 ret j1 j2, (forall k, (k < 2)%nat -> c1 k = c0 k) \/ (forall k, (k < 2)%nat -> c2 k = c0 k) \/ (forall k, (k < 2)%nat -> c2 k = c1 k) ->
  exists g, triangle [c0; c1; c2] ret j1 j2 = Some g /\ (fin (fai_volume prec emax Hp He id 2 g) = true -> val (fai_volume prec emax Hp He id 2 g) = 0).
Proof.
  intros id c0 c1 c2 ret j1 j2 H. destruct (triangle_some c0 c1 c2 ret j1 j2) as (g & E & V). exists g. split; [exact E|]. unfold fai_volume. intro Fv.
  destruct (mul_fin prec emax Hp He _ _ Fv) as (Fw & _ & ->). assert (W : val (fai_int prec emax g) = 0); [|rewrite W, Rmult_0_l; apply round_0; typeclasses eauto].
  rewrite V in *. rewrite is_finite_Babs in Fw. rewrite B2R_Babs.
  destruct (sub_fin prec emax Hp He _ _ Fw) as (Fp & Fq & ->). destruct (mul_fin prec emax Hp He _ _ Fp) as (F1 & F2 & ->). destruct (mul_fin prec emax Hp He _ _ Fq) as (F3 & F4 & ->).
  assert (Z : forall a : float, fin (sub a a) = true -> val (sub a a) = 0) by (intros a F; destruct (sub_fin prec emax Hp He _ _ F) as (_ & _ & ->); rewrite Rminus_eq_0; apply round_0; typeclasses eauto).
  assert (R0 : rnd 0 = 0) by (apply round_0; typeclasses eauto).
  destruct H as [H|[H|H]]; rewrite !H in * by lia.
  - rewrite (Z _ F1), (Z _ F4), Rmult_0_l, Rmult_0_r, R0, Rminus_eq_0, R0. apply Rabs_R0.
  - rewrite (Z _ F2), (Z _ F3), Rmult_0_l, Rmult_0_r, R0, Rminus_eq_0, R0. apply Rabs_R0.
  - rewrite Rminus_eq_0, R0. apply Rabs_R0.
Qed.
End C100.
Print Assumptions C100_reference.
Print Assumptions C100_reference_3.
Print Assumptions C100_quadrilateral.
Print Assumptions C100_order.
Print Assumptions C100_triangle.
Print Assumptions C100_degenerate.

(** The volume of a triangle whose corners lie on a line is not 0 in general: in single precision the triangle with the corners (2^-24, 3 2^-24), (1, 3), (-1, -3) has the volume 2^-23. *)
Definition flat_triangle : list (nat -> binary_float 24 128) := [two (sgl 1 (-24)) (sgl 3 (-24)); two (sgl 1 0) (sgl 3 0); two (sgl (-1) 0) (sgl (-3) 0)].
Lemma sgl_minus : forall (x : binary_float 24 128) m e, B2SF x = SpecFloat.S754_finite true m e -> B2R x = - IZR (Z.pos m) * bpow radix2 e.
Proof. intros [s|s| |s m' e' p] m e E; try discriminate E. injection E as -> -> ->. unfold B2R, F2R, cond_Zopp. cbn [Fnum Fexp]. rewrite opp_IZR. reflexivity. Qed.
Theorem C100_collinear_refuted : exists corners : list (nat -> binary_float 24 128), length corners = 3%nat /\
  (forall c, In c corners -> is_finite (c 0%nat) = true /\ is_finite (c 1%nat) = true /\ B2R (c 1%nat) = 3 * B2R (c 0%nat)) /\
  forall ret j1 j2, option_map (fun g => B2R (fai_volume 24 128 p24 e128 0 2 g)) (fai_corners 24 128 p24 e128 2 2 corners ret j1 j2) = Some (bpow radix2 (-23)).
Proof.
  exists flat_triangle. split; [reflexivity|]. split.
  - assert (V : B2R (sgl 1 (-24)) = bpow radix2 (-24) /\ B2R (sgl 3 (-24)) = 3 * bpow radix2 (-24) /\ B2R (sgl 1 0) = 1 /\ B2R (sgl 3 0) = 3 /\ B2R (sgl (-1) 0) = -1 /\ B2R (sgl (-3) 0) = -3).
    { rewrite (sgl_value (sgl 1 (-24)) 8388608 (-47)), (sgl_value (sgl 3 (-24)) 12582912 (-46)), (sgl_value (sgl 1 0) 8388608 (-23)), (sgl_value (sgl 3 0) 12582912 (-22)),
        (sgl_minus (sgl (-1) 0) 8388608 (-23)), (sgl_minus (sgl (-3) 0) 12582912 (-22)) by (vm_compute; reflexivity). cbn. repeat split; lra. }
    destruct V as (V1 & V2 & V3 & V4 & V5 & V6).
    intros c I. destruct I as [<-|[<-|[<-|[]]]]; (split; [reflexivity|]); (split; [reflexivity|]); cbn [two]; rewrite ?V1, ?V2, ?V3, ?V4, ?V5, ?V6; lra.
  - intros ret j1 j2. rewrite (coord_value (fun g => fai_volume 24 128 p24 e128 0 2 g) _ 8388608 (-46)) by (vm_compute; reflexivity). f_equal. cbn. lra.
Qed.
Print Assumptions C100_collinear_refuted.

(** the triangle (0,0), (3,1), (1,2) has the volume 5/2, the quadrilateral of C98 has 7/2, the reference tetrahedron 1/6 rounded *)
Example C100_example : let d := fun z => dbl z 0 in let o := fun _ _ : nat => dbl 0 0 in
  option_map (fun g => B2SF (fai_volume 53 1024 p53 e1024 0 2 g)) (fai_corners 53 1024 p53 e1024 2 2 [two (d 0%Z) (d 0%Z); two (d 3%Z) (d 1%Z); two (d 1%Z) (d 2%Z)] o o o) = Some (B2SF (dbl 5 (-1)))
  /\ option_map B2SF (fmlg_volume 53 1024 p53 e1024 2 3 2 o o o o quad98) = Some (B2SF (dbl 7 (-1)))
  /\ B2SF (freferenceVolume 53 1024 p53 e1024 0 3) = B2SF (dbl 6004799503160661 (-55))
  /\ B2SF (freferenceVolume 53 1024 p53 e1024 7 3) = B2SF (dbl 1 0).
Proof. cbv zeta. repeat split; vm_compute; reflexivity. Qed.
