(** C105: AxisAlignedCubeGeometry against MultiLinearGeometry and the Lagrange geometry of order one on the same corners, in IEEE arithmetic *)
From Coq Require Import PeanoNat NArith ZArith Bool List Reals Lra Lia.
From Flocq Require Import Core IEEE754.BinarySingleNaN.
From Verif Require Import M_Type M_RefTopo M_RefGeo M_Matrix M_MultiLinear M_LocalFE M_Affine M_Float M_FloatGlobal M_FloatLocal M_FloatLFE S_Topo S_RefGeo S_Matrix S_MultiLinear S_FloatMat S_FloatGlobal
  P_Type P_Topo P_RefTopo P_RefTopo3 P_RSum P_RefGeo P_RefGeo2 P_RefGeo3 P_RefGeo4 P_Polytope3 P_ML1 P_ML2 P_ML3 P_ML4 P_LocalFE P_Float P_Float2 P_Float3 P_FloatNear P_FloatErr P_FloatRef P_FloatGlobal P_FloatGlobal3 P_FloatMat2 P_FloatMat3 P_FloatMat4 P_FloatJac
  T_RefGeo T_LocalFE T_Float T_Float2 T_FloatGlobal T_FloatLocal T_FloatJac T_FloatLFE T_FloatLFE2 T_FloatAgree T_FloatAgree2.
Import ListNotations.
Local Open Scope R_scope.

(** the exact image of a box *)
Lemma moved_id x j : forall i n, q1p (moved x j (x j)) i n = q1p x i n.
Proof. intros i n. unfold q1p. induction n as [|n IH]; [reflexivity|]. cbn [forN]. rewrite IH. f_equal. unfold q1_factor, moved. now destruct (Nat.eqb_spec n j) as [->|]. Qed.
Lemma q1m_upper x dim j : (j < dim)%nat -> rsum (2 ^ dim) (fun i => if Nat.testbit i j then q1m x i dim j else 0) = 1.
Proof.
  intro Hj. pose proof (proj2 (C80_partition dim (moved x j 1))) as P. rewrite (proj1 (q1_length dim _)) in P. rewrite <- P. apply rsum_ext. intros i Hi.
  rewrite q1_nth by exact Hi. rewrite q1p_m, (proj2 (Nat.ltb_lt j dim) Hj). destruct (Nat.testbit i j); ring.
Qed.
Lemma q1_box x dim j L U : (j < dim)%nat -> rsum (2 ^ dim) (fun i => q1p x i dim * (if Nat.testbit i j then U else L)) = L + x j * (U - L).
Proof.
  intro Hj. pose proof (proj2 (C80_partition dim x)) as P. rewrite (proj1 (q1_length dim _)) in P.
  rewrite (rsum_ext (2 ^ dim) _ (fun i => L * nth i (q1_values dim x) 0 + (x j * (U - L)) * (if Nat.testbit i j then q1m x i dim j else 0))).
  - rewrite (rsum_plus (2 ^ dim) (fun i => L * nth i (q1_values dim x) 0) (fun i => (x j * (U - L)) * (if Nat.testbit i j then q1m x i dim j else 0))).
    rewrite (rsum_scal (2 ^ dim) L), (rsum_scal (2 ^ dim) (x j * (U - L))), P, q1m_upper by exact Hj. ring.
  - intros i Hi. rewrite q1_nth by exact Hi. rewrite <- (moved_id x j i dim), q1p_m, (proj2 (Nat.ltb_lt j dim) Hj). destruct (Nat.testbit i j); ring.
Qed.
Lemma q1_const x dim L : rsum (2 ^ dim) (fun i => q1p x i dim * L) = L.
Proof.
  pose proof (proj2 (C80_partition dim x)) as P. rewrite (proj1 (q1_length dim _)) in P.
  rewrite (rsum_ext (2 ^ dim) _ (fun i => L * nth i (q1_values dim x) 0)) by (intros i Hi; rewrite q1_nth by exact Hi; ring). rewrite (rsum_scal (2 ^ dim) L), P. ring.
Qed.

Section T.
Variables (prec emax : Z).
Context (Hp : Prec_gt_0 prec) (He : Prec_lt_emax prec emax).
Notation float := (binary_float prec emax).
Notation FVec := (nat -> float).
Notation u := (uro prec).
Notation eta := (tiny prec emax).
Notation fin := (@is_finite prec emax).
Notation val := (@B2R prec emax).
Notation zero := (B754_zero false : float).
Notation fzeros := (fun _ : nat => zero).
Notation lower := (fc_lower prec emax).
Notation upper := (fc_upper prec emax).
Notation axes := (fc_axes prec emax).

(** the corners AxisAlignedCubeGeometry returns, in the order of the reference cube *)
Definition box_corners (dim cd : nat) (g : AACubeF prec emax) : list FVec := map (fac_corner prec emax dim cd g) (seq 0 (2 ^ dim)).
Lemma box_nth dim cd g i : (i < 2 ^ dim)%nat -> nth i (box_corners dim cd g) fzeros = fac_corner prec emax dim cd g i.
Proof. intro Hi. unfold box_corners. rewrite (nth_indep _ fzeros (fac_corner prec emax dim cd g 0)) by (now rewrite map_length, seq_length). rewrite map_nth, seq_nth by exact Hi. reflexivity. Qed.

Lemma box_image id dim cd g x i : (dim < 256)%nat -> (id < bit dim)%N -> isCube (GT2 id dim) = true -> fac_wf prec emax dim cd g -> (i < cd)%nat ->
  image id dim (exactly (box_corners dim cd g)) x i = if axes g i then val (lower g i) + x (rank prec emax g i) * (val (upper g i) - val (lower g i)) else val (lower g i).
Proof.
  intros Hd Hid HC W Hi. apply isCube_cubT in HC; [|exact Hd|exact Hid]. unfold image. pose proof (cubT_verts_length _ HC) as LV. rewrite nv_verts, tdim_topo_of in LV. rewrite LV.
  rewrite (rsum_ext (2 ^ dim) _ (fun k => q1p x k dim * val (if axes g i then (if Nat.testbit k (rank prec emax g i) then upper g i else lower g i) else lower g i))).
  - rewrite rank_bcount. destruct (axes g i) eqn:A; [|apply q1_const].
    rewrite (rsum_ext (2 ^ dim) _ (fun k => q1p x k dim * (if Nat.testbit k (bcount i (axes g)) then val (upper g i) else val (lower g i)))) by (intros k Hk; destruct (Nat.testbit k _); reflexivity).
    apply q1_box. exact (fwf_rank prec emax dim cd g W i Hi A).
  - intros k Hk. rewrite (exactly_nth prec emax) by (unfold box_corners; now rewrite map_length, seq_length). rewrite box_nth by exact Hk.
    rewrite (shape_q1 _ HC) by lia. rewrite tdim_topo_of, rank_bcount. now rewrite (fcorner_spec prec emax dim cd g W k i Hi).
Qed.

Lemma box_bound dim cd g B : fac_wf prec emax dim cd g -> (forall i, (i < cd)%nat -> (fin (lower g i) = true /\ Rabs (val (lower g i)) <= B) /\ fin (upper g i) = true /\ Rabs (val (upper g i)) <= B) ->
  forall c k, In c (box_corners dim cd g) -> (k < cd)%nat -> fin (c k) = true /\ Rabs (val (c k)) <= B.
Proof.
  intros W H c k Hc Hk. unfold box_corners in Hc. apply in_map_iff in Hc. destruct Hc as (t & <- & _). rewrite (fcorner_spec prec emax dim cd g W t k Hk). destruct (H k Hk) as (H1 & H2). destruct (axes g k); [destruct (Nat.testbit t _)|]; assumption.
Qed.

(** global of the box itself *)
Lemma box_error dim cd g x B i : (7 <= prec)%Z -> cube_ok prec emax dim cd g -> in_unit prec emax dim x -> (i < cd)%nat -> Rabs (val (lower g i)) <= B -> Rabs (val (upper g i)) <= B ->
  Rabs (val (fac_global prec emax Hp He dim cd g x i) - (if axes g i then val (lower g i) + val (x (rank prec emax g i)) * (val (upper g i) - val (lower g i)) else val (lower g i))) <= 6 * u * B + 2 * eta.
Proof.
  intros P7 OK Hx Hi HL HU. pose proof (u_pos' prec) as U. pose proof (eta_pos' prec emax) as Et. destruct (u_small prec P7) as (_ & U1).
  assert (U8 : u <= / 8) by (unfold uro; change (/ 8) with (bpow radix2 (-3)); apply bpow_le; lia).
  assert (B0 : 0 <= B) by (eapply Rle_trans; [apply Rabs_pos|exact HL]).
  destruct (axes g i) eqn:A.
  - pose proof (C65_global_error prec emax Hp He ltac:(lia) dim cd g OK x Hx i Hi A) as E. cbv zeta in E. pose proof (co_pos prec emax dim cd g OK i Hi A) as LT.
    destruct (Hx (rank prec emax g i)) as (_ & X0 & X1); [rewrite rank_bcount; exact (fwf_rank prec emax dim cd g (co_wf prec emax dim cd g OK) i Hi A)|].
    change (bpow radix2 (- prec)) with u in E.
    replace (/ 2 * bpow radix2 (3 - emax - prec)) with eta in E by (unfold tiny; replace (3 - emax - prec)%Z with (1 + (2 - emax - prec))%Z by ring; rewrite bpow_plus; change (bpow radix2 1) with 2; field).
    eapply Rle_trans; [exact E|]. set (l := val (lower g i)) in *. set (r := val (upper g i)) in *. set (t := val (x (rank prec emax g i))) in *. apply Rabs_le_inv in HL, HU.
    assert (G : Rabs (l + t * (r - l)) <= B) by (apply Rabs_le; split; nra). assert (w : 0 <= r - l <= 2 * B) by lra.
    assert (E1 : u * Rabs (l + t * (r - l)) <= u * B) by (apply Rmult_le_compat_l; lra).
    assert (E2 : (1 + u) * (((1 + u) ^ 2 - 1) * (r - l)) <= 5 * u * B).
    { replace ((1 + u) * (((1 + u) ^ 2 - 1) * (r - l))) with (u * ((1 + u) * (2 + u)) * (r - l)) by ring. replace (5 * u * B) with (u * (5 / 2) * (2 * B)) by field.
      apply Rmult_le_compat; try lra; [repeat apply Rmult_le_pos; lra|]. apply Rmult_le_compat_l; [lra|]. nra. }
    assert (E3 : (1 + u) * eta <= 2 * eta) by (apply Rmult_le_compat_r; lra). lra.
  - rewrite (P_Float3.fglobal_spec prec emax Hp He dim cd g (co_wf prec emax dim cd g OK) x i Hi), A. rewrite Rminus_diag_eq by reflexivity. rewrite Rabs_R0. assert (0 <= u * B) by (apply Rmult_le_pos; lra). lra.
Qed.

(** The classes agree up to rounding. *)
Theorem C105_agree : (7 <= prec)%Z -> forall id dim, (dim < 256)%nat -> (id < bit dim)%N -> isCube (GT2 id dim) = true -> (Z.of_nat dim + 2 <= emax)%Z ->
  let N := INR (2 ^ dim) in (6 * N + 28 * INR dim + 66) * u <= / 4 ->
  forall cd g jv x B, cube_ok prec emax dim cd g -> in_unit prec emax dim x -> 0 <= B <= bpow radix2 (emax - 4) -> 3 * N * (B + eta) <= bpow radix2 (emax - 1) ->
  (forall i, (i < cd)%nat -> Rabs (val (lower g i)) <= B /\ Rabs (val (upper g i)) <= B) ->
  exists y z, fmlg_global prec emax Hp He cd id dim jv (box_corners dim cd g) x = Some y /\ flf_global prec emax Hp He cd (fq1_values prec emax Hp He dim x) (box_corners dim cd g) = Some z /\
  forall i, (i < cd)%nat -> let b := fac_global prec emax Hp He dim cd g x i in fin b = true /\ fin (y i) = true /\ fin (z i) = true /\
    Rabs (val b - val (y i)) <= (6 * N + 28 * INR dim + 72) * u * B + (3 * N + 2) * eta /\
    Rabs (val b - val (z i)) <= ((3 * N + 4 * INR dim + 9) * u + 4 * N * INR dim * eta) * B + (2 * N + 2) * eta.
Proof.
  intros P7 id dim Hd Hid HC Hem N HN cd g jv x B OK Hx (B0 & B1) HB Hg. assert (W := co_wf prec emax dim cd g OK).
  assert (L : length (box_corners dim cd g) = (2 ^ dim)%nat) by (unfold box_corners; now rewrite map_length, seq_length).
  assert (Hv : forall c k, In c (box_corners dim cd g) -> (k < cd)%nat -> fin (c k) = true /\ Rabs (val (c k)) <= B).
  { apply box_bound; [exact W|]. intros i Hi. destruct (co_fin prec emax dim cd g OK i Hi). destruct (Hg i Hi). auto. }
  destruct (C103_cube_error prec emax Hp He ltac:(lia) id dim Hd Hid HC HN cd (box_corners dim cd g) x B L B0 HB Hv Hx) as (z & Ez & Qz). fold N in Qz.
  assert (HC' := HC). apply isCube_cubT in HC'; [|exact Hd|exact Hid].
  assert (SZ : size id dim dim = (2 ^ dim)%nat) by (pose proof (cubT_verts_length _ HC') as LV; rewrite nv_verts, tdim_topo_of in LV; rewrite size_lt, nv_lt; exact LV).
  destruct (C68_error prec emax Hp He P7 id dim Hid) with (cdim := cd) (jv := jv) (corners := box_corners dim cd g) (x := x) (B := B) as (y & Ey & Qy).
  - left. rewrite (ncones_cube _ HC'). lia.
  - exact Hem.
  - rewrite (ncones_cube _ HC'). lia.
  - rewrite SZ. exact HN.
  - now rewrite SZ.
  - exact B1.
  - exact Hv.
  - intros k Hk. now apply Hx.
  - apply hull_inside. apply inside_cube; [exact HC'|]. intros k Hk. rewrite tdim_topo_of in Hk. now apply Hx.
  - exists y, z. split; [exact Ey|]. split; [exact Ez|]. intros i Hi. cbv zeta. destruct (Qz i Hi) as (Fz & Vz). destruct (Qy i Hi) as (Fy & Vy). destruct (Hg i Hi) as (G1 & G2).
    split; [exact (proj1 (C65_global_monotone prec emax Hp He ltac:(lia) dim cd g OK x x Hx Hx (fun j _ => Rle_refl _) i Hi))|]. split; [exact Fy|]. split; [exact Fz|].
    pose proof (box_error dim cd g x B i P7 OK Hx Hi G1 G2) as Vb. rewrite SZ in Vy. fold N in Vy. change (bpow radix2 (- prec)) with u in Vy. change (bpow radix2 (2 - emax - prec)) with eta in Vy.
    rewrite (box_image id dim cd g _ i Hd Hid HC W Hi) in Vy, Vz. cbv beta in Vy, Vz. set (I := if axes g i then _ else _) in *. set (b := val (fac_global prec emax Hp He dim cd g x i)) in *. clearbody I b.
    split; [replace (b - val (y i)) with ((b - I) + - (val (y i) - I)) by ring|replace (b - val (z i)) with ((b - I) + - (val (z i) - I)) by ring]; (eapply Rle_trans; [apply Rabs_triang|]); rewrite Rabs_Ropp; lra.
Qed.
End T.
Print Assumptions C105_agree.

(** Not bit by bit: the upper end of the interval from -1 to 2^-25 is mapped to 0 by AxisAlignedCubeGeometry and to itself by the other two. *)
Theorem C105_equal_refuted : exists (g : AACubeF 24 128) x v w, cube_ok 24 128 1 1 g /\ in_unit 24 128 1 x /\
  B2SF (fac_global 24 128 p24 e128 1 1 g x 0%nat) = B2SF v /\
  (forall jv, option_map (fun y => B2SF (y 0%nat)) (fmlg_global 24 128 p24 e128 1 1 1 jv (box_corners 24 128 1 1 g) x) = Some (B2SF w)) /\
  option_map (fun y => B2SF (y 0%nat)) (flf_global 24 128 p24 e128 1 (fq1_values 24 128 p24 e128 1 x) (box_corners 24 128 1 1 g)) = Some (B2SF w) /\
  @B2R 24 128 v = 0 /\ @B2R 24 128 w = bpow radix2 (-25).
Proof.
  exists (fac_make2 24 128 1 (fun _ => sgl (-1) 0) (fun _ => sgl 1 (-25))), (fun _ => sgl 1 0), (sgl 0 0), (sgl 1 (-25)).
  assert (V1 : B2R (sgl 1 0) = 1) by (cbn; unfold F2R; cbn; lra). assert (Vm : B2R (sgl (-1) 0) = -1) by (cbn; unfold F2R; cbn; lra). assert (Vt : B2R (sgl 1 (-25)) = / 33554432) by (cbn; unfold F2R; cbn; lra).
  assert (BP : 1 <= bpow radix2 (128 - 3)) by (change 1 with (bpow radix2 0); apply bpow_le; lia).
  split; [|split; [|split; [|split; [|split; [|split]]]]].
  - split.
    + exact (proj1 (C65_constructors 24 128 1 1 _ _)).
    + intros i Hi. split; vm_compute; reflexivity.
    + intros i Hi. cbn [fac_make2 fc_lower fc_upper]. rewrite Vm, Vt. split; apply Rabs_le; lra.
    + intros i Hi _. cbn [fac_make2 fc_lower fc_upper]. rewrite Vm, Vt. lra.
  - intros j Hj. split; [vm_compute; reflexivity|]. rewrite V1. lra.
  - vm_compute. reflexivity.
  - intro jv. vm_compute. reflexivity.
  - vm_compute. reflexivity.
  - vm_compute. lra.
  - rewrite Vt. cbn. lra.
Qed.
Print Assumptions C105_equal_refuted.

(** the rectangle from (1, 2, 7) to (3, 6, 7) in space at (1/2, 1/4): the point (2, 3, 7) from all three classes *)
Example C105_example :
  let g := {| fc_lower := (fun k => nth k [sgl 1 0; sgl 2 0] (sgl 7 0)); fc_upper := (fun k => nth k [sgl 3 0; sgl 6 0] (sgl 7 0)); fc_axes := fun k => Nat.ltb k 2 |} : AACubeF 24 128 in
  let x := two (sgl 1 (-1)) (sgl 1 (-2)) in let p := fun y : nat -> binary_float 24 128 => map (fun k => B2SF (y k)) [0; 1; 2]%nat in let e := map B2SF [sgl 2 0; sgl 3 0; sgl 7 0] in
  p (fac_global 24 128 p24 e128 2 3 g x) = e /\
  option_map p (fmlg_global 24 128 p24 e128 3 3 2 (fun _ => sgl 0 0) (box_corners 24 128 2 3 g) x) = Some e /\
  option_map p (flf_global 24 128 p24 e128 3 (fq1_values 24 128 p24 e128 2 x) (box_corners 24 128 2 3 g)) = Some e.
Proof. repeat split; vm_compute; reflexivity. Qed.
