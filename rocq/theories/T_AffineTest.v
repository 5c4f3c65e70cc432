(** Property C87: which elements an AffineGeometry can be built for from corners, and what test-affinegeometry.cc establishes. *)
From Coq Require Import PeanoNat NArith ZArith Bool List Reals Lia Lra.
From Verif Require Import M_Type M_RefTopo M_RefGeo M_Matrix M_Affine M_MultiLinear M_GaussNewton M_LocalFE M_CheckGeo M_AffineTest
  S_Topo S_RefGeo S_Matrix S_MultiLinear S_GaussNewton S_Agree S_CheckGeo S_AffineTest P_Type P_Topo P_RefTopo P_RefTopo2 P_RefTopo3 P_RSum P_RefGeo P_RefGeo2 P_RefGeo3 P_RefGeo4
  P_Matrix P_Matrix2 P_Matrix3 P_Matrix4 P_Matrix5 P_Det P_MxBridge P_Affine
  P_ML1 P_ML2 P_ML3 P_ML4 P_ML5 P_GaussNewton P_Agree P_LocalFE T_RefGeo T_Matrix T_Affine T_MultiLinear T_GaussNewton T_LocalFE P_Agree2 T_Agree P_CheckGeo T_CheckGeo P_AffineTest.
Import ListNotations.
Local Open Scope R_scope.

(** the images of the corners of a reference element under an affine map of full rank: the constructor recovers the map
    when the base of the element is a simplex, and fails its assertion for every other element *)
Theorem C87_constructor :
  forall mydim cdim id r o M coords junk ret j1 j2, (mydim <= cdim)%nat -> row_independent mydim cdim M ->
    (forall i p, nth_error (referenceCorners id mydim) i = Some p -> exists c, nth_error coords i = Some c /\ veq cdim c (fun k => o k + mvec mydim (mtr M) p k)) ->
    (simplexBase id mydim -> exists g, affine_from_corners mydim cdim id r coords junk ret j1 j2 = Some g /\
       forall x, veq cdim (ag_global mydim g x) (fun k => o k + mvec mydim (mtr M) x k)) /\
    (~ simplexBase id mydim -> affine_from_corners mydim cdim id r coords junk ret j1 j2 = None).
Proof.
  intros mydim cdim id r o M coords junk ret j1 j2 Hm HR HI. split; intro HS.
  - destruct (corners_base mydim cdim id r o M coords junk ret j1 j2 Hm HI HS HR) as (g & o' & M' & E & E' & Vo & Vm & R'). exists g. split; [exact E|].
    destruct (affine_from_jacobian_inv _ _ _ _ _ _ _ _ _ g Hm R' E') as (_ & _ & EO & EJ & _).
    intros x k Hk. unfold ag_global, mvec, mtr. rewrite EO, EJ, Vo by assumption. f_equal. apply rsum_ext. intros j Hj. now rewrite Vm.
  - exact (corners_nobase mydim cdim id r o M coords junk ret j1 j2 Hm HI HS).
Qed.
Print Assumptions C87_constructor.

(** the constructor reads the first mydim+1 corners only; over a simplex it puts those where they should be *)
Theorem C87_corners_read :
  forall mydim cdim id r coords coords' junk ret j1 j2, firstn (mydim + 1) coords = firstn (mydim + 1) coords' ->
    affine_from_corners mydim cdim id r coords junk ret j1 j2 = affine_from_corners mydim cdim id r coords' junk ret j1 j2.
Proof.
  intros mydim cdim id r coords coords' junk ret j1 j2 H.
  assert (N : forall (l : list Vec) i, (i <= mydim)%nat -> nth_error l i = nth_error (firstn (mydim + 1) l) i).
  { intros l i Hi. assert (L : (i < mydim + 1)%nat) by lia. clear Hi. revert i L. generalize (mydim + 1)%nat. induction l as [|a l IH]; intros n i L.
    - now rewrite firstn_nil.
    - destruct n as [|n]; [lia|]. destruct i as [|i]; [reflexivity|]. cbn. apply IH. lia. }
  unfold affine_from_corners. rewrite (N coords), (N coords'), H by lia. destruct (nth_error (firstn (mydim + 1) coords') 0) as [o|]; [|reflexivity]. cbn [obind].
  assert (C : forall m, (m <= mydim)%nat -> corner_rows m coords o junk = corner_rows m coords' o junk).
  { induction m as [|m IH]; intro Hm; [reflexivity|]. cbn [corner_rows]. rewrite IH by lia. rewrite (N coords (m + 1)%nat), (N coords' (m + 1)%nat), H by lia. reflexivity. }
  now rewrite C by lia.
Qed.
Print Assumptions C87_corners_read.
Theorem C87_corners :
  forall mydim cdim id r coords junk ret j1 j2 g i, simplexBase id mydim ->
    affine_from_corners mydim cdim id r coords junk ret j1 j2 = Some g -> (i <= mydim)%nat ->
    exists c p, nth_error coords i = Some c /\ ag_corner mydim g i = Some p /\ forall k, p k = c k.
Proof.
  intros mydim cdim id r coords junk ret j1 j2 g i HS E Hi. destruct (corners_inv _ _ _ _ _ _ _ _ _ _ E) as (o & Eo & EI & ER & EO & EJ).
  destruct (base_rc id mydim HS) as [NV RC]. unfold ag_corner, re_position. rewrite EI, Nat.eqb_refl, ref_nth by lia. cbn [obind].
  destruct i as [|i].
  - exists o. eexists. split; [assumption|]. split; [reflexivity|]. intro k. unfold ag_global. rewrite EO, rsum_0; [ring|]. intros j Hj. rewrite RC by lia. cbn [Nat.eqb]. ring.
  - destruct (EJ i ltac:(lia)) as (c & Ec & Hc). exists c. eexists. split; [assumption|]. split; [reflexivity|].
    intro k. unfold ag_global. rewrite EO, (rsum_ext mydim _ (fun j => if Nat.eqb j i then ag_jt g j k else 0)).
    + rewrite (rsum_delta mydim i (fun j => ag_jt g j k)) by lia. rewrite Hc. ring.
    + intros j Hj. rewrite RC by lia. cbn [Nat.eqb]. rewrite Nat.eqb_sym. destruct (Nat.eqb j i); ring.
Qed.
Print Assumptions C87_corners.
(** a quadrilateral that is no parallelogram is accepted, and its last corner is moved *)
Theorem C87_quadrilateral_refuted :
  exists coords, forall r junk ret j1 j2, exists g c p, affine_from_corners 2 2 (gt_id (cube 2)) r coords junk ret j1 j2 = Some g /\
    nth_error coords 3 = Some c /\ ag_corner 2 g 3 = Some p /\ p 0%nat <> c 0%nat.
Proof.
  exists [(fun _ => 0); (fun k => match k with 0%nat => 1 | _ => 0 end); (fun k => match k with 0%nat => 0 | _ => 1 end); (fun _ => 2)].
  intros r junk ret j1 j2. unfold affine_from_corners, affine_from_jacobian, rightInvA. cbn [nth_error obind corner_rows Nat.add Nat.eqb andb]. unfold inv22.
  eexists _, (fun _ => 2), _. split; [reflexivity|]. split; [reflexivity|]. split; [reflexivity|].
  unfold ag_global. cbn [ag_origin ag_jt rsum]. cbn. unfold upd, vzero. cbn. lra.
Qed.
Print Assumptions C87_quadrilateral_refuted.

(** the test of one geometry *)
Theorem C87_test :
  forall mydim cdim eps tolc rule junk ret j1 j2 id r A B c q, (mydim <= cdim)%nat -> (mydim < 256)%nat -> (id < 2 ^ N.of_nat mydim)%N -> re_infos id mydim = Some r ->
    simplexBase id mydim -> rule id mydim = Some q -> 0 < eps -> 0 < tolc -> re_position id mydim r 0 0 = Some c -> Rabs (Rabs (detR cdim B) - 1) <= eps ->
    let M := fun i k => rsum mydim (fun j => B k j * A j i) in
    let ie := sqrt (detR mydim (mmul cdim M (mtr M))) in
    row_independent mydim cdim M ->
    (ta_test mydim cdim eps tolc rule junk ret j1 j2 detR id r A B = Some true <->
      Rabs (ie - Rabs (detR mydim A)) <= eps /\ Rabs (ie * referenceVolume id mydim - referenceVolume id mydim * Rabs (detR mydim A)) <= eps /\
      tolc <= ie * referenceVolume id mydim /\
      ((0 < mydim)%nat -> forall i p, nth_error (referenceCorners id mydim) i = Some p -> tolc < two_norm cdim (mvec mydim (mtr M) (fun j => p j - c j)))).
Proof.
  intros mydim cdim eps tolc rule junk ret j1 j2 id r A B c q Hm Hd Hid Hr HS Hq He Ht Hc HB M ie HR. change M with (taM mydim A B) in *.
  unfold ta_test. rewrite Hc. cbn [obind]. rewrite (proj2 (Rltb_false _ _) HB).
  assert (NL : length (referenceCorners id mydim) = size id mydim mydim) by apply C16_corner_count.
  rewrite ta_corners_value by lia. cbn [obind skipn].
  destruct (corners_base mydim cdim id r vzero (taM mydim A B) _ junk ret j1 j2 Hm (ta_images mydim cdim id A B Hm) HS HR) as (g & o' & M' & E & E' & Vo & Vm & R').
  rewrite E. cbn [obind]. destruct (affine_from_jacobian_inv _ _ _ _ _ _ _ _ _ g Hm R' E') as (EI & ER & EO & EJ & OK).
  assert (IE : ag_intel g = ie).
  { unfold ie. rewrite (@detR_ext mydim _ (mmul cdim (ag_jt g) (mtr (ag_jt g)))).
    - rewrite <- (ao_sq _ _ _ OK), sqrt_square; [reflexivity|]. left. exact (ao_pos _ _ _ OK).
    - intros i j Hi Hj. unfold mmul, mtr. apply rsum_ext. intros k Hk. now rewrite EJ, !Vm. }
  assert (EC : ag_center mydim g = Some (ag_global mydim g c)) by (unfold ag_center; now rewrite EI, ER, Hc). rewrite EC. cbn [obind].
  rewrite two_norm_0.
  2:{ intros k Hk. rewrite ta_map_value by assumption. unfold ag_global, aff. rewrite EO, EJ, Vo by assumption. rewrite (rsum_ext mydim (fun i => M' i k * c i) (fun i => taM mydim A B i k * c i)); [ring|]. intros j Hj. now rewrite Vm. }
  rewrite (proj2 (Rltb_false eps 0)) by lra.
  rewrite ta_rows_value; [|assumption|lra|intros i k Hi Hk; unfold ag_jacobianTransposed; rewrite EJ; now apply Vm].
  unfold ag_integrationElement. unfold ag_volume at 1. rewrite EI, IE, Hq.
  assert (K := check_affine mydim cdim tolc junk id r o' M' ret j1 j2 g c q Hm Hd Hid Hr R' E' Ht Hc).
  assert (KN : forall p : Vec, two_norm cdim (mvec mydim (mtr M') p) = two_norm cdim (mvec mydim (mtr (taM mydim A B)) p)).
  { intro p. unfold two_norm, norm2. f_equal. apply rsum_ext. intros k Hk. assert (EE : mvec mydim (mtr M') p k = mvec mydim (mtr (taM mydim A B)) p k); [|now rewrite EE].
    unfold mvec, mtr. apply rsum_ext. intros j Hj. now rewrite Vm. }
  unfold ag_volume in K. rewrite EI, IE in K.
  set (ch := checkGeometry _ _ _ _ _ _ _ _) in *.
  assert (K' : ch = Some true <-> tolc <= ie * referenceVolume id mydim /\ ((0 < mydim)%nat -> forall i p, nth_error (referenceCorners id mydim) i = Some p -> tolc < two_norm cdim (mvec mydim (mtr (taM mydim A B)) (fun j => p j - c j)))).
  { rewrite K. split; intros [V H]; (split; [exact V|]); intros P i p Hp; specialize (H P i p Hp); [rewrite <- KN|rewrite KN]; exact H. }
  rewrite <- K', <- !Rltb_false. destruct ch as [b|]; cbn [obind]; [|split; [discriminate|intros (_ & _ & H); discriminate]].
  destruct (Rltb eps (Rabs (ie - Rabs (detR mydim A)))), (Rltb eps (Rabs (ie * referenceVolume id mydim - referenceVolume id mydim * Rabs (detR mydim A)))), b; cbn [andb];
    split; intro H; try discriminate H; try (destruct H as (? & ? & ?); discriminate); auto.
Qed.
Print Assumptions C87_test.

(** with an orthogonal B only the size of the element matters *)
Theorem C87_test_orthogonal :
  forall mydim cdim eps tolc rule junk ret j1 j2 id r A B c q, (mydim <= cdim)%nat -> (mydim < 256)%nat -> (id < 2 ^ N.of_nat mydim)%N -> re_infos id mydim = Some r ->
    simplexBase id mydim -> rule id mydim = Some q -> 0 < eps -> 0 < tolc -> re_position id mydim r 0 0 = Some c ->
    meq cdim cdim (mmul cdim (mtr B) B) mone -> col_independent mydim mydim A ->
    (ta_test mydim cdim eps tolc rule junk ret j1 j2 detR id r A B = Some true <->
      tolc <= Rabs (detR mydim A) * referenceVolume id mydim /\
      ((0 < mydim)%nat -> forall i p, nth_error (referenceCorners id mydim) i = Some p -> tolc < two_norm mydim (mvec mydim A (fun j => p j - c j)))).
Proof.
  intros mydim cdim eps tolc rule junk ret j1 j2 id r A B c q Hm Hd Hid Hr HS Hq He Ht Hc HB HA.
  rewrite (C87_test mydim cdim eps tolc rule junk ret j1 j2 id r A B c q Hm Hd Hid Hr HS Hq He Ht Hc).
  - change (fun i k => rsum mydim (fun j => B k j * A j i)) with (taM mydim A B). rewrite (ta_det mydim cdim A B Hm HB).
    rewrite (Rminus_diag_eq (Rabs (detR mydim A))), Rminus_diag_eq, Rabs_R0 by ring. split.
    + intros (_ & _ & H1 & H2). split; [exact H1|]. intros P i p Hp. rewrite <- (ta_norm mydim cdim A B Hm HB). now apply (H2 P i).
    + intros (H1 & H2). split; [lra|]. split; [lra|]. split; [exact H1|]. intros P i p Hp. rewrite (ta_norm mydim cdim A B Hm HB). now apply (H2 P i).
  - rewrite (orth_det cdim B HB), Rminus_diag_eq, Rabs_R0 by reflexivity. lra.
  - exact (ta_independent mydim cdim A B Hm HB HA).
Qed.
Print Assumptions C87_test_orthogonal.

(** the two mappings of the program, or any magnification by s >= 1 followed by an orthogonal map: the test passes exactly for the
    elements over simplices; for all others the assertion in the constructor fails, whatever the mapping *)
Theorem C87_types :
  forall mydim cdim eps tolc rule junk ret j1 j2 id r s B q, (mydim <= cdim)%nat -> (mydim < 256)%nat -> (id < 2 ^ N.of_nat mydim)%N -> re_infos id mydim = Some r ->
    rule id mydim = Some q -> 0 < eps -> 0 < tolc < 1 / INR (size id mydim mydim) -> tolc <= referenceVolume id mydim -> 1 <= s ->
    meq cdim cdim (mmul cdim (mtr B) B) mone ->
    (ta_test mydim cdim eps tolc rule junk ret j1 j2 detR id r (ta_scaled mydim s) B = Some true <-> simplexBase id mydim).
Proof.
  intros mydim cdim eps tolc rule junk ret j1 j2 id r s B q Hm Hd Hid Hr Hq He [Ht Hn] Hv Hs HB. split.
  - intro E. apply Classical_Prop.NNPP. intro HS. unfold ta_test in E. destruct (re_position id mydim r 0 0) as [c|]; [|discriminate]. cbn [obind] in E.
    destruct (Rltb eps _) in E; [discriminate|]. rewrite ta_corners_value in E by (rewrite C16_corner_count; lia). cbn [obind skipn] in E.
    rewrite (corners_nobase mydim cdim id r vzero _ _ junk ret j1 j2 Hm (ta_images mydim cdim id (ta_scaled mydim s) B Hm) HS) in E. discriminate.
  - intro HS. assert (Hid' := Hid). rewrite <- bit_pow in Hid'. destruct (center_pos mydim id r Hid' Hr) as (c & Ec & Vc).
    apply (C87_test_orthogonal mydim cdim eps tolc rule junk ret j1 j2 id r _ B c q Hm Hd Hid Hr HS Hq He Ht Ec HB); [apply scaled_independent; lra|].
    assert (P1 : 1 <= s ^ mydim) by (apply pow_R1_Rle; assumption). split.
    + rewrite scaled_det, Rabs_pos_eq by lra. nra.
    + intros Hpos i p Hp. destruct mydim as [|d]; [lia|]. pose proof (far_coord id d i p Hp) as F.
      eapply Rlt_le_trans; [exact Hn|]. eapply Rle_trans; [exact F|].
      eapply Rle_trans; [|apply (two_norm_coord (S d) _ d); lia]. rewrite scaled_mvec by lia. rewrite Vc by lia. rewrite Rabs_mult, (Rabs_pos_eq s) by lra.
      pose proof (Rabs_pos (p d - meanT (topo_of id (S d)) d)). nra.
Qed.
Print Assumptions C87_types.
Theorem C87_other_types :
  forall mydim cdim eps tolc rule junk ret j1 j2 id r A B, (mydim <= cdim)%nat -> ~ simplexBase id mydim ->
    ta_test mydim cdim eps tolc rule junk ret j1 j2 detR id r A B = None.
Proof.
  intros mydim cdim eps tolc rule junk ret j1 j2 id r A B Hm HS. unfold ta_test. destruct (re_position id mydim r 0 0) as [c|]; [|reflexivity]. cbn [obind].
  destruct (Rltb eps _); [reflexivity|]. rewrite ta_corners_value by (rewrite C16_corner_count; lia). cbn [obind skipn].
  now rewrite (corners_nobase mydim cdim id r vzero _ _ junk ret j1 j2 Hm (ta_images mydim cdim id A B Hm) HS).
Qed.
Print Assumptions C87_other_types.

(** the assertion |det B| = 1 does not suffice: a right geometry of a line in the plane is reported as wrong *)
Theorem C87_assertion_refuted :
  forall junk ret j1 j2, exists A B r, re_infos 0 1 = Some r /\ detR 2 B = 1 /\ row_independent 1 2 (fun i k => rsum 1 (fun j => B k j * A j i)) /\
    forall eps tolc rule q, rule 0%N 1%nat = Some q -> 0 < eps < 1 -> 0 < tolc < 1 / 2 ->
      ta_test 1 2 eps tolc rule junk ret j1 j2 detR 0 r A B <> Some true.
Proof.
  intros junk ret j1 j2. destruct (re_infos_spec 0 1 ltac:(reflexivity)) as (r & Er & _).
  set (B := (fun i j => match i, j with 0%nat, 0%nat => 2 | 1%nat, 1%nat => 1 / 2 | _, _ => 0 end) : Mat).
  exists (fun _ _ => 1), B, r. split; [exact Er|]. assert (D : detR 2 B = 1) by (rewrite detR_2; unfold B; lra). split; [exact D|].
  assert (HR : row_independent 1 2 (fun i k => rsum 1 (fun j => B k j * 1))).
  { intros w Hw i Hi. specialize (Hw 0%nat ltac:(lia)). unfold mvec, mtr in Hw. cbn [rsum] in Hw. unfold B in Hw. replace i with 0%nat by lia. lra. }
  split; [exact HR|]. intros eps tolc rule q Hq [He1 He2] [Ht1 Ht2] H.
  destruct (center_pos 1 0 r ltac:(reflexivity) Er) as (c & Ec & Vc).
  apply (C87_test 1 2 eps tolc rule junk ret j1 j2 0 r (fun _ _ => 1) B c q ltac:(lia) ltac:(lia) ltac:(reflexivity) Er ltac:(intros j; lia) Hq He1 Ht1 Ec) in H; [|rewrite D, Rabs_R1, Rminus_diag_eq, Rabs_R0 by reflexivity; lra|exact HR].
  destruct H as [H _]. rewrite !detR_1 in H. unfold mmul, mtr in H. cbn [rsum] in H. unfold B in H.
  replace (0 + (0 + 2 * 1) * (0 + 2 * 1) + (0 + 0 * 1) * (0 + 0 * 1)) with (2 * 2) in H by ring. rewrite sqrt_square, Rabs_R1 in H by lra. rewrite Rabs_pos_eq in H by lra. lra.
Qed.
Print Assumptions C87_assertion_refuted.

(** ** the program *)
Lemma base_small id d : (d <= 2)%nat -> simplexBase id d.
Proof. intros H j H1 H2. lia. Qed.
Lemma base_zero d : simplexBase 0 d.
Proof. intros j _ _. apply N.bits_0. Qed.
Lemma base_prism : simplexBase 5 3.
Proof. intros j H1 H2. replace j with 1%nat by lia. reflexivity. Qed.
Lemma ta_type_true mydim cdim eps tolc rule junk ret j1 j2 id : (mydim <= cdim)%nat -> (mydim < 256)%nat -> (id < 2 ^ N.of_nat mydim)%N -> (exists q, rule id mydim = Some q) ->
  0 < eps -> 0 < tolc < 1 / INR (size id mydim mydim) -> tolc <= referenceVolume id mydim -> simplexBase id mydim ->
  ta_type mydim cdim eps tolc rule junk ret j1 j2 detR id = Some true.
Proof.
  intros Hm Hd Hid [q Hq] He Ht Hv HS. destruct (re_infos_spec id mydim ltac:(now rewrite bit_pow)) as (r & Er & _). unfold ta_type. rewrite Er. cbn [obind].
  rewrite (proj2 (C87_types mydim cdim eps tolc rule junk ret j1 j2 id r 1 _ q Hm Hd Hid Er Hq He Ht Hv ltac:(lra) (scaled_orth cdim)) HS). cbn [obind].
  rewrite (proj2 (C87_types mydim cdim eps tolc rule junk ret j1 j2 id r 42 _ q Hm Hd Hid Er Hq He Ht Hv ltac:(lra) (scaled_orth cdim)) HS). reflexivity.
Qed.
(** in exact arithmetic the program succeeds, with every quadrature rule *)
Theorem C87_main :
  forall eps tolc rule junk ret j1 j2, (forall id d, exists q, rule id d = Some q) -> 0 < eps -> 0 < tolc <= 1 / 24 ->
    ta_main eps tolc rule junk ret j1 j2 detR ta_calls true = Some true.
Proof.
  intros eps tolc rule junk ret j1 j2 HQ He [Ht1 Ht2].
  assert (K : forall gt m n, In (gt, m, n) ta_calls -> ta_type m n eps tolc rule junk ret j1 j2 detR (gt_id gt) = Some true).
  { intros gt m n H.
    assert (C : (m <= n)%nat /\ (m < 256)%nat /\ (gt_id gt < 2 ^ N.of_nat m)%N /\ (size (gt_id gt) m m <= 6)%nat /\ (1 <= size (gt_id gt) m m)%nat /\ (0 < referenceVolumeInverse (gt_id gt) m <= 24)%N /\ ((m <= 2)%nat \/ gt_id gt = 0%N \/ (gt_id gt = 5%N /\ m = 3%nat))).
    { assert (G : forallb (fun '(gt, m, n) => (Nat.leb m n && Nat.ltb m 256 && N.ltb (gt_id gt) (2 ^ N.of_nat m) && Nat.leb (size (gt_id gt) m m) 6 && Nat.leb 1 (size (gt_id gt) m m) &&
          N.ltb 0 (referenceVolumeInverse (gt_id gt) m) && N.leb (referenceVolumeInverse (gt_id gt) m) 24 && (Nat.leb m 2 || N.eqb (gt_id gt) 0 || (N.eqb (gt_id gt) 5 && Nat.eqb m 3)))%bool) ta_calls = true) by (vm_compute; reflexivity).
      rewrite forallb_forall in G. specialize (G _ H). cbn beta iota in G. rewrite !andb_true_iff, !orb_true_iff, andb_true_iff in G.
      rewrite !Nat.leb_le, !Nat.ltb_lt, !N.ltb_lt, !N.leb_le, !N.eqb_eq, Nat.eqb_eq in G. tauto. }
    destruct C as (C1 & C2 & C3 & C4 & C4' & C5 & C6). apply ta_type_true; auto.
    - split; [assumption|]. apply le_INR in C4. apply le_INR in C4'. cbn [INR] in C4, C4'. eapply Rle_lt_trans; [exact Ht2|]. unfold Rdiv. rewrite !Rmult_1_l. apply Rinv_lt_contravar; [nra|]. lra.
    - unfold referenceVolume. eapply Rle_trans; [exact Ht2|]. unfold Rdiv. rewrite !Rmult_1_l. destruct C5 as [P1 P2].
      apply Rinv_le_contravar; [apply IZR_lt; lia|apply IZR_le; lia].
    - destruct C6 as [C6|[C6|[C6 C7]]]; [now apply base_small|rewrite C6; apply base_zero|rewrite C6, C7; apply base_prism]. }
  revert K. generalize ta_calls. induction l as [|[[gt m] n] l IH]; intro K; [reflexivity|]. cbn [ta_main]. rewrite (K gt m n) by (now left). cbn [obind andb]. apply IH. intros. apply K. now right.
Qed.
Print Assumptions C87_main.
(** for any list of calls, tolerance and quadrature: the program succeeds only if each of them does *)
Theorem C87_verdict :
  forall eps tolc rule junk ret j1 j2 det calls pass,
    ta_main eps tolc rule junk ret j1 j2 det calls pass = Some true <->
    pass = true /\ forall gt m n, In (gt, m, n) calls -> ta_type m n eps tolc rule junk ret j1 j2 det (gt_id gt) = Some true.
Proof.
  intros eps tolc rule junk ret j1 j2 det calls. induction calls as [|[[gt m] n] calls IH]; intro pass; cbn [ta_main].
  - split; [intro H; split; [congruence|intros gt m n []]|intros [-> _]; reflexivity].
  - destruct (ta_type m n eps tolc rule junk ret j1 j2 det (gt_id gt)) as [p|] eqn:E; cbn [obind].
    + rewrite IH, andb_true_iff. split.
      * intros [[-> ->] H]. split; [reflexivity|]. intros gt' m' n' [Q|Q]; [|auto]. injection Q as <- <- <-. exact E.
      * intros [-> H]. assert (Q := H gt m n (or_introl eq_refl)). split; [split; [reflexivity|congruence]|]. intros gt' m' n' Q'. apply H. now right.
    + split; [discriminate|]. intros [_ H]. rewrite (H gt m n (or_introl eq_refl)) in E. discriminate.
Qed.
Print Assumptions C87_verdict.
(** the tests marked as failing fail, in each of them the construction *)
Theorem C87_disabled :
  forall eps tolc rule junk ret j1 j2 gt m n r A B, In (gt, m, n) ta_disabled -> ta_test m n eps tolc rule junk ret j1 j2 detR (gt_id gt) r A B = None.
Proof.
  intros eps tolc rule junk ret j1 j2 gt m n r A B H. assert (G : forallb (fun '(gt, m, n) => (Nat.leb m n && Nat.ltb 2 m && N.testbit (gt_id gt) 1)%bool) ta_disabled = true) by (vm_compute; reflexivity).
  rewrite forallb_forall in G. specialize (G _ H). cbn beta iota in G. rewrite !andb_true_iff, Nat.leb_le, Nat.ltb_lt in G. destruct G as [[G1 G2] G3].
  apply C87_other_types; [assumption|]. intro HS. specialize (HS 1%nat ltac:(lia) ltac:(lia)). change (N.of_nat 1) with 1%N in HS. congruence.
Qed.
Print Assumptions C87_disabled.
(** prisms over simplices are possible in every dimension, pyramids over other elements in none *)
Example C87_example : simplexBase (gt_id (prismaticExtension (simplex 4))) 5 /\ ~ simplexBase (gt_id pyramid) 3 /\ ~ simplexBase (gt_id (cube 3)) 3 /\ simplexBase (gt_id (cube 2)) 2.
Proof.
  split; [|split; [|split]].
  - intros j H1 H2. assert (C : j = 1%nat \/ j = 2%nat \/ j = 3%nat) by lia. destruct C as [E|[E|E]]; rewrite E; reflexivity.
  - intro H. specialize (H 1%nat ltac:(lia) ltac:(lia)). discriminate H.
  - intro H. specialize (H 1%nat ltac:(lia) ltac:(lia)). discriminate H.
  - apply base_small. lia.
Qed.
