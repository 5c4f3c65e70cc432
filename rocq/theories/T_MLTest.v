(** Property C91: what test-multilineargeometry.cc checks, that MultiLinearGeometry passes it, and what it lets through. *)
From Coq Require Import PeanoNat NArith ZArith Bool List Reals Lia Lra.
From Verif Require Import M_Type M_RefTopo M_RefGeo M_Matrix M_Affine M_MultiLinear M_GaussNewton M_LocalFE M_CheckGeo M_AffineTest M_MLTest
  S_Topo S_RefGeo S_Matrix S_MultiLinear S_GaussNewton S_Agree S_CheckGeo S_AffineTest S_NewtonQuad P_Type P_Topo P_RefTopo P_RefTopo2 P_RefTopo3 P_RSum P_RefGeo P_RefGeo2 P_RefGeo3 P_RefGeo4
  P_Matrix P_Matrix2 P_Matrix3 P_Matrix4 P_Matrix5 P_Det P_MxBridge P_Affine
  P_ML1 P_ML2 P_ML3 P_ML4 P_ML5 P_GaussNewton P_Agree P_LocalFE T_RefGeo T_Matrix T_Affine T_MultiLinear T_GaussNewton T_LocalFE P_Agree2 T_Agree P_CheckGeo T_CheckGeo P_AffineTest T_AffineTest
  P_NewtonQuad T_NewtonQuad P_MLTest.
Import ListNotations.
Local Open Scope R_scope.

(** the checks succeed for a class under test if and only if ... : affine() and the values at the centre, local(global(p)) and the Jacobian at the
    corners and at the centre, and checkGeometry *)
Theorem C91_checks :
  forall mydim cdim eps tolc rule junk det (g : Made) id r A B c dA,
    mt_checks mydim cdim eps tolc rule junk det g id r A B c dA = Some true <->
      gi_affine (fst g) = Some true /\
      (exists ie, gi_integrationElement (fst g) c = Some ie /\ Rabs (ie - Rabs dA) <= eps) /\
      (exists v, gi_volume (fst g) = Some v /\ Rabs (v - referenceVolume id mydim * Rabs dA) <= eps) /\
      (exists m, gi_center (fst g) = Some m /\ two_norm cdim (fun k => m k - ta_map mydim cdim A B c k) <= eps) /\
      (forall p, In p (referenceCorners id mydim) -> exists y z, gi_global (fst g) p = Some y /\ snd g y = Some z /\ two_norm mydim (fun k => p k - z k) <= eps) /\
      (forall p, p = c \/ In p (referenceCorners id mydim) -> exists J, gi_jacobianTransposed (fst g) p = Some J /\
         forall i, (i < mydim)%nat -> two_norm cdim (fun k => ta_map mydim cdim A B (upd vzero i 1) k - J i k) <= eps) /\
      checkGeometry mydim cdim tolc junk (fst g) (snd g) (det mydim) (rule id mydim) = Some true.
Proof.
  intros. rewrite checks_true by apply C16_corner_count. split.
  - intros (H1 & H2 & H3 & H4 & H5 & H6 & H7 & H8). repeat (split; [assumption|]). split; [|exact H8]. intros p [->|Hp]; [exact H6|now apply H7].
  - intros (H1 & H2 & H3 & H4 & H5 & H6 & H8). repeat (split; [assumption|]). split; [apply H6; now left|]. split; [|exact H8]. intros p Hp. apply H6. now right.
Qed.
Print Assumptions C91_checks.

Lemma rows_value mydim cdim eps A B J : (mydim <= cdim)%nat -> 0 <= eps -> meq mydim cdim J (taM mydim A B) ->
  forall i, (i < mydim)%nat -> two_norm cdim (fun k => ta_map mydim cdim A B (upd vzero i 1) k - J i k) <= eps.
Proof. intros Hm He H. apply (proj1 (rows_true mydim cdim eps A B J true)). now apply ta_rows_value. Qed.
(** a geometry of one of the classes, for an affine map *)
Lemma checks_instance mydim cdim tol eps tolc rule junk id r A B c q dA (g : Made) :
  (mydim <= cdim)%nat -> (mydim < 256)%nat -> 0 < tol < 1 / 2 -> (id < 2 ^ N.of_nat mydim)%N -> re_infos id mydim = Some r ->
  rule id mydim = Some q -> (forall x w, In (x, w) q -> usable tol id mydim x) -> 0 < eps -> 0 < tolc -> re_position id mydim r 0 0 = Some c ->
  row_independent mydim cdim (taM mydim A B) -> checked_instance mydim cdim tol id r vzero (taM mydim A B) false (fst g) (snd g) ->
  let ie := sqrt (detR mydim (mmul cdim (taM mydim A B) (mtr (taM mydim A B)))) in
  mt_checks mydim cdim eps tolc rule junk detR g id r A B c dA = Some true <->
    Rabs (ie - Rabs dA) <= eps /\ Rabs (ie * referenceVolume id mydim - referenceVolume id mydim * Rabs dA) <= eps /\
    tolc <= ie * referenceVolume id mydim /\
    ((0 < mydim)%nat -> forall i p, nth_error (referenceCorners id mydim) i = Some p -> tolc < two_norm cdim (mvec mydim (mtr (taM mydim A B)) (fun j => p j - c j))).
Proof.
  intros Hm Hd Ht Hid Hr Hq HQ He Htc Hc HR HI ie. set (M := taM mydim A B) in *. assert (Hid' := Hid). rewrite <- bit_pow in Hid'.
  destruct (center_pos mydim id r Hid' Hr) as (c' & Ec & Vc). rewrite Hc in Ec. injection Ec as <-.
  destruct (instance_local mydim cdim tol id r vzero M false (fst g) (snd g) Hm Hd Ht Hid' Hr HR HI) as (HA & TY & HL).
  destruct (pinv_exists mydim cdim M Hm HR) as (X & d & HP).
  destruct (instance_like mydim cdim tol id r vzero M X d Hm Hd Ht Hid' Hr HR HP (fst g) HA) as (A1 & A2 & A3 & A4 & (m & A5 & A5') & A6 & A7).
  assert (IE : ie = d). { unfold ie. destruct HP as (D1 & D2 & _). rewrite <- D2, sqrt_square; [reflexivity|lra]. }
  assert (UC : usable tol id mydim c).
  { left. apply (P_ML5.smooth_ext _ _ (meanT (topo_of id mydim))); [intros k Hk; symmetry; apply Vc; now rewrite tdim_topo in Hk|]. apply meanT_smooth. lra. }
  assert (UP : forall p, In p (referenceCorners id mydim) -> usable tol id mydim p).
  { intros p Hp. apply In_nth_error in Hp. destruct Hp as [i Ei]. exact (corner_usable tol id mydim i p ltac:(lra) Ei). }
  rewrite C91_checks, Hq.
  rewrite (C82_affine_classes mydim cdim tol tolc junk id r vzero M false (fst g) (snd g) c q (d * referenceVolume id mydim) Hm Hd Ht Hid Hr HR HI Htc Hc A6 ltac:(intros x w Hx; split; [exact (HQ x w Hx)|discriminate])).
  rewrite IE. split.
  - intros (_ & (ie' & E1 & C1) & (v & E2 & C2) & _ & _ & _ & H1 & H2). destruct (A7 c UC) as (_ & _ & _ & _ & _ & E6). rewrite E6 in E1. injection E1 as <-. rewrite A6 in E2. injection E2 as <-. auto.
  - intros (C1 & C2 & H1 & H2). split; [exact A1|]. split; [exists d; split; [|exact C1]; now destruct (A7 c UC) as (_ & _ & _ & _ & _ & E6)|].
    split; [exists (d * referenceVolume id mydim); auto|]. split.
    { exists m. split; [exact A5|]. rewrite two_norm_0; [lra|]. intros k Hk. rewrite ta_map_value, A5' by assumption. fold M. rewrite (aff_ext mydim vzero M c (meanT (topo_of id mydim)) k Vc). ring. }
    split.
    { intros p Hp. destruct (A7 p (UP p Hp)) as ((y & E1 & V1) & _). destruct (HL p y (UP p Hp) ltac:(discriminate) E1) as (z & Ez & Vz). exists y, z. split; [exact E1|]. split; [exact Ez|].
      rewrite two_norm_0; [lra|]. intros k Hk. rewrite Vz by assumption. ring. }
    split; [|split; [exact H1|exact H2]].
    intros p Hp. assert (U : usable tol id mydim p) by (destruct Hp as [->|Hp]; auto). destruct (A7 p U) as (_ & _ & (J & EJ & VJ) & _). exists J. split; [exact EJ|].
    apply rows_value; [assumption|lra|exact VJ].
Qed.

(** the images of the corners under the map of the test make a geometry of that map *)
Lemma ml_instance mydim cdim tol maxv jv jm jk j1 j2 fuel id r A B : (mydim <= cdim)%nat -> (id < 2 ^ N.of_nat mydim)%N -> re_infos id mydim = Some r ->
  checked_instance mydim cdim tol id r vzero (taM mydim A B) false
    (fst (mt_ml tol maxv jv jm jk j1 j2 (S fuel) mydim cdim id r (map (ta_map mydim cdim A B) (referenceCorners id mydim))))
    (snd (mt_ml tol maxv jv jm jk j1 j2 (S fuel) mydim cdim id r (map (ta_map mydim cdim A B) (referenceCorners id mydim)))).
Proof.
  intros Hm Hid Hr. unfold mt_ml. cbn [fst snd]. set (g := {| ml_id := id; ml_ref := r; ml_corners := _ |}).
  apply (CI_multilinear mydim cdim tol id r vzero (taM mydim A B) jv jm jk j1 j2 fuel (fun _ => maxv) g).
  - split; [cbn [g ml_id]; now rewrite bit_pow|]. split; [exact Hr|]. cbn [g ml_id ml_corners]. rewrite map_length. apply C16_corner_count.
  - reflexivity.
  - intros i u p Eu Ep k Hk. cbn [g ml_id ml_corners] in Eu, Ep. destruct (ta_images mydim cdim id A B Hm i p Ep) as (u' & Eu' & V). rewrite Eu in Eu'. injection Eu' as <-. now apply V.
Qed.

(** the test of one geometry: every element type, every affine map of full rank that satisfies the assertion *)
Theorem C91_test :
  forall mydim cdim tol maxv jv jm jk j1 j2 fuel eps tolc rule junk id r A B c q, (mydim <= cdim)%nat -> (mydim < 256)%nat -> 0 < tol < 1 / 2 ->
    (id < 2 ^ N.of_nat mydim)%N -> re_infos id mydim = Some r -> rule id mydim = Some q -> (forall x w, In (x, w) q -> usable tol id mydim x) ->
    0 < eps -> 0 < tolc -> re_position id mydim r 0 0 = Some c -> Rabs (Rabs (detR cdim B) - 1) <= eps ->
    let M := fun i k => rsum mydim (fun j => B k j * A j i) in
    let ie := sqrt (detR mydim (mmul cdim M (mtr M))) in
    row_independent mydim cdim M ->
    (mt_test mydim cdim eps tolc rule junk detR (mt_ml tol maxv jv jm jk j1 j2 (S fuel) mydim cdim) id r A B = Some true <->
      Rabs (ie - Rabs (detR mydim A)) <= eps /\ Rabs (ie * referenceVolume id mydim - referenceVolume id mydim * Rabs (detR mydim A)) <= eps /\
      tolc <= ie * referenceVolume id mydim /\
      ((0 < mydim)%nat -> forall i p, nth_error (referenceCorners id mydim) i = Some p -> tolc < two_norm cdim (mvec mydim (mtr M) (fun j => p j - c j)))).
Proof.
  intros mydim cdim tol maxv jv jm jk j1 j2 fuel eps tolc rule junk id r A B c q Hm Hd Ht Hid Hr Hq HQ He Htc Hc HB M ie HR. change M with (taM mydim A B) in *.
  unfold mt_test. rewrite Hc. cbn [obind]. rewrite (proj2 (P_AffineTest.Rltb_false _ _) HB).
  rewrite ta_corners_value by (rewrite C16_corner_count; lia). cbn [obind skipn].
  apply (checks_instance mydim cdim tol eps tolc rule junk id r A B c q); auto. now apply ml_instance.
Qed.
Print Assumptions C91_test.

(** with an orthogonal B only the size of the element matters *)
Theorem C91_test_orthogonal :
  forall mydim cdim tol maxv jv jm jk j1 j2 fuel eps tolc rule junk id r A B c q, (mydim <= cdim)%nat -> (mydim < 256)%nat -> 0 < tol < 1 / 2 ->
    (id < 2 ^ N.of_nat mydim)%N -> re_infos id mydim = Some r -> rule id mydim = Some q -> (forall x w, In (x, w) q -> usable tol id mydim x) ->
    0 < eps -> 0 < tolc -> re_position id mydim r 0 0 = Some c ->
    meq cdim cdim (mmul cdim (mtr B) B) mone -> col_independent mydim mydim A ->
    (mt_test mydim cdim eps tolc rule junk detR (mt_ml tol maxv jv jm jk j1 j2 (S fuel) mydim cdim) id r A B = Some true <->
      tolc <= Rabs (detR mydim A) * referenceVolume id mydim /\
      ((0 < mydim)%nat -> forall i p, nth_error (referenceCorners id mydim) i = Some p -> tolc < two_norm mydim (mvec mydim A (fun j => p j - c j)))).
Proof.
  intros mydim cdim tol maxv jv jm jk j1 j2 fuel eps tolc rule junk id r A B c q Hm Hd Ht Hid Hr Hq HQ He Htc Hc HB HA.
  rewrite (C91_test mydim cdim tol maxv jv jm jk j1 j2 fuel eps tolc rule junk id r A B c q Hm Hd Ht Hid Hr Hq HQ He Htc Hc).
  - change (fun i k => rsum mydim (fun j => B k j * A j i)) with (taM mydim A B). rewrite (ta_det mydim cdim A B Hm HB).
    rewrite (Rminus_diag_eq (Rabs (detR mydim A))), Rminus_diag_eq, Rabs_R0 by ring. split.
    + intros (_ & _ & H1 & H2). split; [exact H1|]. intros P i p Hp. rewrite <- (ta_norm mydim cdim A B Hm HB). now apply (H2 P i).
    + intros (H1 & H2). split; [lra|]. split; [lra|]. split; [exact H1|]. intros P i p Hp. rewrite (ta_norm mydim cdim A B Hm HB). now apply (H2 P i).
  - rewrite (orth_det cdim B HB), Rminus_diag_eq, Rabs_R0 by reflexivity. lra.
  - exact (ta_independent mydim cdim A B Hm HB HA).
Qed.
Print Assumptions C91_test_orthogonal.

(** magnified by s >= 1 and then mapped orthogonally: the test passes for every element type *)
Theorem C91_types :
  forall mydim cdim tol maxv jv jm jk j1 j2 fuel eps tolc rule junk id r s B q, (mydim <= cdim)%nat -> (mydim < 256)%nat -> 0 < tol < 1 / 2 ->
    (id < 2 ^ N.of_nat mydim)%N -> re_infos id mydim = Some r -> rule id mydim = Some q -> (forall x w, In (x, w) q -> usable tol id mydim x) ->
    0 < eps -> 0 < tolc < 1 / INR (size id mydim mydim) -> tolc <= referenceVolume id mydim -> 1 <= s ->
    meq cdim cdim (mmul cdim (mtr B) B) mone ->
    mt_test mydim cdim eps tolc rule junk detR (mt_ml tol maxv jv jm jk j1 j2 (S fuel) mydim cdim) id r (ta_scaled mydim s) B = Some true.
Proof.
  intros mydim cdim tol maxv jv jm jk j1 j2 fuel eps tolc rule junk id r s B q Hm Hd Ht Hid Hr Hq HQ He [Htc Hn] Hv Hs HB.
  assert (Hid' := Hid). rewrite <- bit_pow in Hid'. destruct (center_pos mydim id r Hid' Hr) as (c & Ec & Vc).
  apply (C91_test_orthogonal mydim cdim tol maxv jv jm jk j1 j2 fuel eps tolc rule junk id r _ B c q); auto; [apply scaled_independent; lra|].
  assert (P1 : 1 <= s ^ mydim) by (apply pow_R1_Rle; assumption). split.
  - rewrite scaled_det, Rabs_pos_eq by lra. nra.
  - intros Hpos i p Hp. destruct mydim as [|d]; [lia|]. pose proof (far_coord id d i p Hp) as F.
    eapply Rlt_le_trans; [exact Hn|]. eapply Rle_trans; [exact F|].
    eapply Rle_trans; [|apply (two_norm_coord (S d) _ d); lia]. rewrite scaled_mvec by lia. rewrite Vc by lia. rewrite Rabs_mult, (Rabs_pos_eq s) by lra.
    pose proof (Rabs_pos (p d - meanT (topo_of id (S d)) d)). nra.
Qed.
Print Assumptions C91_types.

(** ** quadrilaterals that are trapezoids *)
Lemma square_corners : exists p0 p1 p2 p3 : Vec, referenceCorners 3 2 = [p0; p1; p2; p3] /\ p0 0%nat = 0 /\ p0 1%nat = 0 /\ p1 0%nat = 1 /\ p1 1%nat = 0 /\ p2 0%nat = 0 /\ p2 1%nat = 1 /\ p3 0%nat = 1 /\ p3 1%nat = 1.
Proof. cbn. do 4 eexists. split; [reflexivity|]. unfold upd, vzero; cbn. repeat split; reflexivity. Qed.
Lemma quad_id : gt_id quadrilateral = 3%N.
Proof. reflexivity. Qed.
Lemma two_norm_2 (v : Vec) : two_norm 2 v = sqrt (v 0%nat * v 0%nat + v 1%nat * v 1%nat).
Proof. unfold two_norm, norm2. cbn [rsum]. f_equal. ring. Qed.
Lemma two_norm_2z (v : Vec) : v 0%nat = 0 -> v 1%nat = 0 -> two_norm 2 v = 0.
Proof. intros H0 H1. apply two_norm_0. intros k Hk. destruct k as [|[|k]]; [exact H0|exact H1|lia]. Qed.

Section Trapezoid.
Variables (tol : R) (jv : Vec) (jm jk j1 j2 : Mat) (r : RefElement).
Hypothesis Ht : 0 < tol < 1 / 4.
Notation g := (quad (vec2 0 0) (vec2 2 0) (vec2 0 1) (vec2 1 1) r).
Hypothesis wf : ml_wf 2 g.
Lemma trap_global x : exists y, mlg_global 2 2 tol jv g x = Some y /\ y 0%nat = (2 - x 1%nat) * x 0%nat /\ y 1%nat = x 1%nat.
Proof.
  destruct (quad_global tol jv (vec2 0 0) (vec2 2 0) (vec2 0 1) (vec2 1 1) r wf x) as (y & E & V). exists y. split; [exact E|]. rewrite !V by lia. unfold bilinear, vec2. split; ring.
Qed.
Lemma trap_local fuel a b y : (3 <= fuel)%nat -> b = 0 \/ b = 1 -> y 0%nat = (2 - b) * a -> y 1%nat = b ->
  exists z, mlg_local 2 2 tol jv jm jk j1 j2 fuel g y = Done (LocPt z) /\ z 0%nat = a /\ z 1%nat = b.
Proof.
  intros Hf Hb Y0 Y1.
  destruct (C90_trapezoid tol jv jm jk j1 j2 (vec2 0 0) (vec2 2 0) (vec2 0 1) (vec2 1 1) r (vec2 a b) y ltac:(lra) wf) as (z & EL & HZ).
  - left. unfold parallel, vec2. ring.
  - unfold jdet, bx, by_, S_NewtonQuad.center, pt, vec2. lra.
  - unfold jdet, bx, by_, vec2. destruct Hb; subst b; lra.
  - intros k Hk. destruct k as [|[|k]]; [rewrite Y0|rewrite Y1|lia]; unfold bilinear, vec2; ring.
  - assert (NM : norm2 2 (mixed (vec2 0 0) (vec2 2 0) (vec2 0 1) (vec2 1 1)) = 1) by (unfold norm2, mixed, vec2; cbn [rsum]; lra).
    exists z. split; [now apply EL|]. destruct (HZ ltac:(rewrite NM; lra)) as [V|V]; [split; [apply (V 0%nat)|apply (V 1%nat)]; lia|]. exfalso.
    assert (Q := residual_component tol jv jm jk j1 j2 _ _ _ _ r y fuel z ltac:(lra) wf ltac:(rewrite NM; lra) (EL fuel Hf) 1%nat ltac:(lia)).
    rewrite Y1 in Q. unfold bilinear, mixed, vec2 in Q. replace (0 - 0 - 1 + 1) with 0 in Q by ring. rewrite Rabs_R0, Rmult_0_r in Q.
    match type of Q with Rabs ?e <= _ => assert (e = 0) by (destruct (Req_dec e 0) as [|N]; [assumption|apply Rabs_pos_lt in N; lra]) end.
    assert (Z1 : z 1%nat = b) by lra. unfold norm2 in V. cbn [rsum] in V. rewrite Z1 in V. pose proof (Rle_0_sqr (z 0%nat - 1 / 2)) as S0. unfold Rsqr in S0.
    destruct Hb; subst b; rewrite ?H0 in V; lra.
Qed.
End Trapezoid.

(** testNonLinearGeometry passes *)
Theorem C91_nonlinear :
  forall tol maxv jv jm jk j1 j2 fuel eps16, 0 < tol < 1 / 4 -> 0 <= eps16 -> (3 <= fuel)%nat ->
    mt_nonlinear eps16 (mt_ml tol maxv jv jm jk j1 j2 fuel 2 2) = Some true.
Proof.
  intros tol maxv jv jm jk j1 j2 fuel eps16 Ht He Hf. unfold mt_nonlinear. rewrite quad_id. destruct (re_infos_spec 3 2 ltac:(reflexivity)) as (r & Er & _). rewrite Er. cbn [obind].
  set (G := mt_ml tol maxv jv jm jk j1 j2 fuel 2 2 3%N r mt_nonlinear_corners).
  change G with (gi_ml 2 2 tol jv jm jk j1 j2 (quad (vec2 0 0) (vec2 2 0) (vec2 0 1) (vec2 1 1) r),
    fun y => match mlg_local 2 2 tol jv jm jk j1 j2 fuel (quad (vec2 0 0) (vec2 2 0) (vec2 0 1) (vec2 1 1) r) y with Done (LocPt z) => Some z | Done LocMax => Some (fun _ => maxv) | _ => None end).
  clear G. assert (wf : ml_wf 2 (quad (vec2 0 0) (vec2 2 0) (vec2 0 1) (vec2 1 1) r)) by (repeat split; auto).
  destruct square_corners as (p0 & p1 & p2 & p3 & EC & P00 & P01 & P10 & P11 & P20 & P21 & P30 & P31).
  assert (GL : forall x, exists y, gi_global (gi_ml 2 2 tol jv jm jk j1 j2 (quad (vec2 0 0) (vec2 2 0) (vec2 0 1) (vec2 1 1) r)) x = Some y /\ y 0%nat = (2 - x 1%nat) * x 0%nat /\ y 1%nat = x 1%nat)
    by (intro x; exact (trap_global tol jv r wf x)).
  assert (LO : forall a b y, b = 0 \/ b = 1 -> y 0%nat = (2 - b) * a -> y 1%nat = b ->
     exists z, match mlg_local 2 2 tol jv jm jk j1 j2 fuel (quad (vec2 0 0) (vec2 2 0) (vec2 0 1) (vec2 1 1) r) y with Done (LocPt z) => Some z | Done LocMax => Some (fun _ => maxv) | _ => None end = Some z /\ z 0%nat = a /\ z 1%nat = b).
  { intros a b y Hb Y0 Y1. destruct (trap_local tol jv jm jk j1 j2 r Ht wf fuel a b y Hf Hb Y0 Y1) as (z & E & Z). exists z. now rewrite E. }
  set (gl := gi_ml _ _ _ _ _ _ _ _ _) in *. set (lo := fun y : Vec => match mlg_local 2 2 tol jv jm jk j1 j2 fuel _ y with Done (LocPt z) => Some z | Done LocMax => Some (fun _ => maxv) | _ => None end).
  assert (LO' : forall a b y, b = 0 \/ b = 1 -> y 0%nat = (2 - b) * a -> y 1%nat = b -> exists z, lo y = Some z /\ z 0%nat = a /\ z 1%nat = b) by exact LO.
  clearbody lo gl. clear LO. unfold mt_nonlinear_corners.
  assert (RL : forall v : Vec, v 0%nat = 0 -> v 1%nat = 0 -> Rltb eps16 (two_norm 2 v) = false) by (intros v H0 H1; rewrite two_norm_2z by assumption; now apply P_AffineTest.Rltb_false).
  assert (GG : forall x y0 y1, (2 - x 1%nat) * x 0%nat = y0 -> x 1%nat = y1 -> exists y, gi_global gl x = Some y /\ y 0%nat = y0 /\ y 1%nat = y1).
  { intros x y0 y1 <- <-. apply GL. }
  cbn [mt_global mt_local fst snd]. rewrite !pos_corner, EC. cbn [nth_error obind].
  destruct (GG p0 0 0 ltac:(rewrite P00; ring) P01) as (y0 & -> & Y00 & Y01). cbn [obind]. rewrite RL by (unfold vec2; rewrite ?Y00, ?Y01; ring).
  destruct (GG p1 2 0 ltac:(rewrite P10, P11; ring) P11) as (y1 & -> & Y10 & Y11). cbn [obind]. rewrite RL by (unfold vec2; rewrite ?Y10, ?Y11; ring).
  destruct (GG p2 0 1 ltac:(rewrite P20; ring) P21) as (y2 & -> & Y20 & Y21). cbn [obind]. rewrite RL by (unfold vec2; rewrite ?Y20, ?Y21; ring).
  destruct (GG p3 1 1 ltac:(rewrite P30, P31; ring) P31) as (y3 & -> & Y30 & Y31). cbn [obind]. rewrite RL by (unfold vec2; rewrite ?Y30, ?Y31; ring).
  destruct (GG (vec2 (-1) 0) (-2) 0 ltac:(unfold vec2; ring) eq_refl) as (y4 & -> & Y40 & Y41). cbn [obind]. rewrite RL by (unfold vec2; rewrite ?Y40, ?Y41; ring).
  destruct (LO' 0 0 (vec2 0 0)) as (z0 & -> & Z00 & Z01); [now left|unfold vec2; ring|reflexivity|]. cbn [obind]. rewrite RL by (rewrite ?Z00, ?Z01, ?P00, ?P01; ring).
  destruct (LO' 1 0 (vec2 2 0)) as (z1 & -> & Z10 & Z11); [now left|unfold vec2; ring|reflexivity|]. cbn [obind]. rewrite RL by (rewrite ?Z10, ?Z11, ?P10, ?P11; ring).
  destruct (LO' 0 1 (vec2 0 1)) as (z2 & -> & Z20 & Z21); [now right|unfold vec2; ring|reflexivity|]. cbn [obind]. rewrite RL by (rewrite ?Z20, ?Z21, ?P20, ?P21; ring).
  destruct (LO' 1 1 (vec2 1 1)) as (z3 & -> & Z30 & Z31); [now right|unfold vec2; ring|reflexivity|]. cbn [obind]. rewrite RL by (rewrite ?Z30, ?Z31, ?P30, ?P31; ring).
  destruct (LO' (-1) 0 (vec2 (-2) 0)) as (z4 & -> & Z40 & Z41); [now left|unfold vec2; ring|reflexivity|]. cbn [obind]. rewrite RL by (unfold vec2; rewrite ?Z40, ?Z41; ring).
  reflexivity.
Qed.
Print Assumptions C91_nonlinear.

Lemma inside_triangle z t : checkInside 0 2 z t 1 = (Rltb (- t) (z 1%nat) && Rltb (- t) (1 - z 1%nat) && (Rltb (- t) (z 0%nat) && Rltb (- t) (1 - z 1%nat - z 0%nat)))%bool.
Proof. cbn. destruct (_ && _)%bool; [|reflexivity]. destruct (_ && _)%bool; reflexivity. Qed.
Lemma inside_square z t : checkInside 3 2 z t 1 = (Rltb (- t) (z 1%nat) && Rltb (- t) (1 - z 1%nat) && (Rltb (- t) (z 0%nat) && Rltb (- t) (1 - z 0%nat)))%bool.
Proof. cbn. destruct (_ && _)%bool; [|reflexivity]. destruct (_ && _)%bool; reflexivity. Qed.

Section LocalMethod.
Variables (tol : R) (jv : Vec) (jm jk j1 j2 : Mat) (r : RefElement).
Hypothesis Ht : 0 < tol < 1 / 10 ^ 8.
Notation tri := (triangle (vec2 (1 / 2) 0) (vec2 (1 / 2) (1 / 2)) (vec2 0 (1 / 2)) r).
Notation qua := (quad (vec2 0 0) (vec2 (1 / 2) (1 / 2)) (vec2 0 1) (vec2 (1 / 2) 1) r).
Definition triM : Mat := fun i k => match i, k with 0%nat, 0%nat => 0 | 0%nat, _ => 1 / 2 | _, 0%nat => - (1 / 2) | _, _ => 1 / 2 end.
Lemma tri_corners : ml_wf 2 tri -> corners_affine 2 2 tri (vec2 (1 / 2) 0) triM.
Proof.
  intros wf i c p Ec Ep k Hk. cbn in Ec, Ep. destruct k as [|[|k]]; [| |lia];
    (destruct i as [|[|[|i]]]; [| | |destruct i; discriminate Ec]); cbn in Ec, Ep; injection Ec as <-; injection Ep as <-; unfold vec2, triM, upd, vzero; cbn; lra.
Qed.
Lemma tri_indep : row_independent 2 2 triM.
Proof.
  intros w Hw i Hi. assert (H0 := Hw 0%nat ltac:(lia)). assert (H1 := Hw 1%nat ltac:(lia)). unfold mvec, mtr, triM in H0, H1. cbn [rsum] in H0, H1. destruct i as [|[|i]]; [| |lia]; lra.
Qed.
Lemma tri_local fuel y : ml_wf 2 tri -> exists z, mlg_local 2 2 tol jv jm jk j1 j2 (S fuel) tri y = Done (LocPt z) /\ z 0%nat = 2 * y 0%nat + 2 * y 1%nat - 1 /\ z 1%nat = 1 - 2 * y 0%nat.
Proof.
  intro wf. destruct (local_sol 2 2 tol jv jm jk j1 j2 ltac:(lra) tri ltac:(lra) wf ltac:(lia) (vec2 (1 / 2) 0) triM (tri_corners wf) tri_indep fuel y) as (z & E & S). exists z. split; [exact E|].
  assert (S0 := S 0%nat ltac:(lia)). assert (S1 := S 1%nat ltac:(lia)). unfold mvec, mmul, mtr, triM, vec2 in S0, S1. cbn [rsum] in S0, S1. split; lra.
Qed.
Lemma tri_global x : ml_wf 2 tri -> in_hull 2 (referenceCorners 0 2) x -> regular tol (topo_of 0 2) x -> exists y, mlg_global 2 2 tol jv tri x = Some y /\ y 0%nat = 1 / 2 - 1 / 2 * x 1%nat /\ y 1%nat = 1 / 2 * x 0%nat + 1 / 2 * x 1%nat.
Proof.
  intros wf HI HR. destruct (affine_global 2 2 tol ltac:(lra) tri wf jv (vec2 (1 / 2) 0) triM x (tri_corners wf)) as (y & E & V); [apply nice_inside; auto; lra|].
  exists y. split; [exact E|]. rewrite !V by lia. unfold mvec, mtr, triM, vec2. cbn [rsum]. split; lra.
Qed.
Lemma tri_global' x : ml_wf 2 tri -> smooth tol (topo_of 0 2) x -> exists y, mlg_global 2 2 tol jv tri x = Some y /\ y 0%nat = 1 / 2 - 1 / 2 * x 1%nat /\ y 1%nat = 1 / 2 * x 0%nat + 1 / 2 * x 1%nat.
Proof.
  intros wf HS. destruct (affine_global 2 2 tol ltac:(lra) tri wf jv (vec2 (1 / 2) 0) triM x (tri_corners wf)) as (y & E & V); [apply nice_smooth; auto|].
  exists y. split; [exact E|]. rewrite !V by lia. unfold mvec, mtr, triM, vec2. cbn [rsum]. split; lra.
Qed.
Lemma qua_global x : ml_wf 2 qua -> exists y, mlg_global 2 2 tol jv qua x = Some y /\ y 0%nat = x 0%nat / 2 /\ y 1%nat = x 0%nat / 2 + x 1%nat - x 0%nat * x 1%nat / 2.
Proof.
  intro wf. destruct (quad_global tol jv (vec2 0 0) (vec2 (1 / 2) (1 / 2)) (vec2 0 1) (vec2 (1 / 2) 1) r wf x) as (y & E & V). exists y. split; [exact E|]. rewrite !V by lia. unfold bilinear, vec2. split; field.
Qed.
(** the second coordinate of the returned point: exact, or close to the centre with a small residual *)
Lemma qua_local fuel a b y : ml_wf 2 qua -> (3 <= fuel)%nat -> a <> 2 -> y 0%nat = a / 2 -> y 1%nat = a / 2 + b - a * b / 2 ->
  exists z, mlg_local 2 2 tol jv jm jk j1 j2 fuel qua y = Done (LocPt z) /\ z 0%nat = a /\ (z 1%nat = b \/ (z 1%nat - 1 / 2) * (z 1%nat - 1 / 2) <= tol) /\
    Rabs (z 0%nat / 2 + z 1%nat - z 0%nat * z 1%nat / 2 - y 1%nat) <= tol.
Proof.
  intros wf Hf Na Y0 Y1.
  destruct (C90_trapezoid tol jv jm jk j1 j2 (vec2 0 0) (vec2 (1 / 2) (1 / 2)) (vec2 0 1) (vec2 (1 / 2) 1) r (vec2 a b) y ltac:(lra) wf) as (z & EL & HZ).
  - right. unfold parallel, vec2. ring.
  - unfold jdet, bx, by_, S_NewtonQuad.center, pt, vec2. lra.
  - unfold jdet, bx, by_, vec2. intro Q. apply Na. lra.
  - intros k Hk. destruct k as [|[|k]]; [rewrite Y0|rewrite Y1|lia]; unfold bilinear, vec2; field.
  - assert (NM : norm2 2 (mixed (vec2 0 0) (vec2 (1 / 2) (1 / 2)) (vec2 0 1) (vec2 (1 / 2) 1)) = 1 / 4) by (unfold norm2, mixed, vec2; cbn [rsum]; lra).
    assert (Q : forall k, (k < 2)%nat -> _) by exact (residual_component tol jv jm jk j1 j2 _ _ _ _ r y fuel z ltac:(lra) wf ltac:(rewrite NM; lra) (EL fuel Hf)).
    assert (Q0 := Q 0%nat ltac:(lia)). assert (Q1 := Q 1%nat ltac:(lia)). rewrite Y0 in Q0. unfold bilinear, mixed, vec2 in Q0, Q1. replace (0 - 1 / 2 - 0 + 1 / 2) with 0 in Q0 by field. rewrite Rabs_R0, Rmult_0_r in Q0.
    replace (0 - 1 / 2 - 1 + 1) with (- (1 / 2)) in Q1 by field. rewrite Rabs_Ropp, (Rabs_pos_eq (1 / 2)) in Q1 by lra.
    match type of Q0 with Rabs ?e <= _ => assert (E0 : e = 0) by (destruct (Req_dec e 0) as [|N]; [assumption|apply Rabs_pos_lt in N; lra]) end.
    exists z. split; [now apply EL|]. split; [lra|]. split.
    + destruct (HZ ltac:(rewrite NM; lra)) as [V|V]; [left; apply (V 1%nat); lia|right]. unfold norm2 in V. cbn [rsum] in V. pose proof (Rle_0_sqr (z 0%nat - 1 / 2)) as S0. unfold Rsqr in S0. lra.
    + match type of Q1 with Rabs ?e <= _ => replace (z 0%nat / 2 + z 1%nat - z 0%nat * z 1%nat / 2 - y 1%nat) with e by field end. lra.
Qed.
(** a target at which Newton's method runs into a singular Jacobian *)
Lemma qua_local_max fuel y : ml_wf 2 qua -> (2 <= fuel)%nat -> y 0%nat = 1 -> mlg_local 2 2 tol jv jm jk j1 j2 fuel qua y = Done LocMax.
Proof.
  intros wf Hf Y0. destruct (flag_value tol jm jk (vec2 0 0) (vec2 (1 / 2) (1 / 2)) (vec2 0 1) (vec2 (1 / 2) 1) r ltac:(lra) wf) as (jt & EA).
  assert (NM : norm2 2 (mixed (vec2 0 0) (vec2 (1 / 2) (1 / 2)) (vec2 0 1) (vec2 (1 / 2) 1)) = 1 / 4) by (unfold norm2, mixed, vec2; cbn [rsum]; lra).
  rewrite NM in EA. rewrite (proj2 (P_AffineTest.Rltb_false (1 / 4) tol)) in EA by lra.
  destruct (local_unfold tol jv jm jk j1 j2 (vec2 0 0) (vec2 (1 / 2) (1 / 2)) (vec2 0 1) (vec2 (1 / 2) 1) r false jt wf EA) as (p & P0 & P1 & U). rewrite U.
  destruct fuel as [|[|fuel]]; [lia|lia|].
  destruct (step_regular tol jv jm jk j1 j2 (vec2 0 0) (vec2 (1 / 2) (1 / 2)) (vec2 0 1) (vec2 (1 / 2) 1) r wf y p) as (dx & E & V).
  { unfold jdet, bx, by_, vec2. rewrite P0, P1. lra. }
  assert (V0 := V 0%nat ltac:(lia)). unfold bx, by_, bilinear, vec2 in V0. rewrite P0, P1, Y0 in V0. assert (D0 : dx 0%nat = - (3 / 2)) by lra.
  destruct (step_singular tol jv jm jk j1 j2 (vec2 0 0) (vec2 (1 / 2) (1 / 2)) (vec2 0 1) (vec2 (1 / 2) 1) r wf y (fun k => p k - dx k)) as (w & W).
  { unfold jdet, bx, by_, vec2. rewrite P0, D0. field. }
  cbn [ml_newton]. rewrite E. replace (Rltb tol (norm2 2 dx)) with true.
  - rewrite W. reflexivity.
  - symmetry. apply Rltb_true. unfold norm2. cbn [rsum]. rewrite D0. pose proof (Rle_0_sqr (dx 1%nat)) as S1. unfold Rsqr in S1. lra.
Qed.
End LocalMethod.

Lemma mt_inside_true toli (g : Made) id y (b : bool) z : snd g y = Some z -> checkInside id 2 z toli 1 = b ->
  (b = true -> exists y', gi_global (fst g) z = Some y' /\ two_norm 2 (fun k => y' k - y k) <= 1 / 10 ^ 8) -> mt_inside toli g id y b = Some true.
Proof.
  intros E C H. unfold mt_inside. rewrite E. cbn [obind]. rewrite C, Bool.eqb_reflx. cbn [negb]. destruct b; [|reflexivity].
  destruct (H eq_refl) as (y' & E' & N). rewrite E'. cbn [obind]. now rewrite (proj2 (P_AffineTest.Rltb_false _ _) N).
Qed.
Lemma Rltb_yes a b : a < b -> Rltb a b = true.
Proof. apply Rltb_true. Qed.
Lemma Rltb_no a b : b <= a -> Rltb a b = false.
Proof. apply P_AffineTest.Rltb_false. Qed.

(** testLocalMethod passes: the three points of the triangle and the three of the quadrilateral are told apart, and the points inside are found *)
Theorem C91_local_method :
  forall tol maxv jv jm jk j1 j2 fuel toli, 0 < tol < 1 / 10 ^ 8 -> 0 <= toli < 1 / 10 -> 2 <= maxv -> (3 <= fuel)%nat ->
    mt_localMethod toli (mt_ml tol maxv jv jm jk j1 j2 fuel 2 2) = Some true.
Proof.
  intros tol maxv jv jm jk j1 j2 fuel toli Ht Hi Hx Hf. unfold mt_localMethod. change (gt_id (simplex 2)) with 0%N. change (gt_id (cube 2)) with 3%N.
  destruct (re_infos_spec 0 2 ltac:(reflexivity)) as (r & Er & _). rewrite Er. cbn [obind].
  destruct (re_infos_spec 3 2 ltac:(reflexivity)) as (s & Es & _). rewrite Es. cbn [obind].
  destruct fuel as [|fuel]; [lia|].
  set (tri := triangle (vec2 (1 / 2) 0) (vec2 (1 / 2) (1 / 2)) (vec2 0 (1 / 2)) r). set (qua := quad (vec2 0 0) (vec2 (1 / 2) (1 / 2)) (vec2 0 1) (vec2 (1 / 2) 1) s).
  assert (wt : ml_wf 2 tri) by (repeat split; auto). assert (wq : ml_wf 2 qua) by (repeat split; auto).
  set (GT := mt_ml tol maxv jv jm jk j1 j2 (S fuel) 2 2 0%N r mt_triangle_corners). set (GQ := mt_ml tol maxv jv jm jk j1 j2 (S fuel) 2 2 3%N s mt_quadrilateral_corners).
  assert (LT : forall y, exists z, snd GT y = Some z /\ z 0%nat = 2 * y 0%nat + 2 * y 1%nat - 1 /\ z 1%nat = 1 - 2 * y 0%nat).
  { intro y. destruct (tri_local tol jv jm jk j1 j2 r Ht fuel y wt) as (z & E & Z). exists z. split; [|exact Z]. unfold GT, mt_ml. cbn [snd]. unfold mt_triangle_corners.
    change {| ml_id := 0; ml_ref := r; ml_corners := _ |} with tri. unfold tri. now rewrite E. }
  assert (LQ : forall y o, mlg_local 2 2 tol jv jm jk j1 j2 (S fuel) qua y = Done o -> snd GQ y = match o with LocPt z => Some z | LocMax => Some (fun _ => maxv) end).
  { intros y o E. unfold GQ, mt_ml. cbn [snd]. unfold mt_quadrilateral_corners. change {| ml_id := 3; ml_ref := s; ml_corners := _ |} with qua. rewrite E. now destruct o. }
  assert (T1 : mt_inside toli GT 0 (fun _ => 4 / 10) true = Some true).
  { destruct (LT (fun _ => 4 / 10)) as (z & E & Z0 & Z1). cbv beta in Z0, Z1. apply (mt_inside_true toli GT 0 _ true z E).
    - rewrite inside_triangle, Z0, Z1. rewrite !Rltb_yes by lra. reflexivity.
    - intros _. destruct (tri_global' tol jv r Ht z wt) as (y & Ey & V0 & V1).
      + cbn. right. rewrite Z1. split; [rewrite Rabs_pos_eq by lra; lra|]. left. reflexivity.
      + exists y. split; [exact Ey|]. rewrite two_norm_2z; [lra|rewrite V0, Z1; field|rewrite V1, Z0, Z1; field]. }
  assert (T2 : mt_inside toli GT 0 (fun _ => - (1 / 10)) false = Some true).
  { destruct (LT (fun _ => - (1 / 10))) as (z & E & Z0 & Z1). cbv beta in Z0, Z1. apply (mt_inside_true toli GT 0 _ false z E); [|discriminate].
    rewrite inside_triangle, Z0, Z1. rewrite (Rltb_no (- toli) (1 - (1 - 2 * - (1 / 10)))) by lra. now rewrite andb_false_r. }
  assert (T3 : mt_inside toli GT 0 (fun _ => 0) false = Some true).
  { destruct (LT (fun _ => 0)) as (z & E & Z0 & Z1). cbv beta in Z0, Z1. apply (mt_inside_true toli GT 0 _ false z E); [|discriminate].
    rewrite inside_triangle, Z0, Z1. rewrite (Rltb_no (- toli) (2 * 0 + 2 * 0 - 1)) by lra. cbn [andb]. now rewrite andb_false_r. }
  assert (Q1 : mt_inside toli GQ 3 (vec2 (1 / 4) (3 / 4)) true = Some true).
  { destruct (qua_local tol jv jm jk j1 j2 s Ht (S fuel) (1 / 2) (2 / 3) (vec2 (1 / 4) (3 / 4)) wq Hf ltac:(lra)) as (z & E & Z0 & Z1 & Z2); [unfold vec2; lra|unfold vec2; lra|].
    assert (B : 1 / 4 < z 1%nat < 3 / 4). { destruct Z1 as [->|Z1]; [lra|]. split; apply Rnot_le_lt; intro C; nra. }
    apply (mt_inside_true toli GQ 3 _ true z); [now rewrite (LQ _ _ E)| |].
    - rewrite inside_square, Z0. rewrite !Rltb_yes by lra. reflexivity.
    - intros _. destruct (qua_global tol jv s z wq) as (y & Ey & V0 & V1). exists y. split; [exact Ey|].
      rewrite two_norm_2. rewrite V0, Z0. unfold vec2 at 1 2. replace (1 / 2 / 2 - 1 / 4) with 0 by field. rewrite Rmult_0_l, Rplus_0_l. rewrite <- V1 in Z2.
      assert (Z3 : Rabs (y 1%nat - vec2 (1 / 4) (3 / 4) 1%nat) <= tol) by exact Z2.
      fold (Rsqr (y 1%nat - vec2 (1 / 4) (3 / 4) 1%nat)). rewrite sqrt_Rsqr_abs. lra. }
  assert (Q2 : mt_inside toli GQ 3 (vec2 1 0) false = Some true).
  { assert (E := qua_local_max tol jv jm jk j1 j2 s Ht (S fuel) (vec2 1 0) wq ltac:(lia) eq_refl). apply (mt_inside_true toli GQ 3 _ false (fun _ => maxv)); [now rewrite (LQ _ _ E)| |discriminate].
    rewrite inside_square. rewrite (Rltb_no (- toli) (1 - maxv)) by lra. now rewrite andb_false_r. }
  assert (Q3 : mt_inside toli GQ 3 (fun _ => 4) false = Some true).
  { destruct (qua_local tol jv jm jk j1 j2 s Ht (S fuel) 8 0 (fun _ => 4) wq Hf ltac:(lra)) as (z & E & Z0 & _); [lra|lra|].
    apply (mt_inside_true toli GQ 3 _ false z); [now rewrite (LQ _ _ E)| |discriminate].
    rewrite inside_square, Z0. rewrite (Rltb_no (- toli) (1 - 8)) by lra. now rewrite !andb_false_r. }
  rewrite T1, T2, T3. cbn [obind]. rewrite Q1, Q2, Q3. reflexivity.
Qed.
Print Assumptions C91_local_method.

(** the exit code is 0 exactly if every part succeeds, for whatever class is tested *)
Theorem C91_verdict :
  forall eps eps16 tolc toli rule junk det make makeRef calls,
    mt_main eps eps16 tolc toli rule junk det make makeRef calls = Some true <->
    (forall gt m n, In (gt, m, n) calls -> mt_type m n eps tolc rule junk det (make m n) (gt_id gt) = Some true /\ mt_type m n eps tolc rule junk det (makeRef m n) (gt_id gt) = Some true) /\
    mt_nonlinear eps16 (make 2%nat 2%nat) = Some true /\ mt_nonlinear eps16 (makeRef 2%nat 2%nat) = Some true /\ mt_localMethod toli (make 2%nat 2%nat) = Some true.
Proof.
  intros eps eps16 tolc toli rule junk det make makeRef calls.
  assert (T : forall mk calls pass, mt_types eps tolc rule junk det mk calls pass = Some true <-> pass = true /\ forall gt m n, In (gt, m, n) calls -> mt_type m n eps tolc rule junk det (mk m n) (gt_id gt) = Some true).
  { intro mk. clear. induction calls as [|[[gt m] n] calls IH]; intro pass; cbn [mt_types].
    - split; [intro H; split; [congruence|intros gt m n []]|intros [-> _]; reflexivity].
    - rewrite obind_true. split.
      + intros (p & E & H). apply IH in H. destruct H as [H1 H2]. apply andb_true_iff in H1. destruct H1 as [-> ->]. split; [reflexivity|]. intros gt' m' n' [Q|Q]; [injection Q as <- <- <-; exact E|auto].
      + intros [-> H]. exists true. split; [apply H; now left|]. apply IH. split; [reflexivity|]. intros gt' m' n' Q. apply H. now right. }
  assert (A : forall mk, mt_all eps eps16 tolc rule junk det mk calls = Some true <-> (forall gt m n, In (gt, m, n) calls -> mt_type m n eps tolc rule junk det (mk m n) (gt_id gt) = Some true) /\ mt_nonlinear eps16 (mk 2%nat 2%nat) = Some true).
  { intro mk. unfold mt_all. rewrite obind_true. split.
    - intros (p & E & H). apply obind_true in H. destruct H as (p' & E' & H). apply some_true, andb_true_iff in H. destruct H as [-> ->]. apply T in E. tauto.
    - intros [H1 H2]. exists true. split; [now apply T|]. now rewrite H2. }
  unfold mt_main. rewrite obind_true. split.
  - intros (p & E & H). apply obind_true in H. destruct H as (p2 & E2 & H). apply obind_true in H. destruct H as (p3 & E3 & H). apply some_true in H. rewrite !andb_true_iff in H. destruct H as [[-> ->] ->].
    apply A in E. apply A in E2. destruct E as [E E'], E2 as [E2 E2']. split; [intros; split; auto|auto].
  - intros (H1 & H2 & H3 & H4). exists true. split; [apply A; split; [intros; now apply H1|assumption]|]. apply obind_true. exists true. split; [apply A; split; [intros; now apply H1|assumption]|]. now rewrite H4.
Qed.
Print Assumptions C91_verdict.

(** what the program needs of its quadrature rules *)
Definition rules_usable (tol : R) (rule : N -> nat -> option Rule) : Prop := forall id d, exists q, rule id d = Some q /\ forall x w, In (x, w) q -> usable tol id d x.
Lemma calls_ok gt m n : In (gt, m, n) mt_calls -> (m <= n)%nat /\ (m < 256)%nat /\ (gt_id gt < 2 ^ N.of_nat m)%N /\ (size (gt_id gt) m m <= 16)%nat /\ (1 <= size (gt_id gt) m m)%nat /\ (0 < referenceVolumeInverse (gt_id gt) m <= 24)%N.
Proof.
  intro H. assert (G : forallb (fun '(gt, m, n) => (Nat.leb m n && Nat.ltb m 256 && N.ltb (gt_id gt) (2 ^ N.of_nat m) && Nat.leb (size (gt_id gt) m m) 16 && Nat.leb 1 (size (gt_id gt) m m) &&
      N.ltb 0 (referenceVolumeInverse (gt_id gt) m) && N.leb (referenceVolumeInverse (gt_id gt) m) 24)%bool) mt_calls = true) by (vm_compute; reflexivity).
  rewrite forallb_forall in G. specialize (G _ H). cbn beta iota in G. rewrite !andb_true_iff in G.
  rewrite !Nat.leb_le, !Nat.ltb_lt, !N.ltb_lt, !N.leb_le in G. tauto.
Qed.
Lemma type_true (make : Make) m n eps tolc rule junk gt : In (gt, m, n) mt_calls -> 0 < tolc <= 1 / 24 ->
  (forall s r, (s = 1 \/ s = 42) -> re_infos (gt_id gt) m = Some r -> 0 < tolc < 1 / INR (size (gt_id gt) m m) -> tolc <= referenceVolume (gt_id gt) m ->
     mt_test m n eps tolc rule junk detR make (gt_id gt) r (ta_scaled m s) (ta_scaled n 1) = Some true) ->
  mt_type m n eps tolc rule junk detR make (gt_id gt) = Some true.
Proof.
  intros H [Ht1 Ht2] HT. destruct (calls_ok gt m n H) as (C1 & C2 & C3 & C4 & C4' & C5). unfold mt_type.
  destruct (re_infos_spec (gt_id gt) m ltac:(now rewrite bit_pow)) as (r & Er & _). rewrite Er. cbn [obind].
  assert (B1 : 0 < tolc < 1 / INR (size (gt_id gt) m m)).
  { split; [assumption|]. apply le_INR in C4. apply le_INR in C4'. cbn [INR] in C4, C4'. eapply Rle_lt_trans; [exact Ht2|]. unfold Rdiv. rewrite !Rmult_1_l. apply Rinv_lt_contravar; [nra|]. lra. }
  assert (B2 : tolc <= referenceVolume (gt_id gt) m).
  { unfold referenceVolume. eapply Rle_trans; [exact Ht2|]. unfold Rdiv. rewrite !Rmult_1_l. destruct C5 as [P1 P2]. apply Rinv_le_contravar; [apply IZR_lt; lia|apply IZR_le; lia]. }
  rewrite (HT 1 r) by auto. cbn [obind]. rewrite (HT 42 r) by auto. reflexivity.
Qed.
(** in exact arithmetic the program succeeds; three Newton steps are enough for it *)
Theorem C91_main :
  forall tol maxv jv jm jk j1 j2 fuel eps eps16 tolc toli rule junk, 0 < tol < 1 / 10 ^ 8 -> 2 <= maxv -> (3 <= fuel)%nat -> rules_usable tol rule ->
    0 < eps -> 0 <= eps16 -> 0 < tolc <= 1 / 24 -> 0 <= toli < 1 / 10 ->
    let ml := mt_ml tol maxv jv jm jk j1 j2 fuel in
    mt_main eps eps16 tolc toli rule junk detR ml ml mt_calls = Some true.
Proof.
  intros tol maxv jv jm jk j1 j2 fuel eps eps16 tolc toli rule junk Ht Hx Hf HQ He He' Htc Hi ml. apply C91_verdict.
  assert (K : forall gt m n, In (gt, m, n) mt_calls -> mt_type m n eps tolc rule junk detR (ml m n) (gt_id gt) = Some true).
  { intros gt m n H. apply type_true; [assumption|assumption|]. intros s r Hs Er B1 B2. destruct (calls_ok gt m n H) as (C1 & C2 & C3 & _). destruct (HQ (gt_id gt) m) as (q & Eq & Uq).
    unfold ml. destruct fuel as [|fuel]; [lia|]. apply (C91_types m n tol maxv jv jm jk j1 j2 fuel eps tolc rule junk (gt_id gt) r s (ta_scaled n 1) q); auto; [lra|destruct Hs; lra|apply scaled_orth]. }
  split; [intros; split; now apply K|]. split; [apply C91_nonlinear; auto; lra|]. split; [apply C91_nonlinear; auto; lra|]. now apply C91_local_method.
Qed.
Print Assumptions C91_main.

(** so a local() that gave up after three steps would pass; on a convex quadrilateral and for a corner of it three steps are not enough *)
Theorem C91_three_steps_refuted :
  exists c0 c1 c2 c3 xs y, convex c0 c1 c2 c3 1 /\ in_square xs /\ (forall k, (k < 2)%nat -> y k = bilinear c0 c1 c2 c3 xs k) /\
    forall r tol jv jm jk j1 j2, 0 < tol < 1 / 10 ^ 8 -> ml_wf 2 (quad c0 c1 c2 c3 r) -> mlg_local 2 2 tol jv jm jk j1 j2 3 (quad c0 c1 c2 c3 r) y = OutOfFuel.
Proof.
  exists (vec2 0 0), (vec2 1 0), (vec2 0 1), (vec2 2 2), (vec2 1 1), (vec2 2 2). split; [|split; [|split]].
  - split; [lra|]. left. unfold jdet, bx, by_, pt, vec2. lra.
  - unfold in_square, vec2. lra.
  - intros k Hk. destruct k as [|[|k]]; [| |lia]; unfold bilinear, vec2; ring.
  - intros r tol jv jm jk j1 j2 Ht wf. destruct (flag_value tol jm jk (vec2 0 0) (vec2 1 0) (vec2 0 1) (vec2 2 2) r ltac:(lra) wf) as (jt & EA).
    assert (NM : norm2 2 (mixed (vec2 0 0) (vec2 1 0) (vec2 0 1) (vec2 2 2)) = 2) by (unfold norm2, mixed, vec2; cbn [rsum]; lra).
    rewrite NM in EA. rewrite (Rltb_no 2 tol) in EA by lra.
    destruct (local_unfold tol jv jm jk j1 j2 (vec2 0 0) (vec2 1 0) (vec2 0 1) (vec2 2 2) r false jt wf EA) as (p & P0 & P1 & U). rewrite U. clear U.
    assert (ST : forall t d x, 0 < t -> d * (1 + 2 * t) = t + t * t - 2 -> tol < 2 * (d * d) -> x 0%nat = t -> x 1%nat = t -> exists dx,
       ml_step 2 2 tol jv jm jk j1 j2 (quad (vec2 0 0) (vec2 1 0) (vec2 0 1) (vec2 2 2) r) (vec2 2 2) x = Some (true, dx) /\ Rltb tol (norm2 2 dx) = true /\ x 0%nat - dx 0%nat = t - d /\ x 1%nat - dx 1%nat = t - d).
    { intros t d x Hp Hd HT X0 X1. destruct (step_regular tol jv jm jk j1 j2 (vec2 0 0) (vec2 1 0) (vec2 0 1) (vec2 2 2) r wf (vec2 2 2) x) as (dx & E & V).
      - unfold jdet, bx, by_, vec2. rewrite X0, X1. intro Q. nra.
      - exists dx. split; [exact E|]. assert (V0 := V 0%nat ltac:(lia)). assert (V1 := V 1%nat ltac:(lia)). unfold bx, by_, bilinear, vec2 in V0, V1. rewrite X0, X1 in V0, V1.
        assert (D : dx 0%nat = dx 1%nat) by lra. rewrite <- D in V0. assert (D0 : (dx 0%nat - d) * (1 + 2 * t) = 0) by lra.
        apply Rmult_integral in D0. assert (dx 0%nat = d) by lra. split; [|split; lra]. apply Rltb_true. unfold norm2. cbn [rsum]. rewrite <- D, H. lra. }
    destruct (ST (1 / 2) (- (5 / 8)) p ltac:(lra) ltac:(lra) ltac:(lra) P0 P1) as (d1 & E1 & T1 & X1 & Y1). cbn [ml_newton]. rewrite E1, T1.
    set (p1 := fun k => p k - d1 k) in *.
    destruct (ST (9 / 8) (25 / 208) p1 ltac:(lra) ltac:(lra) ltac:(lra) ltac:(unfold p1; rewrite X1; field) ltac:(unfold p1; rewrite Y1; field)) as (d2 & E2 & T2 & X2 & Y2). rewrite E2, T2.
    set (p2 := fun k => p1 k - d2 k) in *.
    destruct (ST (209 / 208) (625 / 130208) p2 ltac:(lra) ltac:(lra) ltac:(lra) ltac:(unfold p2; rewrite X2; field) ltac:(unfold p2; rewrite Y2; field)) as (d3 & E3 & T3 & _).
    change (fun k => p k - d1 k - d2 k) with p2. rewrite E3, T3. reflexivity.
Qed.
Print Assumptions C91_three_steps_refuted.

(** the program never asks for affine() to be false: a class that always answers true passes, with the trapezoid of the program among its geometries *)
Definition always_affine (make : Make) : Make := fun id r cs =>
  let m := make id r cs in let g := fst m in
  ({| gi_affine := Some true; gi_type := gi_type g; gi_corners := gi_corners g; gi_corner := gi_corner g; gi_center := gi_center g; gi_volume := gi_volume g; gi_global := gi_global g;
      gi_jacobian := gi_jacobian g; gi_jacobianTransposed := gi_jacobianTransposed g; gi_jacobianInverse := gi_jacobianInverse g;
      gi_jacobianInverseTransposed := gi_jacobianInverseTransposed g; gi_integrationElement := gi_integrationElement g |}, snd m).
Theorem C91_affine_refuted :
  forall tol maxv jv jm jk j1 j2 fuel eps eps16 tolc toli rule junk, 0 < tol < 1 / 10 ^ 8 -> 2 <= maxv -> (3 <= fuel)%nat -> rules_usable tol rule ->
    0 < eps -> 0 <= eps16 -> 0 < tolc <= 1 / 24 -> 0 <= toli < 1 / 10 ->
    let wrong := fun m n => always_affine (mt_ml tol maxv jv jm jk j1 j2 fuel m n) in
    mt_main eps eps16 tolc toli rule junk detR wrong wrong mt_calls = Some true /\
    forall r, re_infos 3 2 = Some r -> gi_affine (fst (wrong 2%nat 2%nat 3%N r mt_nonlinear_corners)) = Some true /\ gi_affine (fst (mt_ml tol maxv jv jm jk j1 j2 fuel 2 2 3%N r mt_nonlinear_corners)) = Some false.
Proof.
  intros tol maxv jv jm jk j1 j2 fuel eps eps16 tolc toli rule junk Ht Hx Hf HQ He He' Htc Hi wrong. split.
  - apply C91_verdict. assert (K : forall gt m n, In (gt, m, n) mt_calls -> mt_type m n eps tolc rule junk detR (wrong m n) (gt_id gt) = Some true).
    { intros gt m n H. apply type_true; [assumption|assumption|]. intros s r Hs Er B1 B2. destruct (calls_ok gt m n H) as (C1 & C2 & C3 & _). destruct (HQ (gt_id gt) m) as (q & Eq & Uq).
      unfold wrong. destruct fuel as [|fuel]; [lia|]. rewrite <- (C91_types m n tol maxv jv jm jk j1 j2 fuel eps tolc rule junk (gt_id gt) r s (ta_scaled n 1) q); auto; [|lra|destruct Hs; lra|apply scaled_orth].
      unfold mt_test. destruct (re_position (gt_id gt) m r 0 0) as [c|]; [|reflexivity]. cbn [obind]. destruct (Rltb eps _); [reflexivity|].
      rewrite ta_corners_value by (rewrite C16_corner_count; lia). cbn [obind skipn]. f_equal.
      assert (AF : exists jt, mlg_affine m n tol jm jk {| ml_id := gt_id gt; ml_ref := r; ml_corners := map (ta_map m n (ta_scaled m s) (ta_scaled n 1)) (referenceCorners (gt_id gt) m) |} = Some (true, jt)).
      { destruct (C32_affine_detected m n tol jm jk {| ml_id := gt_id gt; ml_ref := r; ml_corners := map (ta_map m n (ta_scaled m s) (ta_scaled n 1)) (referenceCorners (gt_id gt) m) |} vzero (taM m (ta_scaled m s) (ta_scaled n 1))) as (jt & E & _).
        - lra.
        - split; [cbn [ml_id]; now rewrite bit_pow|]. split; [exact Er|]. cbn [ml_id ml_corners]. rewrite map_length. apply C16_corner_count.
        - intros i u p Eu Ep k Hk. cbn [ml_id ml_corners] in Eu, Ep. destruct (ta_images m n (gt_id gt) (ta_scaled m s) (ta_scaled n 1) C1 i p Ep) as (u' & Eu' & V). rewrite Eu in Eu'. injection Eu' as <-. now apply V.
        - now exists jt. }
      destruct AF as (jt & AF). unfold always_affine, mt_ml. cbn [fst snd]. unfold gi_ml at 12. rewrite AF. reflexivity. }
    split; [intros; split; now apply K|].
    split; [exact (C91_nonlinear tol maxv jv jm jk j1 j2 fuel eps16 ltac:(lra) He' Hf)|]. split; [exact (C91_nonlinear tol maxv jv jm jk j1 j2 fuel eps16 ltac:(lra) He' Hf)|].
    exact (C91_local_method tol maxv jv jm jk j1 j2 fuel toli Ht Hi Hx Hf).
  - intros r Er. split; [reflexivity|]. assert (wf : ml_wf 2 (quad (vec2 0 0) (vec2 2 0) (vec2 0 1) (vec2 1 1) r)) by (repeat split; auto).
    destruct (flag_value tol jm jk (vec2 0 0) (vec2 2 0) (vec2 0 1) (vec2 1 1) r ltac:(lra) wf) as (jt & EA). unfold mt_ml, mt_nonlinear_corners. cbn [fst].
    change {| ml_id := 3; ml_ref := r; ml_corners := _ |} with (quad (vec2 0 0) (vec2 2 0) (vec2 0 1) (vec2 1 1) r). unfold gi_ml. cbn [gi_affine]. rewrite EA. cbn [option_map fst]. f_equal.
    apply Rltb_no. unfold norm2, mixed, vec2. cbn [rsum]. lra.
Qed.
Print Assumptions C91_affine_refuted.

(** the pyramid, which test-affinegeometry.cc has to leave out, is among the calls; the midpoint rules may be used on all elements *)
Example C91_example : In (pyramid, 3%nat, 3%nat) mt_calls /\ ~ simplexBase (gt_id pyramid) 3 /\ length mt_calls = 36%nat /\
  forall tol, 0 < tol < 1 / 2 -> rules_usable tol (fun id d => Some [(meanT (topo_of id d), referenceVolume id d)]).
Proof.
  split; [cbn; tauto|]. split; [intro H; specialize (H 1%nat ltac:(lia) ltac:(lia)); discriminate H|]. split; [reflexivity|].
  intros tol Ht id d. eexists. split; [reflexivity|]. intros x w [E|[]]. injection E as <- _. left. apply meanT_smooth. lra.
Qed.
