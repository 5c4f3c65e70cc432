(** C88: what test-refinement.cc checks. *)
From Coq Require Import PeanoNat NArith ZArith Bool List Reals Lia Lra Factorial.
From Verif Require Import M_Type M_RefTopo M_RefGeo M_Matrix M_Affine M_MultiLinear M_GaussNewton M_LocalFE M_CheckGeo M_Refine M_Virtual M_RefineTest
  S_Topo S_RefGeo S_Matrix S_MultiLinear S_Agree S_CheckGeo S_Refine S_Refine2 S_RefineTest P_Det P_Agree2 P_CheckGeo P_RefineTest T_RefGeo T_CheckGeo.
Import ListNotations.
Local Open Scope R_scope.

(** the exit code: 77 if nothing was tested, 1 if a test failed, 0 otherwise *)
Theorem C88_code : forall tests,
  (verdict 77 tests = 77%nat <-> tests = []) /\ (verdict 77 tests = 1%nat <-> In false tests) /\
  (verdict 77 tests = 0%nat <-> tests <> [] /\ ~ In false tests).
Proof.
  intro tests. assert (E : existsb negb tests = true <-> In false tests).
  { rewrite existsb_exists. split; [intros ([|] & H & B); [discriminate|assumption]|]. intro H. exists false. auto. }
  unfold verdict. destruct (existsb negb tests).
  - assert (F : In false tests) by (apply E; reflexivity). split; [|split]; split; auto; try discriminate; [intros ->; destruct F|intros [_ H]; contradiction].
  - assert (F : ~ In false tests) by (intro H; apply E in H; discriminate). destruct tests as [|b tests]; cbn [Nat.eqb].
    + repeat split; auto; try discriminate; try contradiction. intros [H _]. now destruct H.
    + repeat split; auto; try discriminate; intros; contradiction.
Qed.
Print Assumptions C88_code.

(** the loops collect the results of all elements, then of all vertices *)
Theorem C88_virtual : forall toli fuel id dim rf n nE st nV vs (xe xv : nat -> Vec) result,
  iterates rf n nE st nV vs -> (nE < fuel)%nat -> (nV < fuel)%nat ->
  (forall k, (k < nE)%nat -> rf_eCoords rf (st k) = Some (xe k)) -> (forall k, (k < nV)%nat -> rf_vCoords rf (vs k) = Some (xv k)) ->
  rt_virtual toli fuel id dim rf n result =
    Some (verdict result (map (fun k => checkInside id dim (xe k) toli 1) (seq 0 nE) ++ map (fun k => checkInside id dim (xv k) toli 1) (seq 0 nV))).
Proof.
  intros toli fuel id dim rf n nE st nV vs xe xv result [IE IV] FE FV HE HV. unfold rt_virtual.
  rewrite (loop_visits (rf_eEquals rf) (rf_eIncrement rf) _ (fun it => obind (rf_eCoords rf it) (fun x => Some (checkInside id dim x toli 1))) _ _ nE st (fun k => checkInside id dim (xe k) toli 1) IE).
  - cbn [obind].
    rewrite (loop_visits (rf_vEquals rf) (rf_vIncrement rf) _ (fun it => obind (rf_vCoords rf it) (fun x => Some (checkInside id dim x toli 1))) _ _ nV vs (fun k => checkInside id dim (xv k) toli 1) IV).
    + now rewrite verdict_app.
    + intros it res. destruct (rf_vCoords rf it); reflexivity.
    + intros k Hk. now rewrite HV.
    + exact FV.
  - intros it res. destruct (rf_eCoords rf it); reflexivity.
  - intros k Hk. now rewrite HE.
  - exact FE.
Qed.
Print Assumptions C88_virtual.
Theorem C88_static : forall tolc junk determinant rule fuel dim rf n nE st nV vs (ge gv : nat -> Geo) (be bv : nat -> bool) result,
  iterates rf n nE st nV vs -> (nE < fuel)%nat -> (nV < fuel)%nat ->
  (forall k, (k < nE)%nat -> rf_eGeometry rf (st k) = Some (ge k) /\
     checkGeometry dim dim tolc junk (fst (ge k)) (snd (ge k)) (determinant dim) (rule (gt_id (gi_type (fst (ge k)))) dim) = Some (be k)) ->
  (forall k, (k < nV)%nat -> rf_vGeometry rf (vs k) = Some (gv k) /\
     checkGeometry 0 dim tolc junk (fst (gv k)) (snd (gv k)) (determinant 0%nat) (rule (gt_id (gi_type (fst (gv k)))) 0%nat) = Some (bv k)) ->
  rt_static tolc junk determinant rule fuel dim rf n result = Some (verdict result (map be (seq 0 nE) ++ map bv (seq 0 nV))).
Proof.
  intros tolc junk det rule fuel dim rf n nE st nV vs ge gv be bv result [IE IV] FE FV HE HV. unfold rt_static.
  rewrite (loop_visits (rf_eEquals rf) (rf_eIncrement rf) _ (fun it => obind (rf_eGeometry rf it) (fun g => rt_check tolc junk det rule dim dim g)) _ _ nE st be IE).
  - cbn [obind].
    rewrite (loop_visits (rf_vEquals rf) (rf_vIncrement rf) _ (fun it => obind (rf_vGeometry rf it) (fun g => rt_check tolc junk det rule 0 dim g)) _ _ nV vs bv IV).
    + now rewrite verdict_app.
    + intros it res. destruct (rf_vGeometry rf it) as [g|]; [|reflexivity]. cbn [obind]. reflexivity.
    + intros k Hk. destruct (HV k Hk) as [E C]. rewrite E. exact C.
    + exact FV.
  - intros it res. destruct (rf_eGeometry rf it) as [g|]; [|reflexivity]. cbn [obind]. reflexivity.
  - intros k Hk. destruct (HE k Hk) as [E C]. rewrite E. exact C.
  - exact FE.
Qed.
Print Assumptions C88_static.

Lemma choose {A} (P : nat -> A -> Prop) (d : A) n : (forall k, (k < n)%nat -> exists a, P k a) -> exists f, forall k, (k < n)%nat -> P k (f k).
Proof.
  induction n as [|n IH]; intro H; [exists (fun _ => d); intros; lia|]. destruct IH as [f F]; [intros; apply H; lia|]. destruct (H n ltac:(lia)) as [a Pa].
  exists (fun k => if Nat.eqb k n then a else f k). intros k Hk. destruct (Nat.eqb_spec k n) as [->|]; [exact Pa|]. apply F. lia.
Qed.

Section Library.
Variables (tol : R) (jv : Vec) (jm jk j1 j2 : Mat) (newton : nat) (lmax : Vec) (steps : nat).
Let lib := rt_library tol jv jm jk j1 j2 newton lmax steps.
Variables (tolc toli : R) (junk : Mat) (rule : N -> nat -> option Rule).
Hypothesis Ht : 0 < tol < 1 / 2.

(** the refinements of the library pass the test of coords(), for every number of intervals *)
Theorem C88_virtual_library : forall fuel i dim idc ids n result, Refines i dim idc ids -> (0 < n)%nat -> (fact dim <= steps)%nat -> 0 < toli ->
  (elementCount i dim n < fuel)%nat -> (vertexCount i dim n < fuel)%nat ->
  rt_virtual toli fuel idc dim (lib i dim) n result = Some (rt_pass result).
Proof.
  intros fuel i dim idc ids n result HR Hn HF Hi FE FV.
  destruct (lib_all tol jv jm jk j1 j2 newton lmax tolc junk rule Ht steps i dim idc ids n HR Hn HF) as (st & vs & IT & CE & CV & _).
  destruct (choose (fun k x => rf_eCoords (lib i dim) (st k) = Some x /\ in_hull dim (referenceCorners idc dim) x) vzero _ CE) as (xe & XE).
  destruct (choose (fun k x => rf_vCoords (lib i dim) (vs k) = Some x /\ in_hull dim (referenceCorners idc dim) x) vzero _ CV) as (xv & XV).
  rewrite (C88_virtual toli fuel idc dim (lib i dim) n _ st _ vs xe xv result IT FE FV); [|intros k Hk; now apply XE|intros k Hk; now apply XV]. f_equal. apply verdict_all.
  - intros b Hb. apply in_app_iff in Hb. destruct Hb as [Hb|Hb]; apply in_map_iff in Hb; destruct Hb as (k & <- & Hk); apply in_seq in Hk; apply C18_hull_accepted; try assumption; [apply XE|apply XV]; lia.
  - destruct (counts_pos i dim idc ids n HR Hn) as [P _]. destruct (elementCount i dim n); [lia|]. discriminate.
Qed.
(** they pass the test of the geometries exactly if the parts are not smaller than the tolerance;
    the points of the quadrature rules must suit the multilinear geometries *)
Theorem C88_static_library : forall fuel i dim idc ids n result, Refines i dim idc ids -> (dim <= 13)%nat -> (0 < n)%nat -> (fact dim <= steps)%nat ->
  goodRule tol rule ids dim -> goodRule tol rule 0 0 ->
  0 < tolc -> tolc < 1 / (INR n * INR (dim + 1)) \/ referenceVolume ids dim / INR n ^ dim < tolc ->
  (elementCount i dim n < fuel)%nat -> (vertexCount i dim n < fuel)%nat ->
  rt_static tolc junk detR rule fuel dim (lib i dim) n result = Some (if Rltb (referenceVolume ids dim / INR n ^ dim) tolc then 1%nat else rt_pass result).
Proof.
  intros fuel i dim idc ids n result HR H13 Hn HF GR GR0 Pt Htc FE FV.
  destruct (lib_all tol jv jm jk j1 j2 newton lmax tolc junk rule Ht steps i dim idc ids n HR Hn HF) as (st & vs & IT & _ & _ & CK). destruct (CK H13 GR GR0 Pt Htc) as [CE CV]. clear CK.
  set (d := ((rt_ml tol jv jm jk j1 j2 newton lmax 0 0 {| ml_id := 0%N; ml_ref := []; ml_corners := [] |})) : Geo).
  destruct (choose _ d _ CE) as (ge & GE). destruct (choose _ d _ CV) as (gv & GV). clear CE CV.
  rewrite (C88_static tolc junk detR rule fuel dim (lib i dim) n _ st _ vs ge gv (fun _ => negb (Rltb (referenceVolume ids dim / INR n ^ dim) tolc)) (fun _ => negb (Rltb 1 tolc)) result IT FE FV GE GV). f_equal.
  destruct (counts_pos i dim idc ids n HR Hn) as [PE PV]. pose proof (refvol_le tol Ht i dim idc ids n HR H13 Hn) as V1.
  destruct (Rltb (referenceVolume ids dim / INR n ^ dim) tolc) eqn:L.
  - apply verdict_bad. apply in_app_iff. left. destruct (elementCount i dim n); [lia|]. left. reflexivity.
  - apply verdict_all.
    + assert (L1 : Rltb 1 tolc = false) by (apply Rltb_false'; apply Rltb_false' in L; lra).
      intros b Hb. apply in_app_iff in Hb. destruct Hb as [Hb|Hb]; apply in_map_iff in Hb; destruct Hb as (k & <- & Hk); [reflexivity|now rewrite L1].
    + destruct (elementCount i dim n); [lia|]. discriminate.
Qed.
(** so with enough intervals the test rejects refinements that are right: no tolerance suits all *)
Theorem C88_many_intervals_refuted : forall i dim idc ids, Refines i dim idc ids -> (dim <= 13)%nat -> (fact dim <= steps)%nat ->
  goodRule tol rule ids dim -> goodRule tol rule 0 0 -> 0 < tolc ->
  exists n, (0 < n)%nat /\ forall f result, (elementCount i dim n < f)%nat -> (vertexCount i dim n < f)%nat ->
    rt_static tolc junk detR rule f dim (lib i dim) n result = Some 1%nat.
Proof.
  intros i dim idc ids HR H13 HF GR GR0 Pt. destruct (archimed_cor1 tolc Pt) as (n & Hn & Pn). exists n. split; [lia|]. intros f result FE FV.
  assert (Hd : (0 < dim)%nat) by (destruct HR; lia). assert (V1 := refvol_le tol Ht i dim idc ids 1 HR H13 ltac:(lia)).
  cbn [INR] in V1. rewrite pow1 in V1. unfold Rdiv in V1. rewrite Rinv_1, Rmult_1_r in V1.
  assert (N1 : 1 <= INR n) by (apply (le_INR 1); lia).
  assert (L : referenceVolume ids dim / INR n ^ dim < tolc).
  { eapply Rle_lt_trans; [|exact Hn]. destruct dim as [|dim]; [lia|]. cbn [pow]. assert (N2 : 1 <= INR n ^ dim) by now apply pow_R1_Rle.
    apply (Rmult_le_reg_r (INR n * INR n ^ dim)); [nra|]. unfold Rdiv. rewrite Rmult_assoc, Rinv_l by nra. rewrite <- Rmult_assoc, Rinv_l by lra. lra. }
  assert (Lb : Rltb (referenceVolume ids dim / INR n ^ dim) tolc = true) by now apply Rltb_true'.
  rewrite (C88_static_library f i dim idc ids n result HR H13 ltac:(lia) HF GR GR0 Pt (or_intror L) FE FV), Lb. reflexivity.
Qed.

(** the program accepts the library *)
Lemma round : forall fuel dim gt1 gt2 a b k im1 im2 ids1 idc2 ids2 v result,
  buildRefinement dim gt1 gt2 = Some (BInstance v) -> rt_traits (vr_topology v) (vr_coerce v) (vr_dim v) = Some im1 -> rt_traits a b dim = Some im2 ->
  Refines im1 dim (gt_id gt1) ids1 -> Refines im2 dim idc2 ids2 -> (dim <= 3)%nat -> (k <= 2)%nat ->
  (6 <= steps)%nat -> (384 < fuel)%nat -> 0 < toli -> 0 < tolc <= 1 / 384 -> goodRule tol rule ids2 dim -> goodRule tol rule 0 0 ->
  (forall n, (n = 1 \/ n = 2 \/ n = 4)%nat -> (elementCount im1 dim n <= 384)%nat /\ (vertexCount im1 dim n <= 384)%nat /\
     (elementCount im2 dim n <= 384)%nat /\ (vertexCount im2 dim n <= 384)%nat) ->
  1 / 6 <= referenceVolume ids2 dim ->
  rt_round tolc toli junk detR rule fuel buildRefinement lib dim gt1 gt2 a b k result = Some (rt_pass result).
Proof.
  intros fuel dim gt1 gt2 a b k im1 im2 ids1 idc2 ids2 v result EB E1 E2 R1 R2 Hd Hk Hs Hf Hi Htc G G0 C V.
  unfold rt_round. rewrite EB. cbn [obind]. rewrite E1, E2. cbn [obind].
  set (n := (2 ^ k)%nat). assert (Hn : (n = 1 \/ n = 2 \/ n = 4)%nat) by (unfold n; destruct k as [|[|[|k]]]; cbn; lia).
  destruct (C n Hn) as (C1 & C2 & C3 & C4). assert (P : (0 < n)%nat) by lia.
  assert (F : (fact dim <= steps)%nat) by (transitivity 6%nat; [|exact Hs]; destruct dim as [|[|[|[|dim]]]]; cbn; lia).
  assert (RV : forall result, rt_virtual toli fuel (gt_id gt1) dim (lib im1 dim) n result = Some (rt_pass result)) by (intro; apply (C88_virtual_library _ _ _ _ ids1); auto; lia).
  assert (D0 : (0 < dim)%nat) by (destruct R1; lia).
  assert (N1 : 1 <= INR n <= 4) by (destruct Hn as [E|[E|E]]; rewrite E; cbn; lra).
  assert (N3 : 0 < INR n ^ dim <= 64).
  { split; [apply pow_lt; lra|]. replace 64 with (4 ^ 3) by ring. apply Rle_trans with (4 ^ dim); [apply pow_incr; lra|]. apply Rle_pow; [lra|lia]. }
  assert (RS : forall result, rt_static tolc junk detR rule fuel dim (lib im2 dim) n result = Some (rt_pass result)).
  { intro res. rewrite (C88_static_library fuel im2 dim idc2 ids2 n res R2); auto; try lia; try lra.
    - replace (Rltb _ _) with false; [reflexivity|]. symmetry. apply Rltb_false'. apply Rle_trans with (1 / 384); [lra|].
      apply (Rmult_le_reg_r (INR n ^ dim)); [lra|]. unfold Rdiv at 2. rewrite Rmult_assoc, Rinv_l by lra. nra.
    - left. assert (ND : 1 <= INR (dim + 1) <= 4) by (split; [apply (le_INR 1); lia|replace 4 with (INR 4) by (cbn; ring); apply le_INR; lia]).
      assert (NP : 0 < INR n * INR (dim + 1) <= 16) by nra.
      apply (Rmult_lt_reg_r (INR n * INR (dim + 1))); [lra|]. unfold Rdiv. rewrite Rmult_1_l, Rinv_l by lra. nra. }
  assert (PP : forall r, rt_pass (rt_pass r) = rt_pass r) by (intro r; unfold rt_pass; destruct (Nat.eqb r 77) eqn:E; [reflexivity|now rewrite E]).
  rewrite RV. cbn [obind]. rewrite RV. cbn [obind]. rewrite RS. cbn [obind]. rewrite RS. now rewrite !PP.
Qed.
End Library.
Print Assumptions C88_virtual_library.
Print Assumptions C88_static_library.
Print Assumptions C88_many_intervals_refuted.

Section Main.
Variables (tol : R) (jv : Vec) (jm jk j1 j2 : Mat) (newton : nat) (lmax : Vec) (steps : nat).
Let lib := rt_library tol jv jm jk j1 j2 newton lmax steps.
Variables (tolc toli : R) (junk : Mat) (rule : N -> nat -> option Rule) (fuel : nat).

Lemma blocks_pass : forall build refinement l,
  (forall dim gt1 gt2 a b k result, In (dim, gt1, gt2, a, b) l -> (k <= 2)%nat -> rt_round tolc toli junk detR rule fuel build refinement dim gt1 gt2 a b k result = Some (rt_pass result)) ->
  l <> [] -> rt_blocks tolc toli junk detR rule fuel build refinement l 77 = Some 0%nat.
Proof.
  intros build refinement l H N.
  assert (PP : forall r, rt_pass (rt_pass r) = rt_pass r) by (intro r; unfold rt_pass; destruct (Nat.eqb r 77) eqn:E; [reflexivity|now rewrite E]).
  assert (G : forall l', incl l' l -> forall r, rt_blocks tolc toli junk detR rule fuel build refinement l' (rt_pass r) = Some (rt_pass r)).
  { induction l' as [|((((dim & gt1) & gt2) & a) & b) l' IH]; intros I r; [reflexivity|]. cbn [rt_blocks]. unfold rt_block.
    rewrite H by (auto; apply I; now left). cbn [obind]. rewrite H by (auto; apply I; now left). cbn [obind]. rewrite H by (auto; apply I; now left). cbn [obind].
    rewrite !PP. apply IH. intros z Hz. apply I. now right. }
  destruct l as [|((((dim & gt1) & gt2) & a) & b) l]; [now destruct N|]. cbn [rt_blocks]. unfold rt_block.
  rewrite H by (auto; now left). cbn [obind]. rewrite H by (auto; now left). cbn [obind]. rewrite H by (auto; now left). cbn [obind].
  rewrite !PP. rewrite G; [reflexivity|]. intros z Hz. now right.
Qed.

Definition enough : Prop :=
  0 < tol < 1 / 2 /\ (6 <= steps)%nat /\ (384 < fuel)%nat /\ 0 < toli /\ 0 < tolc <= 1 / 384 /\
  goodRule tol rule 0 0 /\ goodRule tol rule 0 1 /\ goodRule tol rule 0 2 /\ goodRule tol rule 0 3 /\ goodRule tol rule 3 2 /\ goodRule tol rule 7 3.
Lemma rounds : enough -> forall dim gt1 gt2 a b k result, In (dim, gt1, gt2, a, b) rt_list -> (k <= 2)%nat ->
  rt_round tolc toli junk detR rule fuel buildRefinement lib dim gt1 gt2 a b k result = Some (rt_pass result).
Proof.
  intros (Ht & Hs & Hf & Hi & Htc & G0 & G1 & G2 & G3 & G32 & G73) dim gt1 gt2 a b k result I Hk.
  assert (V1 : 1 / 6 <= referenceVolume 0 1) by (unfold referenceVolume; cbn; lra).
  assert (V2 : 1 / 6 <= referenceVolume 0 2) by (unfold referenceVolume; cbn; lra).
  assert (V3 : 1 / 6 <= referenceVolume 0 3) by (unfold referenceVolume; cbn; lra).
  assert (V32 : 1 / 6 <= referenceVolume 3 2) by (unfold referenceVolume; cbn; lra).
  assert (V73 : 1 / 6 <= referenceVolume 7 3) by (unfold referenceVolume; cbn; lra).
  assert (C : forall (P : nat -> Prop), P 1%nat -> P 2%nat -> P 4%nat -> forall n, (n = 1 \/ n = 2 \/ n = 4)%nat -> P n) by (intros P ? ? ? n [E|[E|E]]; now subst n).
  unfold rt_list in I.
  repeat (destruct I as [I|I]; [injection I as <- <- <- <- <-|]); [..|destruct I].
  - apply (round tol jv jm jk j1 j2 newton lmax steps tolc toli junk rule Ht fuel 1 line line (gt_id line) (gt_id line) k ISimplex ISimplex 0 0 0 _ result eq_refl eq_refl eq_refl (R_simplex 1 ltac:(lia)) (R_simplex 1 ltac:(lia))); auto; try lia;
      refine (C _ _ _ _); vm_compute; lia.
  - apply (round tol jv jm jk j1 j2 newton lmax steps tolc toli junk rule Ht fuel 2 triangle triangle (gt_id triangle) (gt_id triangle) k ISimplex ISimplex 0 0 0 _ result eq_refl eq_refl eq_refl (R_simplex 2 ltac:(lia)) (R_simplex 2 ltac:(lia))); auto; try lia;
      refine (C _ _ _ _); vm_compute; lia.
  - apply (round tol jv jm jk j1 j2 newton lmax steps tolc toli junk rule Ht fuel 2 quadrilateral quadrilateral (gt_id quadrilateral) (gt_id quadrilateral) k IHCube IHCube _ _ _ _ result eq_refl eq_refl eq_refl (R_cube 2 ltac:(lia)) (R_cube 2 ltac:(lia))); auto; try lia;
      refine (C _ _ _ _); vm_compute; lia.
  - apply (round tol jv jm jk j1 j2 newton lmax steps tolc toli junk rule Ht fuel 2 quadrilateral triangle (gt_id quadrilateral) (gt_id triangle) k IHCubeTriangulation IHCubeTriangulation _ _ _ _ result eq_refl eq_refl eq_refl (R_triang 2 ltac:(lia)) (R_triang 2 ltac:(lia))); auto; try lia;
      refine (C _ _ _ _); vm_compute; lia.
  - apply (round tol jv jm jk j1 j2 newton lmax steps tolc toli junk rule Ht fuel 3 tetrahedron tetrahedron (gt_id tetrahedron) (gt_id tetrahedron) k ISimplex ISimplex 0 0 0 _ result eq_refl eq_refl eq_refl (R_simplex 3 ltac:(lia)) (R_simplex 3 ltac:(lia))); auto; try lia;
      refine (C _ _ _ _); vm_compute; lia.
  - apply (round tol jv jm jk j1 j2 newton lmax steps tolc toli junk rule Ht fuel 3 pyramid tetrahedron (gt_id pyramid) (gt_id tetrahedron) k IPyramidTriangulation IPyramidTriangulation _ _ _ _ result eq_refl eq_refl eq_refl R_pyramid R_pyramid); auto; try lia;
      refine (C _ _ _ _); vm_compute; lia.
  - apply (round tol jv jm jk j1 j2 newton lmax steps tolc toli junk rule Ht fuel 3 prism tetrahedron (gt_id prism) (gt_id tetrahedron) k IPrismTriangulation IPrismTriangulation _ _ _ _ result eq_refl eq_refl eq_refl R_prism R_prism); auto; try lia;
      refine (C _ _ _ _); vm_compute; lia.
  - apply (round tol jv jm jk j1 j2 newton lmax steps tolc toli junk rule Ht fuel 3 hexahedron hexahedron (gt_id hexahedron) (gt_id hexahedron) k IHCube IHCube _ _ _ _ result eq_refl eq_refl eq_refl (R_cube 3 ltac:(lia)) (R_cube 3 ltac:(lia))); auto; try lia;
      refine (C _ _ _ _); vm_compute; lia.
  - apply (round tol jv jm jk j1 j2 newton lmax steps tolc toli junk rule Ht fuel 3 hexahedron hexahedron (gt_id hexahedron) (gt_id tetrahedron) k IHCube IHCubeTriangulation _ _ _ _ result eq_refl eq_refl eq_refl (R_cube 3 ltac:(lia)) (R_triang 3 ltac:(lia))); auto; try lia;
      refine (C _ _ _ _); vm_compute; lia.
Qed.
Theorem C88_main : enough -> rt_main tolc toli junk detR rule fuel buildRefinement lib = Some 0%nat.
Proof. intro H. apply blocks_pass; [|discriminate]. now apply rounds. Qed.

(** the last block means to test the hexahedron split into tetrahedra, but asks buildRefinement
    for hexahedra: what it returns for tetrahedra does not matter *)
Theorem C88_hexahedron_untested : forall build build' determinant refinement,
  (forall d t c, ~ (d = 3%nat /\ gt_eqb t hexahedron = true /\ gt_eqb c tetrahedron = true) -> build' d t c = build d t c) ->
  rt_main tolc toli junk determinant rule fuel build' refinement = rt_main tolc toli junk determinant rule fuel build refinement.
Proof.
  intros build build' determinant refinement H. unfold rt_main.
  assert (L : forall d t c a b, In (d, t, c, a, b) rt_list -> ~ (d = 3%nat /\ gt_eqb t hexahedron = true /\ gt_eqb c tetrahedron = true)).
  { intros d t c a b I (E & E1 & E2). unfold rt_list in I. cbn [In] in I.
    repeat (destruct I as [I|I]; [injection I as <- <- <- <- <-; vm_compute in E, E1, E2; discriminate|]). destruct I. }
  assert (R : forall d t c a b k result, In (d, t, c, a, b) rt_list ->
    rt_round tolc toli junk determinant rule fuel build' refinement d t c a b k result = rt_round tolc toli junk determinant rule fuel build refinement d t c a b k result).
  { intros d t c a b k result I. unfold rt_round. now rewrite (H d t c (L _ _ _ _ _ I)). }
  revert R. generalize rt_list, 77%nat. clear. intros l. induction l as [|((((d & t) & c) & a) & b) l IH]; intros r R; [reflexivity|]. cbn [rt_blocks].
  assert (B : forall r, rt_block tolc toli junk determinant rule fuel build' refinement d t c a b r = rt_block tolc toli junk determinant rule fuel build refinement d t c a b r).
  { intro r'. unfold rt_block. rewrite R by now left. destruct (rt_round _ _ _ _ _ _ _ _ _ _ _ _ _ 0 _); [cbn [obind]|reflexivity]. rewrite R by now left.
    destruct (rt_round _ _ _ _ _ _ _ _ _ _ _ _ _ 1 _); [cbn [obind]|reflexivity]. apply R. now left. }
  rewrite B. destruct (rt_block _ _ _ _ _ _ _ _ _ _ _ _ _ _); [cbn [obind]|reflexivity]. apply IH. intros. apply R. now right.
Qed.
(** a table without that entry *)
Definition build_without (d : nat) (t c : GeometryType) : option Built :=
  if (Nat.eqb d 3 && gt_eqb t hexahedron && gt_eqb c tetrahedron)%bool then Some BNotImplemented else buildRefinement d t c.

(** a refinement that does not look at the number of intervals *)
Definition unrefined (rf : Refinement) : Refinement := {|
  rf_E := rf_E rf; rf_eBegin := fun _ => rf_eBegin rf 1; rf_eEnd := fun _ => rf_eEnd rf 1; rf_eEquals := rf_eEquals rf; rf_eIncrement := rf_eIncrement rf;
  rf_eCoords := rf_eCoords rf; rf_eGeometry := rf_eGeometry rf;
  rf_V := rf_V rf; rf_vBegin := fun _ => rf_vBegin rf 1; rf_vEnd := fun _ => rf_vEnd rf 1; rf_vEquals := rf_vEquals rf; rf_vIncrement := rf_vIncrement rf;
  rf_vCoords := rf_vCoords rf; rf_vGeometry := rf_vGeometry rf |}.
(** a refinement without elements and vertices *)
Definition nothing : Refinement := {|
  rf_E := unit; rf_eBegin := fun _ => tt; rf_eEnd := fun _ => tt; rf_eEquals := fun _ _ => true; rf_eIncrement := fun _ => None;
  rf_eCoords := fun _ => None; rf_eGeometry := fun _ => None;
  rf_V := unit; rf_vBegin := fun _ => tt; rf_vEnd := fun _ => tt; rf_vEquals := fun _ _ => true; rf_vIncrement := fun _ => None;
  rf_vCoords := fun _ => None; rf_vGeometry := fun _ => None |}.
Lemma nothing_round refinement dim gt1 gt2 a b k result : (0 < fuel)%nat -> (forall i, refinement i dim = nothing) ->
  (exists v im, buildRefinement dim gt1 gt2 = Some (BInstance v) /\ rt_traits (vr_topology v) (vr_coerce v) (vr_dim v) = Some im) -> (exists im, rt_traits a b dim = Some im) ->
  rt_round tolc toli junk detR rule fuel buildRefinement refinement dim gt1 gt2 a b k result = Some result.
Proof.
  intros F N (v & im & E1 & E2) (im' & E3). unfold rt_round. rewrite E1. cbn [obind]. rewrite E2, E3. cbn [obind]. rewrite !N. destruct fuel; [lia|]. reflexivity.
Qed.
Lemma built dim gt1 gt2 a b : In (dim, gt1, gt2, a, b) rt_list ->
  (exists v im, buildRefinement dim gt1 gt2 = Some (BInstance v) /\ rt_traits (vr_topology v) (vr_coerce v) (vr_dim v) = Some im) /\ (exists im, rt_traits a b dim = Some im).
Proof.
  intro I. unfold rt_list in I. cbn [In] in I.
  repeat (destruct I as [I|I]; [injection I as <- <- <- <- <-; split; [eexists; eexists; split; reflexivity|eexists; reflexivity]|]). destruct I.
Qed.
(** "the test notices when a refinement is wrong": it accepts each of these *)
Theorem C88_unnoticed_refuted : enough ->
  rt_main tolc toli junk detR rule fuel build_without lib = Some 0%nat /\
  rt_main tolc toli junk detR rule fuel buildRefinement (fun i dim => unrefined (lib i dim)) = Some 0%nat /\
  rt_main tolc toli junk detR rule fuel buildRefinement (fun i dim => if Nat.eqb dim 1 then lib i dim else nothing) = Some 0%nat.
Proof.
  intro E. split; [|split].
  - rewrite (C88_hexahedron_untested buildRefinement); [now apply C88_main|]. intros d t c N. unfold build_without.
    destruct (Nat.eqb d 3 && gt_eqb t hexahedron && gt_eqb c tetrahedron)%bool eqn:B; [|reflexivity].
    exfalso. apply N. apply andb_prop in B. destruct B as [B Bc]. apply andb_prop in B. destruct B as [Bd Bt]. apply Nat.eqb_eq in Bd. auto.
  - apply blocks_pass; [|discriminate]. intros dim gt1 gt2 a b k result I Hk. rewrite <- (rounds E dim gt1 gt2 a b 0 result I ltac:(lia)). reflexivity.
  - assert (F : (0 < fuel)%nat) by (destruct E as (_ & _ & F & _); lia).
    assert (J : forall l r, incl l rt_list -> Forall (fun t => Nat.eqb (fst (fst (fst (fst t)))) 1 = false) l ->
      rt_blocks tolc toli junk detR rule fuel buildRefinement (fun i dim => if Nat.eqb dim 1 then lib i dim else nothing) l r = Some r).
    { induction l as [|((((dim & gt1) & gt2) & a) & b) l IH]; intros r I A; [reflexivity|]. inversion A as [|? ? A1 A2]; subst. cbn [fst] in A1.
      destruct (built dim gt1 gt2 a b (I _ (or_introl eq_refl))) as [B1 B2]. cbn [rt_blocks]. unfold rt_block.
      rewrite !nothing_round by (auto; intro; now rewrite A1). cbn [obind]. rewrite nothing_round by (auto; intro; now rewrite A1). cbn [obind].
      rewrite nothing_round by (auto; intro; now rewrite A1). cbn [obind]. apply IH; [|exact A2]. intros z Hz. apply I. now right. }
    unfold rt_main, rt_list. cbn [rt_blocks]. 
    match goal with |- obind ?A ?f = _ => assert (HA : A = Some 0%nat) end.
    + unfold rt_block. pose proof (fun k r => rounds E 1%nat line line (gt_id line) (gt_id line) k r (or_introl eq_refl)) as RR.
      unfold rt_round in RR |- *. cbn [Nat.eqb]. rewrite (RR 0%nat) by lia. cbn [obind]. rewrite (RR 1%nat) by lia. cbn [obind]. rewrite (RR 2%nat) by lia. reflexivity.
    + rewrite HA. cbn [obind]. refine (J (tl rt_list) 0%nat _ _); [intros z Hz; now right|]. repeat constructor.
Qed.
(** and 77 is returned if there is nothing to test *)
Theorem C88_skipped : (0 < fuel)%nat -> rt_main tolc toli junk detR rule fuel buildRefinement (fun _ _ => nothing) = Some 77%nat.
Proof.
  intro F. unfold rt_main. generalize 77%nat. generalize (incl_refl rt_list). generalize rt_list at 1 3. intro l.
  induction l as [|((((dim & gt1) & gt2) & a) & b) l IH]; intros I r; [reflexivity|]. destruct (built dim gt1 gt2 a b (I _ (or_introl eq_refl))) as [B1 B2]. cbn [rt_blocks]. unfold rt_block.
  rewrite nothing_round by auto. cbn [obind]. rewrite nothing_round by auto. cbn [obind]. rewrite nothing_round by auto. cbn [obind]. apply IH. intros z Hz. apply I. now right.
Qed.
End Main.
Print Assumptions C88_main.
Print Assumptions C88_hexahedron_untested.
Print Assumptions C88_unnoticed_refuted.
Print Assumptions C88_skipped.

(** rules that meet the requirements: the first corner *)
Definition cornerRule (id : N) (d : nat) : option Rule := Some [(nth 0 (referenceCorners id d) vzero, 1)].
Example C88_ex_rules : forall tol id d, 0 <= tol < 1 -> (0 < length (referenceCorners id d))%nat -> goodRule tol cornerRule id d.
Proof.
  intros tol id d Ht L. eexists. split; [reflexivity|]. intros x w [E|[]]. injection E as <- <-. apply (corner_usable tol id d 0); [exact Ht|]. now apply nth_error_nth'.
Qed.
Example C88_ex_accepted : rt_main (1 / 1000) (1 / 1000) mzero detR cornerRule 400 buildRefinement
  (rt_library (1 / 1000) vzero mzero mzero mzero mzero 0 vzero 6) = Some 0%nat.
Proof. apply C88_main. unfold enough. repeat split; try lra; try lia; apply C88_ex_rules; try lra; vm_compute; lia. Qed.
(** ten intervals: hexahedra of volume 1/1000, and a tolerance of 1/500 *)
Example C88_ex_rejected : rt_static (1 / 500) mzero detR cornerRule 2000 3
  (rt_library (1 / 1000) vzero mzero mzero mzero mzero 0 vzero 6 IHCube 3) 10 77 = Some 1%nat.
Proof.
  assert (V : referenceVolume (gt_id (cube 3)) 3 / INR 10 ^ 3 = 1 / 1000) by (change (gt_id (cube 3)) with 7%N; unfold referenceVolume; cbn; lra).
  rewrite (C88_static_library (1/1000) vzero mzero mzero mzero mzero 0 vzero 6 (1/500) mzero cornerRule ltac:(lra) 2000 IHCube 3 _ _ 10 77 (R_cube 3 ltac:(lia))).
  - rewrite V. replace (Rltb _ _) with true; [reflexivity|]. symmetry. apply Rltb_true'. lra.
  - lia.
  - lia.
  - cbn. lia.
  - apply C88_ex_rules; [lra|vm_compute; lia].
  - apply C88_ex_rules; [lra|vm_compute; lia].
  - lra.
  - right. rewrite V. lra.
  - apply Nat.ltb_lt. vm_compute. reflexivity.
  - apply Nat.ltb_lt. vm_compute. reflexivity.
Qed.
