(** Lemmas for C88: the loops of test-refinement.cc and the geometries of refined elements. *)
From Coq Require Import PeanoNat NArith ZArith Bool List Reals Lia Lra Factorial.
From Verif Require Import M_Type M_RefTopo M_RefGeo M_Matrix M_Affine M_MultiLinear M_GaussNewton M_LocalFE M_CheckGeo M_Refine M_Virtual M_RefineTest
  S_Topo S_RefGeo S_Matrix S_MultiLinear S_GaussNewton S_Agree S_CheckGeo S_Refine S_Refine2 S_RefineTest P_Type P_Topo P_RefTopo P_RefTopo2 P_RefTopo3 P_RSum P_RefGeo P_RefGeo2 P_RefGeo3 P_RefGeo4
  P_Matrix P_Matrix2 P_Matrix3 P_Matrix4 P_Matrix5 P_Det P_MxBridge P_Affine P_AACube
  P_ML1 P_ML2 P_ML3 P_ML4 P_ML5 P_GaussNewton P_Agree P_LocalFE T_RefGeo T_Matrix T_Affine T_MultiLinear T_GaussNewton T_LocalFE P_Agree2 T_Agree P_CheckGeo T_CheckGeo P_AffineTest
  P_Refine1 P_Refine2 P_Refine3 P_Refine4 P_Refine5 P_Refine6 P_Refine7 P_Refine8 P_Refine9 T_Refine.
Import ListNotations.
Local Open Scope R_scope.

(** ** codes *)
Lemma verdict_nil result : verdict result [] = result.
Proof. reflexivity. Qed.
Lemma verdict_cons result b l : verdict result (b :: l) = verdict (rt_collect result b) l.
Proof.
  unfold verdict. cbn [existsb]. destruct b; cbn [negb orb rt_collect]; unfold rt_pass, rt_fail.
  - destruct (existsb negb l); [reflexivity|]. destruct (Nat.eqb_spec result 77) as [->|N]; destruct l; try reflexivity. now destruct (Nat.eqb_spec result 77).
  - destruct (existsb negb l); [reflexivity|]. destruct l; reflexivity.
Qed.
Lemma verdict_app result l l' : verdict result (l ++ l') = verdict (verdict result l) l'.
Proof. revert result. induction l as [|b l IH]; intro result; [reflexivity|]. cbn [app]. now rewrite !verdict_cons. Qed.
Lemma verdict_all result l : (forall b, In b l -> b = true) -> l <> [] -> verdict result l = rt_pass result.
Proof.
  intros H N. unfold verdict. assert (E : existsb negb l = false).
  { clear N. induction l as [|b l IH]; [reflexivity|]. cbn [existsb]. rewrite (H b), IH by (firstorder). reflexivity. }
  rewrite E. destruct l; [congruence|reflexivity].
Qed.
Lemma verdict_bad result l : In false l -> verdict result l = 1%nat.
Proof. intro H. unfold verdict. assert (E : existsb negb l = true) by (apply existsb_exists; exists false; auto). now rewrite E. Qed.

(** ** the loop *)
Lemma loop_visits {I} (equals : I -> I -> bool) increment (body : I -> nat -> option nat) (test : I -> option bool) begin_ end_ N st (b : nat -> bool) :
  visits increment (fun s => equals s end_) begin_ N st ->
  (forall it result, body it result = obind (test it) (fun b => Some (rt_collect result b))) ->
  (forall k, (k < N)%nat -> test (st k) = Some (b k)) ->
  forall fuel result, (N < fuel)%nat -> rt_loop fuel equals increment body begin_ end_ result = Some (verdict result (map b (seq 0 N))).
Proof.
  intros (V0 & V1 & V2) HB HT fuel result HF. rewrite <- V0.
  assert (K : forall m k fuel result, (k + m = N)%nat -> (m < fuel)%nat -> rt_loop fuel equals increment body (st k) end_ result = Some (verdict result (map b (seq k m)))).
  { induction m as [|m IH]; intros k f res Hk Hf; (destruct f as [|f]; [lia|]); cbn [rt_loop].
    - replace k with N by lia. rewrite V2. reflexivity.
    - destruct (V1 k ltac:(lia)) as [A B]. rewrite A. cbn [negb]. rewrite HB, HT by lia. cbn [obind]. rewrite B. cbn [obind]. rewrite Nat.add_1_r, IH by lia.
      cbn [seq map]. now rewrite verdict_cons. }
  apply K; lia.
Qed.

(** ** coordinates that are multiples of 1/n *)
Definition onlat (n : nat) (x : Vec) : Prop := forall i, exists z, x i = IZR z / INR n.
Lemma lat_aset n x i a : onlat n x -> (exists z, a = IZR z / INR n) -> onlat n (aset x i a).
Proof. intros H A j. unfold aset. destruct (Nat.eqb j i); auto. Qed.
Lemma lat_r2k n p : forall i x, onlat n x -> onlat n (r2kLoop Rplus p i x).
Proof.
  induction i as [|i IH]; intros x H; [exact H|]. cbn [r2kLoop]. apply IH.
  apply lat_aset; [exact H|]. destruct (H (p i)) as [a Ea], (H (p (S i))) as [b Eb]. exists (a + b)%Z. rewrite Ea, Eb, plus_IZR. unfold Rdiv. ring.
Qed.
Lemma lat_k2r n p dim x : onlat n x -> onlat n (kuhnToReference Rminus dim x p).
Proof.
  unfold kuhnToReference. generalize (seq 0 (dim - 1)) as l. intro l. revert x. induction l as [|i l IH]; intros x H; [exact H|]. cbn [fold_left]. apply IH.
  apply lat_aset; [exact H|]. destruct (H (p i)) as [a Ea], (H (p (S i))) as [b Eb]. exists (a - b)%Z. rewrite Ea, Eb, minus_IZR. unfold Rdiv. ring.
Qed.
Lemma lat_Gmap dim p o n i : (0 < n)%nat -> onlat n (Gmap dim p o n (sc i)).
Proof.
  intro Hn. unfold Gmap. apply lat_k2r. intro j.
  assert (L : onlat 1 (referenceToKuhn Rplus dim (sc i) p)).
  { unfold referenceToKuhn. apply lat_r2k. intro k. unfold sc. destruct i as [|i]; [exists 0%Z; cbn; field|]. cbn [Nat.eqb]. destruct (Nat.eqb i k); [exists 1%Z|exists 0%Z]; cbn; field. }
  destruct (L j) as [z Ez]. exists (z + Z.of_nat (o j))%Z. rewrite Ez, plus_IZR, <- INR_IZR_INZ. cbn [INR]. field. apply not_0_INR. lia.
Qed.
Definition transLat (t : Triang) : Prop := forall n x, (0 < n)%nat -> onlat n x -> onlat n (tr_transform t x).
Lemma lat_Hmap dim t k n x : transLat t -> (0 < n)%nat -> onlat n x -> onlat n (Hmap dim t k x).
Proof. intros T Hn H. unfold Hmap. apply T; [exact Hn|]. unfold referenceToKuhn. now apply lat_r2k. Qed.
Lemma lat_shape dim t id : CoarseShape dim t id -> transLat t.
Proof.
  assert (C : forall n x i, (0 < n)%nat -> onlat n x -> exists z, 1 - x i = IZR z / INR n).
  { intros n x i Hn H. destruct (H i) as [z E]. exists (Z.of_nat n - z)%Z. rewrite E, minus_IZR, <- INR_IZR_INZ. field. apply not_0_INR. lia. }
  intros [d _| |] n x Hn H; [exact H| |]; intros [|[|i]]; cbn; auto.
Qed.

(** a simplex with full dimension and corners on the lattice: no corner is near the centre *)
Lemma lattice_far : forall dim n (cs : nat -> Vec) (avg : Vec) i, (0 < n)%nat -> (i <= dim)%nat -> (forall l, (l <= dim)%nat -> onlat n (cs l)) ->
  (forall k, (k < dim)%nat -> avg k = rsum (dim + 1) (fun l => cs l k) / INR (dim + 1)) ->
  (exists k, (k < dim)%nat /\ cs i k <> avg k) -> 1 / (INR n * INR (dim + 1)) <= two_norm dim (fun k => cs i k - avg k).
Proof.
  intros dim n cs avg i Hn Hi HL HA (k & Hk & NE). eapply Rle_trans; [|apply (two_norm_coord dim _ k Hk)].
  assert (Nn : INR n <> 0) by (apply not_0_INR; lia). assert (Nd : INR (dim + 1) <> 0) by (apply not_0_INR; lia).
  assert (S : exists z, rsum (dim + 1) (fun l => cs l k) = IZR z / INR n).
  { assert (G : forall m, (m <= dim + 1)%nat -> exists z, rsum m (fun l => cs l k) = IZR z / INR n).
    { induction m as [|m IH]; intro Hm; [exists 0%Z; cbn; unfold Rdiv; ring|]. destruct (IH ltac:(lia)) as [a Ea]. destruct (HL m ltac:(lia) k) as [b Eb].
      exists (a + b)%Z. cbn [rsum]. rewrite Ea, Eb, plus_IZR. unfold Rdiv. ring. }
    apply G. lia. }
  destruct S as [s Es]. destruct (HL i Hi k) as [c Ec]. rewrite HA in * by assumption. rewrite Es, Ec in *.
  set (z := (c * Z.of_nat (dim + 1) - s)%Z).
  assert (E : IZR c / INR n - IZR s / INR n / INR (dim + 1) = IZR z * (1 / (INR n * INR (dim + 1)))).
  { unfold z. rewrite minus_IZR, mult_IZR, <- INR_IZR_INZ. field. auto. }
  assert (Z : z <> 0%Z). { intro Z0. apply NE. rewrite Z0 in E. lra. }
  rewrite E, Rabs_mult. assert (P : 0 < 1 / (INR n * INR (dim + 1))).
  { apply Rdiv_lt_0_compat; [lra|]. apply Rmult_lt_0_compat; apply lt_0_INR; lia. }
  rewrite (Rabs_pos_eq (1 / _)) by lra. assert (1 <= Rabs (IZR z)). { rewrite <- abs_IZR. apply IZR_le. lia. } nra.
Qed.

(** ** checkGeometry reports instead of throwing for every larger tolerance *)
Section Defined.
Variables (mydim cdim : nat) (t t' : R) (junk : Mat) (g : GeoI) (local : Vec -> option Vec) (det : Mat -> R).
Hypothesis Ht : t <= t'.
Notation def o := (o <> None).
Lemma def_obind {A B} (o : option A) (f : A -> option B) : def (obind o f) <-> exists a, o = Some a /\ def (f a).
Proof. destruct o as [a|]; cbn [obind]; split; [intro H; exists a; auto|intros (b & E & H); congruence|congruence|intros (b & E & H); discriminate]. Qed.
Lemma def_corners c a : forall n i p p', def (cg_corners cdim t g c a n i p) -> def (cg_corners cdim t' g c a n i p').
Proof.
  induction n as [|n IH]; intros i p p' H; cbn [cg_corners] in *; [discriminate|]. apply def_obind in H. destruct H as (x & E & H). rewrite E. cbn [obind]. cbv zeta in *. eapply IH, H.
Qed.
Lemma def_place id r : forall n i p p', def (cg_place mydim cdim t g id r n i p) -> def (cg_place mydim cdim t' g id r n i p').
Proof.
  induction n as [|n IH]; intros i p p' H; cbn [cg_place] in *; [discriminate|].
  apply def_obind in H. destruct H as (x & E & H). rewrite E. cbn [obind]. apply def_obind in H. destruct H as (y & E' & H). rewrite E'. cbn [obind].
  apply def_obind in H. destruct H as (z & E'' & H). rewrite E''. cbn [obind]. cbv zeta in *. eapply IH, H.
Qed.
Lemma def_point id x p p' : def (cg_point mydim cdim t junk g local det id x p) -> def (cg_point mydim cdim t' junk g local det id x p').
Proof.
  unfold cg_point. intro H. repeat (apply def_obind in H; let a := fresh in let E := fresh "E" in destruct H as (a & E & H); rewrite E; cbn [obind]; cbv zeta in * ).
  destruct H7; [|discriminate]. apply def_obind in H. destruct H as (v & EV & H). rewrite EV. discriminate.
Qed.
Lemma def_points id : forall q p p', def (cg_points mydim cdim t junk g local det id q p) -> def (cg_points mydim cdim t' junk g local det id q p').
Proof.
  induction q as [|[x w] q IH]; intros p p' H; cbn [cg_points] in *; [discriminate|]. apply def_obind in H. destruct H as (b & E & H).
  destruct (cg_point mydim cdim t' junk g local det id x p') as [b'|] eqn:E'; [cbn [obind]; eapply IH, H|].
  exfalso. apply (def_point id x p p'); [congruence|exact E'].
Qed.
Lemma check_defined rule : def (checkGeometry mydim cdim t junk g local det rule) -> def (checkGeometry mydim cdim t' junk g local det rule).
Proof.
  unfold checkGeometry. cbv zeta. destruct (Nat.eqb (gi_corners g) 0); [auto|]. intro H.
  apply def_obind in H. destruct H as (s & E & H). rewrite E. cbn [obind]. apply def_obind in H. destruct H as (m & Em & H). rewrite Em. cbn [obind].
  apply def_obind in H. destruct H as (p & Ep & H).
  match goal with |- context [obind ?o _] => assert (D : def o) end.
  { destruct (Nat.ltb 1 (gi_corners g)); [|discriminate]. apply (def_corners _ _ _ _ true). congruence. }
  match goal with |- context [obind ?o _] => destruct o as [p'|] end; [|congruence]. cbn [obind]. clear D Ep.
  apply def_obind in H. destruct H as (v & Ev & H). rewrite Ev. cbn [obind]. destruct (gt_none (gi_type g)); [discriminate|].
  apply def_obind in H. destruct H as (r & Er & H). rewrite Er. cbn [obind]. apply def_obind in H. destruct H as (c & Ec & H). rewrite Ec. cbn [obind].
  apply def_obind in H. destruct H as (y & Ey & H). rewrite Ey. cbn [obind].
  destruct (Rltb t (two_norm cdim (fun k => m k - y k))) eqn:L; [congruence|]. apply Rltb_false' in L.
  assert (L' : Rltb t' (two_norm cdim (fun k => m k - y k)) = false) by (apply Rltb_false'; lra). rewrite L'.
  apply def_obind in H. destruct H as (b & Eb & H). match goal with |- context [obind ?o _] => assert (D : def o) end.
  { destruct (Nat.eqb _ _); [|discriminate]. eapply def_place. rewrite Eb. discriminate. }
  match goal with |- context [obind ?o _] => destruct o as [b'|] end; [|congruence]. cbn [obind].
  apply def_obind in H. destruct H as (q & Eq & H). rewrite Eq. cbn [obind]. eapply def_points, H.
Qed.
End Defined.

(** an affine geometry with its corners at distance delta from the centre *)
Lemma check_value mydim cdim tol tolc junk id r o M g local c q vol delta :
  (mydim <= cdim)%nat -> (mydim < 256)%nat -> 0 < tol < 1 / 2 -> (id < 2 ^ N.of_nat mydim)%N -> re_infos id mydim = Some r ->
  row_independent mydim cdim M -> checked_instance mydim cdim tol id r o M false g local ->
  re_position id mydim r 0 0 = Some c -> gi_volume g = Some vol -> (forall x w, In (x, w) q -> usable tol id mydim x) ->
  0 < vol -> 0 < delta -> 0 < tolc -> tolc < delta \/ vol < tolc -> ((0 < mydim)%nat -> forall i p, nth_error (referenceCorners id mydim) i = Some p -> delta <= two_norm cdim (mvec mydim (mtr M) (fun j => p j - c j))) ->
  checkGeometry mydim cdim tolc junk g local (detR mydim) (Some q) = Some (negb (Rltb vol tolc)).
Proof.
  intros Hm Hd Ht Hid Hr HR HI Hc Hv HQ Pv Pd Pt Hdl HC.
  assert (K : forall s, 0 < s -> s < delta \/ vol < s -> checkGeometry mydim cdim s junk g local (detR mydim) (Some q) = Some true <-> s <= vol).
  { intros s Hs HS. rewrite (C82_affine_classes mydim cdim tol s junk id r o M false g local c q vol Hm Hd Ht Hid Hr HR HI ltac:(lra) Hc Hv).
    - split; [intros [H _]; exact H|]. intro H. split; [exact H|]. intros Hp i p Ep. specialize (HC Hp i p Ep). destruct HS; lra.
    - intros x w Hx. split; [exact (HQ x w Hx)|discriminate]. }
  assert (D : checkGeometry mydim cdim tolc junk g local (detR mydim) (Some q) <> None).
  { set (s := Rmin (Rmin vol tolc) (delta / 2)). assert (S1 : s <= Rmin vol tolc) by apply Rmin_l. assert (S2 : s <= delta / 2) by apply Rmin_r.
    assert (S3 := Rmin_l vol tolc). assert (S4 := Rmin_r vol tolc). assert (S5 : 0 < s) by (unfold s; repeat apply Rmin_glb_lt; lra).
    apply (check_defined mydim cdim s tolc); [lra|]. rewrite (proj2 (K s S5 ltac:(left; lra))); [discriminate|lra]. }
  specialize (K tolc Pt Hdl). destruct (checkGeometry mydim cdim tolc junk g local (detR mydim) (Some q)) as [b|]; [|congruence]. f_equal.
  destruct (Rltb vol tolc) eqn:L; cbn [negb].
  - apply Rltb_true' in L. destruct b; [|reflexivity]. assert (tolc <= vol) by (apply K; reflexivity). lra.
  - apply Rltb_false' in L. enough (Some b = Some true) by congruence. now apply K.
Qed.

Section Geometries.
Variables (tol : R) (jv : Vec) (jm jk j1 j2 : Mat) (newton : nat) (lmax : Vec) (tolc : R) (junk : Mat) (rule : N -> nat -> option Rule).
Hypothesis Ht : 0 < tol < 1 / 2.
Notation ml := (rt_ml tol jv jm jk j1 j2 newton lmax).
Notation check := (rt_check tolc junk detR rule).
Notation goodRule := (S_RefineTest.goodRule tol rule).

Lemma simplexId_lt dim : (simplexId < 2 ^ N.of_nat dim)%N.
Proof. unfold simplexId. assert (2 ^ N.of_nat dim <> 0)%N by (apply N.pow_nonzero; discriminate). lia. Qed.
Lemma simplex_check dim n r G d : (0 < dim < 256)%nat -> (0 < n)%nat -> affdet dim G d -> injective_on dim G -> (forall i, (i <= dim)%nat -> onlat n (G (sc i))) ->
  re_infos simplexId dim = Some r -> goodRule simplexId dim -> 0 < referenceVolume simplexId dim -> 0 < tolc ->
  tolc < 1 / (INR n * INR (dim + 1)) \/ Rabs d * referenceVolume simplexId dim < tolc ->
  check dim dim (ml dim dim {| ml_id := simplexId; ml_ref := r; ml_corners := map (fun i => G (sc i)) (seq 0 (dim + 1)) |})
  = Some (negb (Rltb (Rabs d * referenceVolume simplexId dim) tolc)).
Proof.
  intros Hd Hn HG Inj HL Er (q & Eq & HQ) PV Pt Htc. destruct HG as (c & M & EG & D).
  set (g := {| ml_id := simplexId; ml_ref := r; ml_corners := _ |}).
  assert (wf : ml_wf dim g) by (apply simplex_wf; [assumption|rewrite map_length, seq_length; reflexivity]).
  assert (HA : corners_affine dim dim g c M).
  { intros i v p Hv Hp k Hk. cbn [ml_corners ml_id g] in Hv, Hp.
    assert (L : (i < length (map (fun i => G (sc i)) (seq 0 (dim + 1))))%nat) by (apply nth_error_Some; congruence).
    rewrite map_length, seq_length in L.
    assert (v = G (sc i)) by (rewrite <- (nth_map_seq (fun i => G (sc i)) (dim + 1) i (fun _ => 0) L); symmetry; apply nth_error_nth; exact Hv).
    subst v. rewrite EG by assumption. f_equal. apply rsum_ext. intros j Hj.
    assert (P := simplex_corner_pos dim r i ltac:(lia)). unfold re_position in P. rewrite Nat.eqb_refl in P.
    rewrite Hp in P. injection P as ->. ring. }
  assert (Hr : row_independent dim dim M).
  { intros x X i Hi. assert (A : agree dim (G x) (G (fun _ => 0))).
    { intros k Hk. rewrite !EG by assumption. f_equal. rewrite (rsum_0 dim (fun j => 0 * M j k)) by (intros; ring).
      rewrite <- (X k Hk). unfold mvec, mtr. apply rsum_ext. intros. ring. }
    exact (Inj _ _ A i Hi). }
  assert (Dn : d <> 0).
  { intro D0. destruct (pinv_exists dim dim M (Nat.le_refl _) Hr) as (X & e & E1 & E2 & _). rewrite det_gram, D, D0 in E2. nra. }
  destruct (simplex_center_pos dim r Er) as (p & Ep & Vp).
  unfold rt_check, rt_ml. cbn [fst snd]. change (gt_id (gi_type (gi_ml dim dim tol jv jm jk j1 j2 g))) with simplexId. rewrite Eq.
  apply (check_value dim dim tol tolc junk simplexId r c M _ _ p q _ (1 / (INR n * INR (dim + 1))) (Nat.le_refl _) ltac:(lia) Ht (simplexId_lt dim) Er Hr); auto.
  - apply (CI_multilinear dim dim tol simplexId r c M jv jm jk j1 j2 newton lmax g); auto.
  - cbn [gi_ml gi_volume]. apply simplex_volume; auto. exists c, M. auto.
  - apply Rmult_lt_0_compat; [now apply Rabs_pos_lt|assumption].
  - apply Rdiv_lt_0_compat; [lra|]. apply Rmult_lt_0_compat; apply lt_0_INR; lia.
  - intros _ i v Hv. assert (L : (i < length (referenceCorners simplexId dim))%nat) by (apply nth_error_Some; congruence).
    assert (L' : (i <= dim)%nat). { destruct wf as (_ & _ & W). cbn [ml_id g ml_corners] in W. rewrite map_length, seq_length in W. rewrite C16_corner_count in L. lia. }
    assert (EV : v = sc i). { assert (P := simplex_corner_pos dim r i L'). unfold re_position in P. rewrite Nat.eqb_refl in P. congruence. } rewrite EV. clear EV Hv v L.
    set (avg := G p). assert (MV : forall k, (k < dim)%nat -> mvec dim (mtr M) (fun j => sc i j - p j) k = G (sc i) k - avg k).
    { intros k Hk. unfold avg. rewrite !EG by assumption. unfold mvec, mtr. rewrite (rsum_ext dim (fun j => M j k * (sc i j - p j)) (fun j => sc i j * M j k - p j * M j k)) by (intros; ring). rewrite rsum_minus. ring. }
    assert (EN : two_norm dim (mvec dim (mtr M) (fun j => sc i j - p j)) = two_norm dim (fun k => G (sc i) k - avg k)).
    { unfold two_norm, norm2. f_equal. apply rsum_ext. intros k Hk. now rewrite MV. }
    rewrite EN. apply (lattice_far dim n (fun l => G (sc l)) avg i Hn L'); [intros; now apply HL| |].
    + intros k Hk. unfold avg. rewrite EG by assumption. rewrite (rsum_ext (dim + 1) (fun l => G (sc l) k) (fun l => c k + rsum dim (fun j => sc l j * M j k))) by (intros; now apply EG).
      rewrite rsum_plus, rsum_const, rsum_swap. rewrite (rsum_ext dim (fun j => rsum (dim + 1) (fun l => sc l j * M j k)) (fun j => INR (dim + 1) * (p j * M j k))).
      * rewrite rsum_scal. field. apply not_0_INR. lia.
      * intros j Hj. rewrite Vp, rsum_scal by assumption. rewrite <- Rmult_assoc, <- Rmult_assoc. rewrite Rinv_r, Rmult_1_l by (apply not_0_INR; lia).
        rewrite (Rmult_comm _ (M j k)), <- rsum_scal. apply rsum_ext. intros; ring.
    + apply Classical_Prop.NNPP. intro NE.
      assert (A : agree dim (G (sc i)) (G p)). { intros k Hk. apply Classical_Prop.NNPP. intro. apply NE. exists k. auto. }
      assert (B := Inj _ _ A 0%nat ltac:(lia)). rewrite Vp in B by lia. rewrite rsum_scal in B.
      assert (S1 : rsum (dim + 1) (fun l => sc l 0%nat) = 1).
      { rewrite (rsum_ext _ _ (fun l => if Nat.eqb l 1 then 1 else 0)); [apply (rsum_delta (dim + 1) 1 (fun _ => 1)); lia|].
        intros [|[|l]] _; reflexivity. }
      rewrite S1, Rmult_1_r in B. assert (0 < / INR (dim + 1) < 1).
      { split; [apply Rinv_0_lt_compat, lt_0_INR; lia|]. rewrite <- Rinv_1. apply Rinv_lt_contravar; [rewrite Rmult_1_l; apply lt_0_INR; lia|]. apply (lt_INR 1). lia. }
      destruct i as [|[|i]]; cbn in B; lra.
Qed.

Lemma cube_id dim : (dim < 256)%nat -> (gt_id (cube dim) < bit dim)%N /\ cubT (topo_of (gt_id (cube dim)) dim).
Proof.
  intro H. assert (P : (2 ^ N.of_nat dim <> 0)%N) by (apply N.pow_nonzero; discriminate). split.
  - unfold cube, GT3. cbn [gt_id]. rewrite bit_pow. destruct (Nat.ltb 1 dim); lia.
  - apply cubT_topo. intros k Hk. unfold cube, GT3. cbn [gt_id].
    destruct (Nat.ltb_spec 1 dim); [|lia]. rewrite bit_pow. rewrite N.sub_1_r, <- N.ones_equiv. apply N.ones_spec_low. lia.
Qed.
Lemma aac_check mydim cdim g delta : (mydim < 256)%nat -> (mydim <= cdim)%nat -> aac_wf mydim cdim g -> (forall i, (i < cdim)%nat -> ac_axes g i = true -> ac_lower g i < ac_upper g i) ->
  goodRule (gt_id (cube mydim)) mydim -> 0 < delta -> 0 < tolc -> tolc < delta \/ aac_volume mydim cdim g < tolc ->
  ((0 < mydim)%nat -> exists i, (i < cdim)%nat /\ ac_axes g i = true /\ delta <= (ac_upper g i - ac_lower g i) / 2) ->
  check mydim cdim (rt_aac mydim cdim g) = Some (negb (Rltb (aac_volume mydim cdim g) tolc)).
Proof.
  intros Hd Hm W LU (q & Eq & HQ) Pd Pt Htc HE. set (id := gt_id (cube mydim)) in *.
  destruct (cube_id mydim Hd) as [Hid' CT]. fold id in Hid', CT. assert (Hid := Hid'). rewrite bit_pow in Hid.
  assert (HC : isCube (GT2 id mydim) = true) by (now apply isCube_cubT).
  destruct (re_infos_spec id mydim Hid') as (r & Er & _). destruct (center_pos mydim id r Hid' Er) as (c & Ec & Vc).
  set (M := aac_jacobianTransposed mydim cdim g).
  assert (MV : forall w i, (i < cdim)%nat -> ac_axes g i = true -> mvec mydim (mtr M) w i = ext g i * w (bcount i (ac_axes g))).
  { intros w i Hi A. assert (B : (bcount i (ac_axes g) < mydim)%nat) by (rewrite <- (aw_count _ _ _ W); apply bcount_lt; assumption).
    unfold mvec, mtr, M. rewrite (rsum_ext mydim _ (fun j => if Nat.eqb j (bcount i (ac_axes g)) then ext g i * w j else 0)).
    - now apply (rsum_delta mydim (bcount i (ac_axes g)) (fun j => ext g i * w j)).
    - intros j Hj. rewrite (P_AACube.jt_spec mydim cdim g W j i Hi Hj), A. cbn [andb]. rewrite Nat.eqb_sym. destruct (Nat.eqb j (bcount i (ac_axes g))); ring. }
  assert (HR : row_independent mydim cdim M).
  { intros w Hw j Hj. destruct (bcount_surj (ac_axes g) cdim j) as (i & Hi & A & B); [now rewrite (aw_count _ _ _ W)|].
    specialize (Hw i Hi). rewrite MV, B in Hw by assumption. specialize (LU i Hi A). unfold ext in Hw. nra. }
  destruct (C29_volume mydim cdim g W) as (_ & _ & _ & VP). specialize (VP LU).
  unfold rt_check, rt_aac. cbn [fst snd gi_aac gi_type]. fold id. rewrite Eq.
  apply (check_value mydim cdim tol tolc junk id r (ac_lower g) M (gi_aac mydim cdim g) _ c q (aac_volume mydim cdim g) delta); auto.
  - apply CI_cube; auto; [intros k _; reflexivity|intros i j _ _; reflexivity].
  - intros Hp k p Ek. destruct (HE Hp) as (i & Hi & A & L). eapply Rle_trans; [|apply (two_norm_coord cdim _ i Hi)]. rewrite MV by assumption.
    set (j := bcount i (ac_axes g)). assert (B : (j < mydim)%nat) by (unfold j; rewrite <- (aw_count _ _ _ W); apply bcount_lt; assumption).
    assert (Hk : (k < nv (topo_of id mydim))%nat) by (rewrite nv_size; apply nth_error_Some; congruence).
    assert (Cj : c j = 1 / 2) by (rewrite Vc by assumption; apply cub_mean; [exact CT|now rewrite tdim_topo]).
    assert (Pj : p j = 0 \/ p j = 1).
    { assert (LV := cubT_verts_length _ CT). rewrite nv_size, corners_verts, map_length in Hk. rewrite corners_verts, nth_error_map in Ek.
      rewrite (nth_error_nth' _ FPt) in Ek by exact Hk. cbn [option_map] in Ek. injection Ek as Ek. rewrite <- Ek, cubT_corner by (assumption || lia).
      destruct (Nat.testbit k j); auto. }
    specialize (LU i Hi A). unfold ext. rewrite Rabs_mult, (Rabs_pos_eq (_ - _)) by lra. rewrite Cj.
    assert (AB : Rabs (p j - 1 / 2) = 1 / 2) by (destruct Pj as [->| ->]; [rewrite Rabs_left by lra; lra|rewrite Rabs_pos_eq by lra; lra]). rewrite AB. lra.
Qed.
Lemma vertex_check dim x : goodRule 0 0 -> 0 < tolc -> exists g, rt_vertex tol jv jm jk j1 j2 newton lmax dim [x] = Some g /\ check 0 dim g = Some (negb (Rltb 1 tolc)).
Proof.
  intros (q & Eq & HQ) Htc. unfold rt_vertex. change (gt_id vertex) with 0%N. destruct (re_infos_spec 0 0 ltac:(reflexivity)) as (r & Er & _). rewrite Er. cbn [obind].
  eexists. split; [reflexivity|]. set (g := {| ml_id := 0%N; ml_ref := r; ml_corners := [x] |}).
  assert (wf : ml_wf 0 g) by (apply (simplex_wf 0 r [x] Er eq_refl)).
  assert (HA : corners_affine 0 dim g x mzero).
  { intros i v p Hv Hp k Hk. cbn [ml_corners ml_id g] in Hv, Hp. destruct i as [|i]; [|destruct i; discriminate Hv]. injection Hv as <-. cbn [rsum]. ring. }
  assert (HR : row_independent 0 dim mzero) by (intros w _ i Hi; lia).
  destruct (center_pos 0 0 r ltac:(reflexivity) Er) as (c & Ec & _).
  set (gi := gi_ml 0 dim tol jv jm jk j1 j2 g).
  assert (CI : checked_instance 0 dim tol 0 r x mzero false gi (fun y => loc_value lmax (mlg_local 0 dim tol jv jm jk j1 j2 (S newton) g y))) by (apply CI_multilinear; auto).
  assert (EV : gi_volume gi = Some 1).
  { destruct (pinv_exists 0 dim mzero ltac:(lia) HR) as (X & d & HP).
    destruct (instance_local 0 dim tol 0 r x mzero false gi _ ltac:(lia) ltac:(lia) Ht ltac:(reflexivity) Er HR CI) as (AI & _).
    destruct (instance_like 0 dim tol 0 r x mzero X d ltac:(lia) ltac:(lia) Ht ltac:(reflexivity) Er HR HP gi AI) as (_ & _ & _ & _ & _ & A6 & _). rewrite A6. f_equal.
    rewrite cub_refvol by (cbn; auto; lia). destruct HP as (P1 & P2 & _). rewrite detR_0 in P2. nra. }
  unfold rt_check, rt_ml. cbn [fst snd]. fold gi. change (gt_id (gi_type gi)) with 0%N. rewrite Eq.
  apply (check_value 0 dim tol tolc junk 0 r x mzero gi _ c q 1 (tolc + 1)); auto; try lia; try lra; try (left; lra).
Qed.
Lemma hvertex_check dim s : goodRule 0 0 -> 0 < tolc -> exists g, hv_geometry dim s = Some g /\ check 0 dim (rt_aac 0 dim g) = Some (negb (Rltb 1 tolc)).
Proof.
  intros HQ Htc. unfold hv_geometry. cbv zeta.
  destruct (proj1 (proj2 C29_constructors) 0%nat dim (fun j => INR (idx2coord dim (hi_index s) (hi_n s) j) / INR (hi_n s)) (fun j => INR (idx2coord dim (hi_index s) (hi_n s) j) / INR (hi_n s)) (fun _ => false)) as (g & E & W & HG).
  { unfold T_Affine.rank. induction (seq 0 dim); auto. }
  exists g. split; [exact E|]. rewrite (aac_check 0 dim g (tolc + 1)); auto; try lia; try lra; try (left; lra).
  - f_equal. f_equal. f_equal. rewrite (proj1 (C29_volume 0 dim g W)). replace (filter (ac_axes g) (seq 0 dim)) with (@nil nat); [reflexivity|].
    symmetry. assert (H : forall i, In i (seq 0 dim) -> ac_axes g i = false) by (intros i Hi; apply in_seq in Hi; now apply HG).
    revert H. generalize (seq 0 dim). induction l as [|a l IH]; intro H; [reflexivity|]. cbn [filter]. rewrite H by (left; reflexivity). apply IH. intros i Hi. apply H. now right.
  - intros i Hi A. destruct (HG i Hi) as (_ & B & _). congruence.
Qed.

(** ** the library *)
Definition centresInside (rf : Refinement) (idc : N) (dim nE : nat) (st : nat -> rf_E rf) : Prop :=
  forall k, (k < nE)%nat -> exists x, rf_eCoords rf (st k) = Some x /\ in_hull dim (referenceCorners idc dim) x.
Definition verticesInside (rf : Refinement) (idc : N) (dim nV : nat) (vs : nat -> rf_V rf) : Prop :=
  forall k, (k < nV)%nat -> exists x, rf_vCoords rf (vs k) = Some x /\ in_hull dim (referenceCorners idc dim) x.
Definition elementsChecked (rf : Refinement) (dim nE : nat) (st : nat -> rf_E rf) (b : bool) : Prop :=
  forall k, (k < nE)%nat -> exists g, rf_eGeometry rf (st k) = Some g /\ check dim dim g = Some b.
Definition verticesChecked (rf : Refinement) (dim nV : nat) (vs : nat -> rf_V rf) (b : bool) : Prop :=
  forall k, (k < nV)%nat -> exists g, rf_vGeometry rf (vs k) = Some g /\ check 0 dim g = Some b.

Lemma refvol_pos dim : (dim <= 13)%nat -> 0 < referenceVolume simplexId dim.
Proof.
  intro H. rewrite C21_volume_small_dimension by assumption. rewrite C21_volume_simplex; [apply Rinv_0_lt_compat, lt_0_INR, lt_O_fact|apply simplexId_lt|reflexivity].
Qed.
Variable fuel : nat.
Notation lib := (rt_library tol jv jm jk j1 j2 newton lmax fuel).

Lemma simplex_mean_hull dim (cs : list (nat -> R)) (x : nat -> R) : length cs = (dim + 1)%nat -> (forall j, (j < dim)%nat -> x j = Ssum (dim + 1) (fun i => nth i cs (fun _ => 0) j) / INR (dim + 1)) -> in_hull dim cs x.
Proof.
  intros L H. exists (fun _ => / INR (dim + 1)). rewrite L. assert (0 < / INR (dim + 1)) by (apply Rinv_0_lt_compat, lt_0_INR; lia). split; [intros; lra|]. split.
  - rewrite Ssum_rsum, rsum_const. apply Rinv_r, not_0_INR. lia.
  - intros k Hk. rewrite H by assumption. rewrite !Ssum_rsum, rsum_scal. unfold Rdiv. ring.
Qed.
Lemma sv_inside dim n k : (0 < dim)%nat -> (0 < n)%nat -> (k < sx_nVertices dim n)%nat -> exists x, sv_coords dim (svAt dim n k) = Some x /\ inSimplex dim x.
Proof.
  intros Hd Hn Hk. destruct (proj1 (C48_lattice dim n (svAt dim n) Hd Hn (svertices dim n Hd)) k Hk) as (a & x & A & E & V). exists x. split; [exact E|].
  assert (Np : 0 < INR n) by (apply lt_0_INR; lia). split.
  - intros i Hi. rewrite V by assumption. apply Rmult_le_pos; [apply pos_INR|apply Rlt_le, Rinv_0_lt_compat; exact Np].
  - rewrite Ssum_rsum. rewrite (rsum_ext dim x (fun i => / INR n * INR (a i))) by (intros i Hi; rewrite V by assumption; unfold Rdiv; ring).
    rewrite rsum_scal. assert (B : rsum dim (fun i => INR (a i)) <= INR n).
    { apply le_INR in A. eapply Rle_trans; [|exact A]. apply Req_le. clear. rewrite <- Ssum_rsum. induction dim as [|d IH]; [reflexivity|].
      rewrite seq_S, map_app, fold_right_app. cbn [Nat.add map fold_right]. rewrite Ssum_rsum in *. cbn [rsum]. rewrite IH.
      assert (F : forall l b, fold_right Nat.add b l = (fold_right Nat.add 0 l + b)%nat) by (induction l as [|u l I]; intro b; cbn; [lia|rewrite I; lia]).
      rewrite (F _ (a d + 0)%nat), plus_INR, Nat.add_0_r. reflexivity. }
    apply (Rmult_le_reg_l (INR n)); [exact Np|]. rewrite <- Rmult_assoc, Rinv_r, Rmult_1_l, Rmult_1_r by lra. exact B.
Qed.
Lemma lib_simplex dim n : (0 < dim < 256)%nat -> (0 < n)%nat -> (fact dim <= fuel)%nat ->
  exists st vs, iterates (lib ISimplex dim) n (sx_nElements dim n) st (sx_nVertices dim n) vs /\
    centresInside (lib ISimplex dim) simplexId dim (sx_nElements dim n) st /\ verticesInside (lib ISimplex dim) simplexId dim (sx_nVertices dim n) vs /\
    ((dim <= 13)%nat -> goodRule simplexId dim -> goodRule 0 0 -> 0 < tolc -> tolc < 1 / (INR n * INR (dim + 1)) \/ referenceVolume simplexId dim / INR n ^ dim < tolc ->
       elementsChecked (lib ISimplex dim) dim (sx_nElements dim n) st (negb (Rltb (referenceVolume simplexId dim / INR n ^ dim) tolc)) /\
       verticesChecked (lib ISimplex dim) dim (sx_nVertices dim n) vs (negb (Rltb 1 tolc))).
Proof.
  intros Hd Hn HF. assert (VE := selements fuel dim n ltac:(lia) Hn HF). assert (VV := svertices dim n ltac:(lia)). exists (elemAt dim n), (svAt dim n).
  destruct (re_infos_spec simplexId dim) as (r & Er & _); [rewrite bit_pow; apply simplexId_lt|].
  split; [split; [exact VE|exact VV]|]. split; [|split; [|intros H13 HR HR0 Pt Htc; split]].
  - intros k Hk. cbn [rf_eCoords rt_library rt_simplex]. rewrite Er. cbn [obind].
    destruct (stGeo fuel dim n r (elemAt dim n) ltac:(lia) Hn HF VE k Hk) as (p & P & G & E).
    destruct (C52_coords fuel dim n r (elemAt dim n) ltac:(lia) Hn HF VE k _ Hk Er E) as (x & Ex & Vx). exists x. split; [exact Ex|].
    apply (C52_inside fuel dim n r (elemAt dim n) ltac:(lia) Hn HF VE k _ x Hk E). apply simplex_mean_hull; [cbn [ml_corners]; now rewrite map_length, seq_length|exact Vx].
  - intros k Hk. cbn [rf_vCoords rt_library rt_simplex]. destruct (sv_inside dim n k ltac:(lia) Hn Hk) as (x & E & V). exists x. split; [exact E|now apply simplex_hull].
  - intros k Hk. cbn [rf_eGeometry rt_library rt_simplex]. rewrite Er. cbn [obind].
    destruct (stGeo fuel dim n r (elemAt dim n) ltac:(lia) Hn HF VE k Hk) as (p & P & G & E). rewrite E. cbn [obind]. eexists. split; [reflexivity|].
    assert (EQ : Rabs ((/ INR n) ^ dim) * referenceVolume simplexId dim = referenceVolume simplexId dim / INR n ^ dim).
    { assert (0 < INR n) by (apply lt_0_INR; assumption). rewrite Rabs_pos_eq by (apply pow_le, Rlt_le, Rinv_0_lt_compat; assumption). rewrite <- Rinv_pow by lra. unfold Rdiv. ring. }
    rewrite (simplex_check dim n r (Gmap dim p (se_origin (elemAt dim n k)) n) ((/ INR n) ^ dim)); auto.
    + now rewrite EQ.
    + now apply affdet_Gmap.
    + now apply Gmap_injective.
    + intros i _. now apply lat_Gmap.
    + now apply refvol_pos.
    + now rewrite EQ.
  - intros k Hk. cbn [rf_vGeometry rt_library rt_simplex]. unfold sv_geometry. apply vertex_check; assumption.
Qed.
Lemma lib_cube dim n : (0 < dim < 256)%nat -> (0 < n)%nat ->
  exists st vs, iterates (lib IHCube dim) n (hc_nElements dim n) st (hc_nVertices dim n) vs /\
    centresInside (lib IHCube dim) (gt_id (cube dim)) dim (hc_nElements dim n) st /\ verticesInside (lib IHCube dim) (gt_id (cube dim)) dim (hc_nVertices dim n) vs /\
    (goodRule (gt_id (cube dim)) dim -> goodRule 0 0 -> 0 < tolc -> tolc < 1 / (INR n * INR (dim + 1)) \/ referenceVolume (gt_id (cube dim)) dim / INR n ^ dim < tolc ->
       elementsChecked (lib IHCube dim) dim (hc_nElements dim n) st (negb (Rltb (referenceVolume (gt_id (cube dim)) dim / INR n ^ dim) tolc)) /\
       verticesChecked (lib IHCube dim) dim (hc_nVertices dim n) vs (negb (Rltb 1 tolc))).
Proof.
  intros Hd Hn. assert (VE : cubeElements dim n (hAt n)) by apply hAt_visits. assert (VV : cubeVertices dim n (hAt n)) by apply hAt_visits. exists (hAt n), (hAt n).
  assert (Np : 0 < INR n) by (apply lt_0_INR; lia). destruct (C46_tiles dim n (hAt n) Hn VE) as (T1 & _ & T3 & T4).
  split; [split; [exact VE|exact VV]|]. split; [|split; [|intros HR HR0 Pt Htc; split]].
  - intros k Hk. eexists. split; [reflexivity|]. apply cube_hull; [lia|]. apply T1. exists k, (fun _ => / 2). split; [exact Hk|]. split; [intros; lra|]. exact (T4 k Hk).
  - intros k Hk. eexists. split; [reflexivity|]. apply cube_hull; [lia|]. intros i Hi. destruct (proj1 (C46_lattice dim n (hAt n) Hn VV) k Hk) as (a & A & V).
    cbv beta in V. rewrite V by assumption. specialize (A i Hi). apply le_INR in A. pose proof (pos_INR (a i)). split.
    + apply Rmult_le_pos; [assumption|apply Rlt_le, Rinv_0_lt_compat; exact Np].
    + apply (Rmult_le_reg_l (INR n)); [exact Np|]. unfold Rdiv. rewrite Rmult_comm, Rmult_assoc, Rinv_l by lra. lra.
  - intros k Hk. eexists. split; [reflexivity|].
    assert (EX : forall i, ac_upper (he_geometry dim (hAt n k)) i - ac_lower (he_geometry dim (hAt n k)) i = / INR n).
    { intro i. unfold he_geometry, aac_make2, hAt. cbn [ac_upper ac_lower hi_n hi_index]. rewrite plus_INR. cbn [INR]. field. lra. }
    assert (EQ : aac_volume dim dim (he_geometry dim (hAt n k)) = referenceVolume (gt_id (cube dim)) dim / INR n ^ dim).
    { rewrite (T3 k Hk). rewrite cub_refvol by (try apply cube_id; lia). rewrite <- Rinv_pow by lra. unfold Rdiv. ring. }
    rewrite (aac_check dim dim _ (1 / (INR n * INR (dim + 1)))); auto; try lia.
    + now rewrite EQ.
    + apply C29_constructors.
    + intros i _ _. specialize (EX i). assert (0 < / INR n) by (apply Rinv_0_lt_compat; exact Np). lra.
    + apply Rdiv_lt_0_compat; [lra|]. apply Rmult_lt_0_compat; [exact Np|apply lt_0_INR; lia].
    + now rewrite EQ.
    + intros _. exists 0%nat. split; [lia|]. split; [exact (proj2 (Nat.ltb_lt 0 dim) (proj1 Hd))|]. rewrite EX.
      assert (H2 : 2 <= INR (dim + 1)) by (apply (le_INR 2); lia). assert (I2 : / INR (dim + 1) <= / 2) by (apply Rinv_le_contravar; lra).
      unfold Rdiv. rewrite Rinv_mult_distr, Rmult_1_l by lra. apply Rmult_le_compat_l; [apply Rlt_le, Rinv_0_lt_compat; exact Np|exact I2].
  - intros k Hk. cbn [rf_vGeometry rt_library rt_cube]. destruct (hvertex_check dim (hAt n k)) as (g & E & C); [assumption|assumption|]. rewrite E. cbn [obind]. eauto.
Qed.
Lemma lib_triang dim t id n : CoarseShape dim t id -> (0 < n)%nat -> (fact dim <= fuel)%nat -> let rf := rt_triang tol jv jm jk j1 j2 newton lmax fuel dim t in
  exists st vs, iterates rf n (tr_nElements dim t n) st (tr_nVertices dim t n) vs /\
    centresInside rf id dim (tr_nElements dim t n) st /\ verticesInside rf id dim (tr_nVertices dim t n) vs /\
    ((dim <= 13)%nat -> goodRule simplexId dim -> goodRule 0 0 -> 0 < tolc -> tolc < 1 / (INR n * INR (dim + 1)) \/ referenceVolume simplexId dim / INR n ^ dim < tolc ->
       elementsChecked rf dim (tr_nElements dim t n) st (negb (Rltb (referenceVolume simplexId dim / INR n ^ dim) tolc)) /\
       verticesChecked rf dim (tr_nVertices dim t n) vs (negb (Rltb 1 tolc))).
Proof.
  intros Sh Hn HF rf. assert (Hd := shape_dim dim t id Sh). assert (VE := telements fuel dim t n Hd Hn HF). assert (VV := tvertices dim t n Hd Hn). exists (teAt dim n), (tvAt dim n).
  destruct (re_infos_spec simplexId dim) as (r & Er & _); [rewrite bit_pow; apply simplexId_lt|]. assert (Np : 0 < INR n) by (apply lt_0_INR; lia).
  destruct (shape_ok _ _ _ Sh) as (Ti & SO). pose proof SO as [S1 S2 S3 S4 S5 S6 S7 S8].
  assert (HH : forall k x, (k < tr_count t)%nat -> inSimplex dim x -> in_hull dim (referenceCorners id dim) (Hmap dim t k x)).
  { intros k x Hk Hx. apply S8. exists k. split; [exact Hk|]. apply inKuhn_Q. apply (in_kuhn_Hinv dim t Ti S2); [lra|exact Hk|]. apply inSimplex_Q.
    assert (A : agree dim (Hinv dim t Ti k (Hmap dim t k x)) x) by (apply (Hinv_H dim t Ti S2 S7); assumption). destruct Hx as [X1 X2]. split.
    - intros i Hi. rewrite A by assumption. now apply X1.
    - rewrite Ssum_rsum in *. rewrite (rsum_ext dim _ x) by (intros; now apply A). exact X2. }
  split; [split; [exact VE|exact VV]|]. split; [|split; [|intros H13 HR HR0 Pt Htc; split]].
  - intros k Hk. destruct (tr_split fuel dim t n Hn HF k Hk) as [H1 H2]. cbn [rf_eCoords rf rt_triang]. rewrite Er. cbn [obind].
    destruct (elem_spec dim n _ Hd Hn H2) as (p & q & G & P & _).
    destruct (simplex_center_pos dim r Er) as (c & C & M). unfold te_coords, teAt. cbn [te_backend]. unfold se_coords. rewrite C. cbn [obind].
    rewrite (se_global_eq dim _ p c G). cbn [obind]. rewrite (te_global_eq dim t S2) by exact H1. eexists. split; [reflexivity|]. cbn [te_kuhn]. apply HH; [exact H1|].
    assert (E := selements fuel dim n Hd Hn HF).
    destruct (stGeo fuel dim n r (elemAt dim n) Hd Hn HF E _ H2) as (p' & P' & G' & E'). rewrite G in G'. injection G' as <-.
    destruct (C52_coords fuel dim n r (elemAt dim n) Hd Hn HF E _ _ H2 Er E') as (x & Ex & Vx). unfold se_coords in Ex. rewrite C in Ex. cbn [obind] in Ex. rewrite (se_global_eq dim _ p c G) in Ex.
    match type of Ex with Some ?a = Some _ => assert (XE : a = x) by congruence end. apply simplex_hull. rewrite XE. apply (C52_inside fuel dim n r (elemAt dim n) Hd Hn HF E _ _ x H2 E'). apply simplex_mean_hull; [cbn [ml_corners]; now rewrite map_length, seq_length|exact Vx].
  - intros k Hk. assert (PN : (0 < sx_nVertices dim n)%nat) by (apply nvpos; assumption).
    assert (H1 : (k / sx_nVertices dim n < tr_count t)%nat) by (apply Nat.div_lt_upper_bound; [lia|exact Hk]).
    assert (H2 : (k mod sx_nVertices dim n < sx_nVertices dim n)%nat) by (apply Nat.mod_upper_bound; lia).
    cbn [rf_vCoords rf rt_triang]. unfold tv_coords, tvAt. cbn [tv_backend tv_kuhn]. destruct (sv_inside dim n _ Hd Hn H2) as (x & E & X). rewrite E. cbn [obind].
    destruct (permOf_spec dim _ (S2 _ H1)) as [EP _]. rewrite EP. cbn [obind]. eexists. split; [reflexivity|]. exact (HH _ x H1 X).
  - intros k Hk. destruct (tr_split fuel dim t n Hn HF k Hk) as [H1 H2]. cbn [rf_eGeometry rf rt_triang]. rewrite Er. cbn [obind].
    destruct (tstGeo fuel dim t id n r (teAt dim n) Sh Hn HF VE Ti SO k Hk) as (p & P & G & E). rewrite E. cbn [obind]. eexists. split; [reflexivity|].
    assert (EQ : Rabs ((/ INR n) ^ dim * 1) * referenceVolume simplexId dim = referenceVolume simplexId dim / INR n ^ dim).
    { rewrite Rmult_1_r, Rabs_pos_eq by (apply pow_le, Rlt_le, Rinv_0_lt_compat; assumption). rewrite <- Rinv_pow by lra. unfold Rdiv. ring. }
    rewrite (simplex_check dim n r (fun x => Hmap dim t (k / n ^ dim) (Gmap dim p (se_origin (elemAt dim n (k mod n ^ dim))) n x)) ((/ INR n) ^ dim * 1)); auto.
    + now rewrite EQ.
    + lia.
    + now apply (affdet_HG dim t 1 S2 S4).
    + now apply (HG_injective dim t Ti 1 S2 S5 S7).
    + intros i _. apply lat_Hmap; [now apply (lat_shape dim t id)|exact Hn|now apply lat_Gmap].
    + now apply refvol_pos.
    + now rewrite EQ.
  - intros k Hk. assert (PN : (0 < sx_nVertices dim n)%nat) by (apply nvpos; assumption).
    assert (H1 : (k / sx_nVertices dim n < tr_count t)%nat) by (apply Nat.div_lt_upper_bound; [lia|exact Hk]).
    assert (H2 : (k mod sx_nVertices dim n < sx_nVertices dim n)%nat) by (apply Nat.mod_upper_bound; lia).
    cbn [rf_vGeometry rf rt_triang]. unfold tv_geometry, tvAt. cbn [tv_backend tv_kuhn]. destruct (sv_inside dim n _ Hd Hn H2) as (x & E & X). rewrite E. cbn [obind].
    destruct (permOf_spec dim _ (S2 _ H1)) as [EP _]. rewrite EP. cbn [obind]. apply vertex_check; assumption.
Qed.
Lemma lib_all i dim idc ids n : Refines i dim idc ids -> (0 < n)%nat -> (fact dim <= fuel)%nat ->
  exists st vs, iterates (lib i dim) n (elementCount i dim n) st (vertexCount i dim n) vs /\
    centresInside (lib i dim) idc dim (elementCount i dim n) st /\ verticesInside (lib i dim) idc dim (vertexCount i dim n) vs /\
    ((dim <= 13)%nat -> goodRule ids dim -> goodRule 0 0 -> 0 < tolc -> tolc < 1 / (INR n * INR (dim + 1)) \/ referenceVolume ids dim / INR n ^ dim < tolc ->
       elementsChecked (lib i dim) dim (elementCount i dim n) st (negb (Rltb (referenceVolume ids dim / INR n ^ dim) tolc)) /\
       verticesChecked (lib i dim) dim (vertexCount i dim n) vs (negb (Rltb 1 tolc))).
Proof.
  intros HR Hn HF. destruct HR as [dim Hd|dim Hd|dim Hd| |].
  - now apply lib_simplex.
  - destruct (lib_cube dim n ltac:(lia) Hn) as (st & vs & A & B & C & D). exists st, vs. do 3 (split; [assumption|]). intros _. exact D.
  - apply lib_triang; [|assumption|assumption]. apply cs_cube. lia.
  - apply (lib_triang 3 tr_prism); [|assumption|assumption]. constructor.
  - apply (lib_triang 3 tr_pyramid); [|assumption|assumption]. constructor.
Qed.
Lemma counts_pos i dim idc ids n : Refines i dim idc ids -> (0 < n)%nat -> (0 < elementCount i dim n)%nat /\ (0 < vertexCount i dim n)%nat.
Proof.
  intros HR Hn. assert (P : forall d, (0 < n ^ d)%nat) by (intro d; apply npos; assumption).
  assert (Q : forall d, (0 < d)%nat -> (0 < sx_nVertices d n)%nat) by (intros d Hd; apply nvpos; assumption).
  destruct HR as [dim Hd|dim Hd|dim Hd| |]; cbn [elementCount vertexCount]; unfold tr_nElements, tr_nVertices, sx_nElements, hc_nElements, hc_nVertices; cbn [tr_cube tr_prism tr_pyramid tr_count].
  - split; [apply P|apply Q; lia].
  - split; [apply P|]. apply npos. lia.
  - pose proof (lt_O_fact dim). pose proof (P dim). pose proof (Q dim ltac:(lia)). split; nia.
  - pose proof (P 3%nat). pose proof (Q 3%nat ltac:(lia)). split; nia.
  - pose proof (P 3%nat). pose proof (Q 3%nat ltac:(lia)). split; nia.
Qed.
Lemma refvol_le i dim idc ids n : Refines i dim idc ids -> (dim <= 13)%nat -> (0 < n)%nat -> referenceVolume ids dim / INR n ^ dim <= 1.
Proof.
  intros HR H13 Hn. assert (N1 : 1 <= INR n ^ dim) by (apply pow_R1_Rle; apply (le_INR 1); lia).
  assert (V : referenceVolume ids dim <= 1).
  { assert (S : forall d, (d <= 13)%nat -> referenceVolume simplexId d <= 1).
    { intros d Hd. rewrite C21_volume_small_dimension by assumption. rewrite C21_volume_simplex; [|apply simplexId_lt|reflexivity].
      rewrite <- Rinv_1. apply Rinv_le_contravar; [lra|]. apply (le_INR 1). apply lt_O_fact. }
    destruct HR as [dim Hd|dim Hd|dim Hd| |]; try (apply S; lia). apply Req_le, cub_refvol; [lia|]. apply cube_id. lia. }
  apply (Rmult_le_reg_r (INR n ^ dim)); [lra|]. unfold Rdiv. rewrite Rmult_assoc, Rinv_l by lra. lra.
Qed.
End Geometries.
