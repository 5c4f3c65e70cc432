(** Property C92: what test-localfiniteelementgeometry.cc checks, that the classes of the library pass it, why the calls that
    are commented out cannot, and what it lets through. *)
From Coq Require Import PeanoNat NArith ZArith Bool List Reals Lia Lra FunctionalExtensionality.
From Verif Require Import M_Type M_RefTopo M_RefGeo M_Matrix M_Affine M_MultiLinear M_GaussNewton M_LocalFE M_CheckGeo M_AffineTest M_MLTest M_LFETest
  S_Topo S_RefGeo S_Matrix S_MultiLinear S_GaussNewton S_Agree S_CheckGeo P_Type P_Topo P_RefTopo P_RefTopo2 P_RefTopo3 P_RSum P_RefGeo P_RefGeo2 P_RefGeo3 P_RefGeo4
  P_Matrix P_Matrix2 P_Matrix3 P_Matrix4 P_Matrix5 P_Det P_MxBridge P_Affine
  P_ML1 P_ML2 P_ML3 P_ML4 P_ML5 P_GaussNewton P_Agree P_LocalFE T_RefGeo T_Matrix T_Affine T_MultiLinear T_GaussNewton T_LocalFE P_Agree2 T_Agree P_CheckGeo T_CheckGeo P_AffineTest
  P_MLTest P_LFETest.
Import ListNotations.
Local Open Scope R_scope.

(** the map of the test has full rank in all dimensions but one *)
Theorem C92_map_rank :
  forall mydim cdim, (mydim <= cdim)%nat ->
    (row_independent mydim cdim (fun i j => IZR (3 - Z.abs (Z.of_nat j - Z.of_nat i))) <-> ~ (mydim = 7 /\ cdim = 7)%nat).
Proof.
  intros m c H. change (row_independent m c (mtr lt_A) <-> ~ (m = 7 /\ c = 7)%nat). split; [|now apply lt_independent].
  intros HR [-> ->]. specialize (HR (fun i => if Nat.eqb i 0 || Nat.eqb i 6 then 1 else 0)). cbn beta in HR. enough (E : 1 = 0) by lra.
  refine (HR _ 0%nat ltac:(lia)). intros j Hj. destruct (lt_seven j Hj) as [E _]. unfold mvec, mtr. cbn [rsum Nat.eqb orb]. transitivity (lt_A j 0%nat + lt_A j 6%nat); [ring|exact E].
Qed.
Print Assumptions C92_map_rank.

(** a call succeeds if and only if both geometries pass checkGeometry and the first one agrees with the two others *)
Theorem C92_check :
  forall mydim cdim mk tolc ctol rules junk det id,
    lt_check mydim cdim mk tolc ctol rules junk det id = Some true <->
    let f := lt_f mydim cdim in let cs := map f (referenceCorners id mydim) in
    exists r fe g g2 m, re_infos id mydim = Some r /\ lt_fe id mydim = Some fe /\
      lm_coefficients mk id r fe cs = Some g /\ lm_function mk id r fe (lt_interpolate id mydim) f = Some g2 /\ lm_mapped mk id r fe cs = Some m /\
      checkGeometry mydim cdim tolc junk (fst g) (snd g) (det mydim) (rules id mydim 2%Z) = Some true /\
      checkGeometry mydim cdim tolc junk (fst g2) (snd g2) (det mydim) (rules id mydim 2%Z) = Some true /\
      compareGeometries mydim cdim ctol (rules id mydim 4%Z) (fst g) (lm_multilinear mk id r cs) = Some true /\
      compareGeometries mydim cdim ctol (rules id mydim 4%Z) (fst g) m = Some true.
Proof.
  intros mydim cdim mk tolc ctol rules junk det id. cbv zeta. set (f := lt_f mydim cdim). set (cs := map f (referenceCorners id mydim)). unfold lt_check. split.
  - destruct (re_infos id mydim) as [r|]; cbn [obind]; [|discriminate]. destruct (lt_fe id mydim) as [fe|]; cbn [obind]; [|discriminate].
    rewrite lt_corners_value by (rewrite C16_corner_count; lia). cbn [obind skipn]. fold f. fold cs.
    destruct (lm_coefficients mk id r fe cs) as [g|] eqn:E1; cbn [obind]; [|discriminate]. unfold lt_checkGeometry, lt_compare.
    destruct (checkGeometry _ _ _ _ (fst g) _ _ _) as [p1|] eqn:C1; cbn [obind]; [|discriminate].
    fold f. destruct (lm_function mk id r fe (lt_interpolate id mydim) f) as [g2|] eqn:E2; cbn [obind]; [|discriminate].
    destruct (checkGeometry _ _ _ _ (fst g2) _ _ _) as [p2|] eqn:C2; cbn [obind]; [|discriminate].
    destruct (compareGeometries _ _ _ _ _ (lm_multilinear mk id r cs)) as [p3|] eqn:C3; cbn [obind]; [|discriminate].
    destruct (lm_mapped mk id r fe cs) as [m|] eqn:E3; cbn [obind]; [|discriminate].
    destruct (compareGeometries _ _ _ _ _ m) as [p4|] eqn:C4; cbn [obind]; [|discriminate].
    intro H. assert (P : p1 && p2 && p3 && p4 = true) by congruence. rewrite !andb_true_iff in P. destruct P as [[[-> ->] ->] ->].
    exists r, fe, g, g2, m. repeat (split; [first [reflexivity|assumption]|]). assumption.
  - intros (r & fe & g & g2 & m & Er & Ef & E1 & E2 & E3 & C1 & C2 & C3 & C4). rewrite Er, Ef. cbn [obind].
    rewrite lt_corners_value by (rewrite C16_corner_count; lia). cbn [obind skipn]. fold f. fold cs. rewrite E1. cbn [obind]. unfold lt_checkGeometry, lt_compare.
    rewrite C1. cbn [obind]. rewrite E2. cbn [obind]. rewrite C2. cbn [obind]. rewrite C3. cbn [obind]. rewrite E3. cbn [obind]. rewrite C4. reflexivity.
Qed.
Print Assumptions C92_check.

(** ** the classes of the library *)
(** what the classes need: usable tolerances and options *)
Definition lj_ok (jd : LTJunk) : Prop := 0 < lj_tol jd < 1 / 2 /\ 0 <= lj_tolf jd /\ gn_usable (lj_gn jd).
(** what a call needs of the quadrature rules: that of order 2 does not contain the centre *)
Definition rules_ok (tol : R) (rules : N -> nat -> Z -> option Rule) (id : N) (dim : nat) : Prop :=
  first_rule id dim (rules id dim) /\
  (exists q, rules id dim 2%Z = Some q /\ forall x w, In (x, w) q -> usable tol id dim x /\ ~ veq dim x (meanT (topo_of id dim))) /\
  (exists q, rules id dim 4%Z = Some q /\ forall x w, In (x, w) q -> usable tol id dim x).

Lemma fe_lagrange id dim fe : lt_fe id dim = Some fe -> lagrange id dim fe.
Proof.
  unfold lt_fe. destruct (isSimplex (GT2 id dim)) eqn:E1; [intro H; injection H as <-; now left|].
  destruct (isCube (GT2 id dim)) eqn:E2; [|discriminate]. intro H. injection H as <-. now right.
Qed.
Lemma fe_exists id dim : isSimplex (GT2 id dim) = true \/ isCube (GT2 id dim) = true -> exists fe, lt_fe id dim = Some fe.
Proof. unfold lt_fe. intros [->| ->]; [eauto|]. destruct (isSimplex _); eauto. Qed.

Lemma reg_exists mydim id r ret j1 j2 : exists base, reg_make mydim id r ret j1 j2 = Some base.
Proof.
  unfold reg_make. rewrite geometry_0. cbn [obind fst snd].
  assert (HR : row_independent mydim mydim (midentity mydim)).
  { intros w Hw i Hi. specialize (Hw i Hi). unfold mvec, mtr, midentity in Hw. rewrite (rsum_ext mydim _ (fun j => if Nat.eqb j i then w j else 0)) in Hw.
    - now rewrite (rsum_delta mydim i w Hi) in Hw.
    - intros j Hj. rewrite (proj2 (Nat.ltb_lt j mydim)) by assumption. rewrite andb_true_r. destruct (Nat.eqb j i); ring. }
  destruct (affine_from_jacobian_ok mydim mydim id r vzero (midentity mydim) ret j1 j2 (le_n _) HR) as (a & Ea & _). now exists a.
Qed.

(** an affine map with the matrix of the test *)
Definition lt_like (mydim cdim : nat) (o : Vec) (f : Vec -> Vec) : Prop :=
  (forall x k, (k < cdim)%nat -> f x k = o k + rsum mydim (fun j => mtr lt_A j k * x j)) /\ (forall x y, veq mydim x y -> f x = f y).
Lemma lt_f_like mydim cdim : lt_like mydim cdim lt_b (lt_f mydim cdim).
Proof.
  split; [intros; now apply (lt_f_aff mydim cdim)|]. intros x y H. apply functional_extensionality. intro k. unfold lt_f, mv. f_equal. apply rsum_ext. intros j Hj. now rewrite H.
Qed.
Section Call.
Variables (mydim cdim : nat) (id : N) (r : RefElement) (fe : LFE) (o : Vec) (f : Vec -> Vec).
Hypothesis Hm : (mydim <= cdim)%nat.
Hypothesis Hd : (mydim < 256)%nat.
Hypothesis Hid : (id < 2 ^ N.of_nat mydim)%N.
Hypothesis Hr : re_infos id mydim = Some r.
Hypothesis HF : lt_fe id mydim = Some fe.
Hypothesis HL : lt_like mydim cdim o f.
Let cs := map f (referenceCorners id mydim).
Let g0 := {| ml_id := id; ml_ref := r; ml_corners := cs |}.

Lemma call_interpolate : lt_interpolate id mydim f = cs.
Proof.
  destruct (C80_interpolate Vec id mydim f Hid Hd (proj2 HL)) as [I1 I2]. unfold lt_interpolate. unfold lt_fe in HF.
  destruct (isSimplex (GT2 id mydim)); [now apply I1|]. destruct (isCube (GT2 id mydim)); [now apply I2|discriminate].
Qed.
Lemma call_wf : ml_wf mydim g0.
Proof. split; [cbn [g0 ml_id]; now rewrite bit_pow|]. split; [exact Hr|]. unfold g0, cs. cbn [ml_id ml_corners]. rewrite map_length. apply C16_corner_count. Qed.
Lemma call_affine : corners_affine mydim cdim g0 o (mtr lt_A).
Proof.
  intros i c p Ec Ep k Hk. unfold g0, cs in Ec, Ep. cbn [ml_id ml_corners] in Ec, Ep. rewrite (map_nth_error f i _ Ep) in Ec. injection Ec as <-. now apply (proj1 HL).
Qed.
Definition call_lfe : LFEGeo := {| lf_id := id; lf_ref := r; lf_fe := fe; lf_vertices := cs |}.
Lemma call_all : (forall x, exists u, lf_global cdim call_lfe x = Some u /\ veq cdim u (aff mydim o (mtr lt_A) x)) /\
  (forall x, exists J, lf_jacobian mydim cdim call_lfe x = Some J /\ meq cdim mydim J lt_A).
Proof.
  destruct (lf_affine_all mydim cdim id o (mtr lt_A) Hm Hd ltac:(now rewrite bit_pow) call_lfe g0 eq_refl (fe_lagrange _ _ _ HF) call_wf eq_refl call_affine eq_refl) as [GL JL].
  split; [exact GL|]. intro x. destruct (JL x) as (J & E & V). exists J. split; [exact E|]. exact V.
Qed.
Lemma call_size : Nat.eqb (length (fe_values fe vzero)) (length cs) = true.
Proof.
  destruct (proj1 call_all vzero) as (u & E & _). unfold lf_global in E. cbn [call_lfe lf_fe lf_vertices] in E. destruct (Nat.eqb _ _); [reflexivity|discriminate].
Qed.
Lemma call_instance rules jd : lj_ok jd -> first_rule id mydim (rules id mydim) ->
  checked_instance mydim cdim (lj_tol jd) id r o (mtr lt_A) true
    (fst (lt_lfe mydim cdim rules (lj_tolf jd) (lj_junk jd) (lj_ret jd) (lj_j1 jd) (lj_j2 jd) (lj_opts jd) (lj_gn jd) call_lfe))
    (snd (lt_lfe mydim cdim rules (lj_tolf jd) (lj_junk jd) (lj_ret jd) (lj_j1 jd) (lj_j2 jd) (lj_opts jd) (lj_gn jd) call_lfe)).
Proof.
  intros (J1 & J2 & J3) FR. unfold lt_lfe. cbn [fst snd]. apply (CI_lfe mydim cdim (lj_tol jd) id r o (mtr lt_A)) with (g := g0); try reflexivity; try assumption.
  - now apply fe_lagrange.
  - apply call_wf.
  - apply call_affine.
Qed.
Lemma call_ml rules jd : affine_instance mydim cdim (lj_tol jd) id r o (mtr lt_A) (lm_multilinear (lt_library rules jd mydim cdim) id r cs).
Proof. cbn [lt_library lm_multilinear]. unfold lt_multilinear. fold g0. apply AI_multilinear; [apply call_wf|reflexivity|apply call_affine]. Qed.
Lemma call_mapped rules jd : row_independent mydim cdim (mtr lt_A) -> first_rule id mydim (rules id mydim) ->
  exists m, lm_mapped (lt_library rules jd mydim cdim) id r fe cs = Some m /\ affine_instance mydim cdim (lj_tol jd) id r o (mtr lt_A) m.
Proof.
  intros HR FR. cbn [lt_library lm_mapped]. unfold lt_mapped. set (h := {| lff_fe := fe; lff_coefficients := cs |}). destruct call_all as [GL JL].
  assert (EL : forall x, lff_eval cdim h x = lf_global cdim call_lfe x) by reflexivity.
  assert (DL : forall x, lff_derivative mydim cdim h x = lf_jacobian mydim cdim call_lfe x) by reflexivity.
  destruct (GL vzero) as (u & E1 & _). rewrite EL, E1. cbn [obind]. destruct (JL vzero) as (J & E2 & _). rewrite DL, E2. cbn [obind].
  assert (BS : exists base, reg_make mydim id r (lj_ret' jd) (lj_j1' jd) (lj_j2' jd) = Some base) by (apply reg_exists; assumption).
  destruct BS as [base EB]. rewrite EB. cbn [obind]. eexists. split; [reflexivity|].
  eapply AI_mapped; [exact EB|reflexivity|reflexivity| | |exact FR].
  - intros x k Hk. cbn [mg_map]. rewrite EL. destruct (GL x) as (v & E & V). rewrite E. now apply V.
  - intros x i j Hi Hj. cbn [mg_dmap]. rewrite DL. destruct (JL x) as (K & E & V). rewrite E. now apply V.
Qed.
End Call.

(** a call with the classes of the library: in exact arithmetic only the size of the element matters.  [f'] is what the second constructor
    interpolates *)
Lemma call_true mydim cdim tolc ctol rules junk jd id r c mk o f' : (mydim <= cdim)%nat -> (mydim < 256)%nat -> (id < 2 ^ N.of_nat mydim)%N ->
  isSimplex (GT2 id mydim) = true \/ isCube (GT2 id mydim) = true -> ~ (mydim = 7 /\ cdim = 7)%nat ->
  lj_ok jd -> rules_ok (lj_tol jd) rules id mydim -> 0 < tolc -> 0 <= ctol -> re_infos id mydim = Some r -> re_position id mydim r 0 0 = Some c ->
  lt_like mydim cdim o f' ->
  lm_coefficients mk = lm_coefficients (lt_library rules jd mydim cdim) -> lm_multilinear mk = lm_multilinear (lt_library rules jd mydim cdim) ->
  lm_mapped mk = lm_mapped (lt_library rules jd mydim cdim) ->
  (forall fe, lm_function mk id r fe (lt_interpolate id mydim) (lt_f mydim cdim) = lm_function (lt_library rules jd mydim cdim) id r fe (lt_interpolate id mydim) f') ->
  lt_check mydim cdim mk tolc ctol rules junk detR id = Some true <->
    tolc <= sqrt (detR mydim (mmul cdim (mtr lt_A) (mtr (mtr lt_A)))) * referenceVolume id mydim /\
    ((0 < mydim)%nat -> forall p, In p (referenceCorners id mydim) -> tolc < two_norm cdim (mvec mydim lt_A (fun j => p j - c j))).
Proof.
  intros Hm Hd Hid HT H7 HJ HQ Htc Hct Hr Hc Hf' M1 M2 M3 M4. assert (HR := lt_independent mydim cdim Hm H7). assert (Hid' := Hid). rewrite <- bit_pow in Hid'.
  destruct (fe_exists id mydim HT) as [fe HF]. destruct HJ as (J1 & J2 & J3). assert (HJ : lj_ok jd) by (repeat split; try assumption; lra || apply J3). destruct HQ as (FR & (q2 & Q2 & U2) & (q4 & Q4 & U4)).
  destruct (center_pos mydim id r Hid' Hr) as (c' & Ec & Vc). rewrite Hc in Ec. injection Ec as <-.
  destruct (pinv_exists mydim cdim (mtr lt_A) Hm HR) as (X & d & HP).
  assert (LF := lt_f_like mydim cdim).
  set (cs := map (lt_f mydim cdim) (referenceCorners id mydim)).
  assert (K : forall o f, lt_like mydim cdim o f ->
     let g := lt_lfe mydim cdim rules (lj_tolf jd) (lj_junk jd) (lj_ret jd) (lj_j1 jd) (lj_j2 jd) (lj_opts jd) (lj_gn jd) (call_lfe mydim id r fe f) in
     checkGeometry mydim cdim tolc junk (fst g) (snd g) (detR mydim) (rules id mydim 2%Z) = Some true <->
      tolc <= sqrt (detR mydim (mmul cdim (mtr lt_A) (mtr (mtr lt_A)))) * referenceVolume id mydim /\
      ((0 < mydim)%nat -> forall p, In p (referenceCorners id mydim) -> tolc < two_norm cdim (mvec mydim lt_A (fun j => p j - c j)))).
  { intros o0 f L g. assert (CI := call_instance mydim cdim id r fe o0 f Hid Hr HF L rules jd HJ FR). fold g in CI.
    destruct (instance_local mydim cdim (lj_tol jd) id r o0 (mtr lt_A) true (fst g) (snd g) Hm Hd J1 Hid' Hr HR CI) as (HA & _).
    destruct (instance_like mydim cdim (lj_tol jd) id r o0 (mtr lt_A) X d Hm Hd J1 Hid' Hr HR HP (fst g) HA) as (_ & _ & _ & _ & _ & A6 & _).
    rewrite Q2, (C82_affine_classes mydim cdim (lj_tol jd) tolc junk id r o0 (mtr lt_A) true (fst g) (snd g) c q2 (d * referenceVolume id mydim) Hm Hd J1 Hid Hr HR CI Htc Hc A6).
    2:{ intros x w I. destruct (U2 x w I) as [U V]. split; [exact U|]. intros _ E. apply V. intros k Hk. rewrite E by assumption. now apply Vc. }
    assert (ED : sqrt (detR mydim (mmul cdim (mtr lt_A) (mtr (mtr lt_A)))) = d). { destruct HP as (D1 & D2 & _). rewrite <- D2, sqrt_square; [reflexivity|lra]. }
    rewrite ED. split; intros [A B]; (split; [exact A|]).
    - intros Hp p I. apply In_nth_error in I. destruct I as [i Ei]. exact (B Hp i p Ei).
    - intros Hp i p Ei. apply (B Hp). now apply (nth_error_In _ i). }
  assert (CI := call_instance mydim cdim id r fe lt_b (lt_f mydim cdim) Hid Hr HF LF rules jd HJ FR).
  destruct (instance_local mydim cdim (lj_tol jd) id r lt_b (mtr lt_A) true _ _ Hm Hd J1 Hid' Hr HR CI) as (HA & _).
  destruct (call_mapped mydim cdim id r fe lt_b (lt_f mydim cdim) Hm Hd Hid Hr HF LF rules jd HR FR) as (m & Em & Am).
  assert (Aml := call_ml mydim cdim id r lt_b (lt_f mydim cdim) Hid Hr LF rules jd).
  set (g := lt_lfe mydim cdim rules (lj_tolf jd) (lj_junk jd) (lj_ret jd) (lj_j1 jd) (lj_j2 jd) (lj_opts jd) (lj_gn jd) (call_lfe mydim id r fe (lt_f mydim cdim))) in *.
  assert (EG : lm_coefficients mk id r fe cs = Some g).
  { rewrite M1. cbn [lt_library lm_coefficients]. unfold lt_coefficients. unfold cs. now rewrite (call_size mydim cdim id r fe lt_b (lt_f mydim cdim) Hm Hd Hid Hr HF LF). }
  assert (EF : lm_function mk id r fe (lt_interpolate id mydim) (lt_f mydim cdim) =
     Some (lt_lfe mydim cdim rules (lj_tolf jd) (lj_junk jd) (lj_ret jd) (lj_j1 jd) (lj_j2 jd) (lj_opts jd) (lj_gn jd) (call_lfe mydim id r fe f'))).
  { rewrite M4. cbn [lt_library lm_function]. unfold lt_function, lf_from_function. now rewrite (call_interpolate mydim cdim id fe o f' Hd Hid HF Hf'). }
  rewrite C92_check. cbv zeta. fold cs. split.
  - intros (r' & fe' & g1 & g2 & m' & Er & Ef & E1 & E2 & E3 & C1 & _). assert (r' = r) by congruence. assert (fe' = fe) by congruence. subst r' fe'.
    rewrite EG in E1. assert (g1 = g) by congruence. subst g1. now apply (K lt_b (lt_f mydim cdim) LF).
  - intro HS. exists r, fe, g, (lt_lfe mydim cdim rules (lj_tolf jd) (lj_junk jd) (lj_ret jd) (lj_j1 jd) (lj_j2 jd) (lj_opts jd) (lj_gn jd) (call_lfe mydim id r fe f')), m.
    split; [exact Hr|]. split; [exact HF|]. split; [exact EG|]. split; [exact EF|]. split; [now rewrite M3|]. split; [now apply (K lt_b (lt_f mydim cdim) LF)|]. split; [now apply (K o f' Hf')|].
    rewrite Q4, M2. split.
    + apply (C81_affine_classes mydim cdim (lj_tol jd) id r lt_b (mtr lt_A) (fst g) _ Hm Hd J1 Hid Hr HR HA Aml); assumption.
    + apply (C81_affine_classes mydim cdim (lj_tol jd) id r lt_b (mtr lt_A) (fst g) m Hm Hd J1 Hid Hr HR HA Am); assumption.
Qed.

Theorem C92_library :
  forall mydim cdim tolc ctol rules junk jd id r c, (mydim <= cdim)%nat -> (mydim < 256)%nat -> (id < 2 ^ N.of_nat mydim)%N ->
    isSimplex (GT2 id mydim) = true \/ isCube (GT2 id mydim) = true -> ~ (mydim = 7 /\ cdim = 7)%nat ->
    lj_ok jd -> rules_ok (lj_tol jd) rules id mydim -> 0 < tolc -> 0 <= ctol -> re_infos id mydim = Some r -> re_position id mydim r 0 0 = Some c ->
    let A := (fun i j => IZR (3 - Z.abs (Z.of_nat i - Z.of_nat j))) : Mat in
    (lt_check mydim cdim (lt_library rules jd mydim cdim) tolc ctol rules junk detR id = Some true <->
      tolc <= sqrt (detR mydim (mmul cdim (mtr A) A)) * referenceVolume id mydim /\
      ((0 < mydim)%nat -> forall p, In p (referenceCorners id mydim) -> tolc < two_norm cdim (mvec mydim A (fun j => p j - c j)))).
Proof.
  intros mydim cdim tolc ctol rules junk jd id r c Hm Hd Hid HT H7 HJ HQ Htc Hct Hr Hc A.
  exact (call_true mydim cdim tolc ctol rules junk jd id r c (lt_library rules jd mydim cdim) lt_b (lt_f mydim cdim) Hm Hd Hid HT H7 HJ HQ Htc Hct Hr Hc (lt_f_like mydim cdim) eq_refl eq_refl eq_refl (fun _ => eq_refl)).
Qed.
Print Assumptions C92_library.

(** ** the calls *)
Lemma lt_calls_ok gt m n : In (gt, m, n) lt_calls -> (m <= n)%nat /\ (0 < m <= 4)%nat /\ (gt_id gt < 2 ^ N.of_nat m)%N /\ (1 <= size (gt_id gt) m m <= 16)%nat /\ (0 < referenceVolumeInverse (gt_id gt) m <= 24)%N /\
  (isSimplex (GT2 (gt_id gt) m) = true \/ isCube (GT2 (gt_id gt) m) = true) /\ (1 <= zdet m (fun i j => zsum n (fun k => (lt_Z k i * lt_Z k j)%Z)))%Z.
Proof.
  intro H. assert (G : forallb (fun '(gt, m, n) => (Nat.leb m n && Nat.ltb 0 m && Nat.leb m 4 && N.ltb (gt_id gt) (2 ^ N.of_nat m) && Nat.leb (size (gt_id gt) m m) 16 && Nat.leb 1 (size (gt_id gt) m m) &&
      N.ltb 0 (referenceVolumeInverse (gt_id gt) m) && N.leb (referenceVolumeInverse (gt_id gt) m) 24 && (isSimplex (GT2 (gt_id gt) m) || isCube (GT2 (gt_id gt) m)) &&
      Z.leb 1 (zdet m (fun i j => zsum n (fun k => (lt_Z k i * lt_Z k j)%Z))))%bool) lt_calls = true) by (vm_compute; reflexivity).
  rewrite forallb_forall in G. specialize (G _ H). cbn beta iota in G. rewrite !andb_true_iff, orb_true_iff in G.
  rewrite !Nat.leb_le, !Nat.ltb_lt, !N.ltb_lt, !N.leb_le, Z.leb_le in G. tauto.
Qed.
Lemma lt_calls_true gt m n tolc r c : In (gt, m, n) lt_calls -> re_infos (gt_id gt) m = Some r -> re_position (gt_id gt) m r 0 0 = Some c -> 0 < tolc < 1 / 32 ->
  tolc <= sqrt (detR m (mmul n (mtr lt_A) (mtr (mtr lt_A)))) * referenceVolume (gt_id gt) m /\
  ((0 < m)%nat -> forall p, In p (referenceCorners (gt_id gt) m) -> tolc < two_norm n (mvec m lt_A (fun j => p j - c j))).
Proof.
  intros H Hr Hc Ht. destruct (lt_calls_ok gt m n H) as (C1 & C2 & C3 & C4 & C5 & C6 & C7). split.
  - rewrite lt_gram. apply IZR_le in C7. set (D := IZR (zdet _ _)) in *. assert (1 <= sqrt D) by (rewrite <- sqrt_1; apply sqrt_le_1_alt; exact C7).
    assert (1 / 24 <= referenceVolume (gt_id gt) m).
    { unfold referenceVolume. unfold Rdiv. rewrite !Rmult_1_l. destruct C5 as [P1 P2]. apply Rinv_le_contravar; [apply IZR_lt; lia|apply IZR_le; lia]. }
    nra.
  - intros _ p Hp. apply In_nth_error in Hp. destruct Hp as [i Ei]. destruct m as [|d]; [lia|].
    destruct (center_pos (S d) (gt_id gt) r ltac:(now rewrite bit_pow) Hr) as (c' & Ec & Vc). rewrite Hc in Ec. injection Ec as <-.
    pose proof (far_coord (gt_id gt) d i p Ei) as F. set (v := (fun j => p j - c j) : Vec).
    assert (L := lt_last (S d) v (two_norm n (mvec (S d) lt_A v)) C2 ltac:(intros k Hk; apply two_norm_coord; lia)).
    replace (S d - 1)%nat with d in L by lia. unfold v in L at 1. rewrite Vc in L by lia.
    assert (B : 1 / 16 <= 1 / INR (size (gt_id gt) (S d) (S d))).
    { destruct C4 as [P1 P2]. apply le_INR in P1. apply le_INR in P2. cbn [INR] in P1, P2. unfold Rdiv. rewrite !Rmult_1_l. apply Rinv_le_contravar; lra. }
    lra.
Qed.
Lemma lt_all_true rules junk det mk tolc ctol : forall calls pass, lt_all rules junk det mk tolc ctol calls pass = Some true <->
  pass = true /\ forall gt m n, In (gt, m, n) calls -> lt_check m n (mk m n) tolc ctol rules junk det (gt_id gt) = Some true.
Proof.
  induction calls as [|[[gt m] n] calls IH]; intro pass; cbn [lt_all].
  - split; [intro H; split; [congruence|intros gt m n []]|intros [-> _]; reflexivity].
  - rewrite obind_true. split.
    + intros (p & E & H). apply IH in H. destruct H as [H1 H2]. apply andb_true_iff in H1. destruct H1 as [-> ->]. split; [reflexivity|]. intros gt' m' n' [Q|Q]; [injection Q as <- <- <-; exact E|auto].
    + intros [-> H]. exists true. split; [apply H; now left|]. apply IH. split; [reflexivity|]. intros gt' m' n' Q. apply H. now right.
Qed.
(** the exit code is 0 if and only if every call succeeds, for both scalar types *)
Theorem C92_verdict :
  forall rules junk det mk told ctold tolf ctolf calls,
    lt_main rules junk det mk told ctold tolf ctolf calls = Some true <->
    forall gt m n, In (gt, m, n) calls -> lt_check m n (mk m n) told ctold rules junk det (gt_id gt) = Some true /\ lt_check m n (mk m n) tolf ctolf rules junk det (gt_id gt) = Some true.
Proof.
  intros. unfold lt_main. rewrite obind_true. split.
  - intros (p & E & H). rewrite obind_true in H. destruct H as (p' & E' & H). assert (P : p && p' = true) by congruence. apply andb_true_iff in P. destruct P as [-> ->].
    apply lt_all_true in E. apply lt_all_true in E'. intros gt m n I. split; [exact (proj2 E gt m n I)|exact (proj2 E' gt m n I)].
  - intro H. exists true. split; [apply lt_all_true; split; [reflexivity|]; intros gt m n I; exact (proj1 (H gt m n I))|]. rewrite obind_true. exists true.
    split; [apply lt_all_true; split; [reflexivity|]; intros gt m n I; exact (proj2 (H gt m n I))|reflexivity].
Qed.
Print Assumptions C92_verdict.

Definition good_rules (tol : R) (rules : N -> nat -> Z -> option Rule) : Prop := forall gt m n, In (gt, m, n) lt_calls -> rules_ok tol rules (gt_id gt) m.
(** the program with another second constructor: it interpolates another function with the same derivative *)
Lemma calls_pass rules junk jd mk tolc ctol gt m n o f' : In (gt, m, n) lt_calls -> lj_ok jd -> good_rules (lj_tol jd) rules -> 0 < tolc < 1 / 32 -> 0 <= ctol ->
  lt_like m n o f' ->
  lm_coefficients mk = lm_coefficients (lt_library rules jd m n) -> lm_multilinear mk = lm_multilinear (lt_library rules jd m n) ->
  lm_mapped mk = lm_mapped (lt_library rules jd m n) ->
  (forall r fe, lm_function mk (gt_id gt) r fe (lt_interpolate (gt_id gt) m) (lt_f m n) = lm_function (lt_library rules jd m n) (gt_id gt) r fe (lt_interpolate (gt_id gt) m) f') ->
  lt_check m n mk tolc ctol rules junk detR (gt_id gt) = Some true.
Proof.
  intros H HJ HQ Ht Hc L M1 M2 M3 M4. destruct (lt_calls_ok gt m n H) as (C1 & C2 & C3 & C4 & C5 & C6 & C7).
  destruct (re_infos_spec (gt_id gt) m ltac:(now rewrite bit_pow)) as (r & Er & _). destruct (center_pos m (gt_id gt) r ltac:(now rewrite bit_pow) Er) as (c & Ec & _).
  apply (call_true m n tolc ctol rules junk jd (gt_id gt) r c mk o f'); auto; [lia|lia|exact (HQ gt m n H)|lra|]. apply (lt_calls_true gt m n tolc r c); assumption.
Qed.
(** in exact arithmetic the program succeeds *)
Theorem C92_main :
  forall rules junk jd told ctold tolf ctolf, lj_ok jd -> good_rules (lj_tol jd) rules ->
    0 < told < 1 / 32 -> 0 < tolf < 1 / 32 -> 0 <= ctold -> 0 <= ctolf ->
    lt_main rules junk detR (lt_library rules jd) told ctold tolf ctolf lt_calls = Some true.
Proof.
  intros. apply C92_verdict. intros gt m n I. split; (eapply calls_pass; [exact I|eassumption|eassumption|assumption|assumption|apply lt_f_like|reflexivity|reflexivity|reflexivity|reflexivity]).
Qed.
Print Assumptions C92_main.

(** The geometry that interpolates is compared with nothing: a constructor that moves the whole element passes. *)
Definition shifted (s : Vec) (mk : LTMakers) : LTMakers := {|
  lm_coefficients := lm_coefficients mk;
  lm_function := fun id r fe interpolate f => lm_function mk id r fe interpolate (fun x k => f x k + s k);
  lm_multilinear := lm_multilinear mk; lm_mapped := lm_mapped mk |}.
Theorem C92_interpolation_refuted :
  forall rules junk jd told ctold tolf ctolf s, lj_ok jd -> good_rules (lj_tol jd) rules ->
    0 < told < 1 / 32 -> 0 < tolf < 1 / 32 -> 0 <= ctold -> 0 <= ctolf ->
    let wrong := fun m n => shifted s (lt_library rules jd m n) in
    lt_main rules junk detR wrong told ctold tolf ctolf lt_calls = Some true /\
    forall r g x y k, re_infos 0 1 = Some r -> lm_function (wrong 1%nat 1%nat) 0%N r (P1 1) (p1_interpolate 1) (lt_f 1 1) = Some g -> gi_global (fst g) x = Some y -> (k < 1)%nat -> y k = lt_f 1 1 x k + s k.
Proof.
  intros rules junk jd told ctold tolf ctolf s HJ HQ Ht1 Ht2 Hc1 Hc2 wrong.
  assert (SL : forall m n, lt_like m n (fun k => lt_b k + s k) (fun x k => lt_f m n x k + s k)).
  { intros m n. destruct (lt_f_like m n) as [L1 L2]. split; [intros x k Hk; rewrite (L1 x k Hk); ring|]. intros x y E. now rewrite (L2 x y E). }
  split.
  - apply C92_verdict. intros gt m n I. split; (eapply calls_pass; [exact I|eassumption|eassumption|assumption|assumption|apply (SL m n)|reflexivity|reflexivity|reflexivity|reflexivity]).
  - intros r g x y k Er Eg Ey Hk. cbn in Eg. unfold lt_function, lf_from_function in Eg. injection Eg as <-. cbn [lt_lfe fst gi_lf gi_global] in Ey.
    assert (CI := call_interpolate 1 1 0%N (P1 1) _ (fun x k => lt_f 1 1 x k + s k) ltac:(lia) ltac:(reflexivity) eq_refl (SL 1%nat 1%nat)).
    change (lt_interpolate 0 1) with (@p1_interpolate Vec 1) in CI. rewrite CI in Ey.
    destruct (proj1 (call_all 1 1 0%N r (P1 1) _ (fun x k => lt_f 1 1 x k + s k) (le_n 1) ltac:(lia) ltac:(reflexivity) Er eq_refl (SL 1%nat 1%nat)) x) as (u & E & V).
    assert (u = y) by (unfold call_lfe in E; congruence). subst u. rewrite (V k Hk). unfold aff. rewrite (lt_f_aff 1 1 x k Hk). ring.
Qed.
Print Assumptions C92_interpolation_refuted.

(** in dimension 7 with world dimension 7 the program would fail: the map is singular *)
Theorem C92_seven_refuted :
  forall tolc ctol rules junk jd id q, (id < 2 ^ 7)%N -> tolc < 1 / 2 -> rules id 7%nat 2%Z = Some q -> q <> [] ->
    lt_check 7 7 (lt_library rules jd 7 7) tolc ctol rules junk detR id <> Some true.
Proof.
  intros tolc ctol rules junk jd id q Hid Ht Hq Nq H. apply C92_check in H. cbv zeta in H.
  destruct H as (r & fe & g & g2 & m & Er & Ef & E1 & _ & _ & C1 & _). cbn [lt_library lm_coefficients] in E1. unfold lt_coefficients in E1.
  destruct (Nat.eqb _ _); [|discriminate]. apply (f_equal (fun o => match o with Some u => u | None => g end)) in E1. subst g. rewrite C82_check in C1. rewrite Hq in C1.
  destruct C1 as (_ & _ & _ & _ & _ & _ & _ & _ & _ & [K|(r' & p & y & _ & _ & _ & _ & _ & _ & q' & Eq & HQ)]); [discriminate K|].
  injection Eq as <-. destruct q as [|[x w] q]; [congruence|]. destruct (HQ x w (or_introl eq_refl)) as (y' & z & Jt & Jit & J & Ji & ie & _ & _ & _ & EJ & _ & _ & _ & HI & _).
  destruct (proj2 (call_all 7 7 id r fe lt_b (lt_f 7 7) (le_n 7) ltac:(lia) Hid Er Ef (lt_f_like 7 7)) x) as (J' & EJ' & VJ).
  change (lf_jacobianTransposed 7 7 (call_lfe 7 id r fe (lt_f 7 7)) x = Some Jt) in EJ. unfold lf_jacobianTransposed in EJ. rewrite EJ' in EJ. cbn [option_map] in EJ.
  assert (Z : mmul 7 Jt Jit 0%nat 0%nat + mmul 7 Jt Jit 6%nat 0%nat = 0).
  { unfold mmul. rewrite <- rsum_plus. apply rsum_0. intros k Hk. injection EJ as <-. rewrite !VJ by lia. destruct (lt_seven k Hk) as [E _]. rewrite <- Rmult_plus_distr_r, E. ring. }
  pose proof (HI 0%nat 0%nat ltac:(lia) ltac:(lia)) as I0. pose proof (HI 6%nat 0%nat ltac:(lia) ltac:(lia)) as I6.
  assert (X0 : mone 0%nat 0%nat = 1) by reflexivity. assert (X6 : mone 6%nat 0%nat = 0) by reflexivity. rewrite X0 in I0. rewrite X6 in I6.
  apply Rabs_def2 in I0. apply Rabs_def2 in I6. lra.
Qed.
Print Assumptions C92_seven_refuted.

(** the calls that are commented out do not succeed: there is no element for pyramids and prisms, and in dimension 0 every point is the centre, from
    which local() stagnates *)
Theorem C92_disabled :
  forall tolc ctol rules junk jd gt m n q, In (gt, m, n) lt_disabled -> lj_ok jd -> first_rule (gt_id gt) m (rules (gt_id gt) m) ->
    rules (gt_id gt) m 2%Z = Some q -> q <> [] ->
    lt_check m n (lt_library rules jd m n) tolc ctol rules junk detR (gt_id gt) <> Some true.
Proof.
  intros tolc ctol rules junk jd gt m n q HI HJ FR Hq Nq H. apply C92_check in H. cbv zeta in H. destruct H as (r & fe & g & g2 & mm & Er & Ef & E1 & _ & _ & C1 & _).
  destruct HI as [E|HI].
  - injection E as <- <- <-. change (gt_id (simplex 0)) with 0%N in *. cbn [lt_library lm_coefficients] in E1. unfold lt_coefficients in E1.
    destruct (Nat.eqb _ _); [|discriminate]. injection E1 as <-. destruct HJ as (J1 & J2 & J3). assert (HJ : lj_ok jd) by (repeat split; try assumption; lra || apply J3).
    assert (CI := call_instance 0 0 0%N r fe lt_b (lt_f 0 0) ltac:(reflexivity) Er Ef (lt_f_like 0 0) rules jd HJ FR).
    destruct (center_pos 0 0%N r ltac:(reflexivity) Er) as (c & Ec & _). destruct q as [|[x w] q]; [congruence|]. rewrite Hq in C1. revert C1.
    apply (C82_centre_refuted 0 0 (lj_tol jd) tolc junk 0%N r lt_b (mtr lt_A) _ _ c ((x, w) :: q) x w); auto; [lia|reflexivity|apply lt_independent; lia|now left|intros k Hk; lia].
  - clear -HI Ef. assert (lt_fe (gt_id gt) m = None); [|congruence]. cbn [lt_disabled In] in HI. repeat (destruct HI as [E|HI]; [injection E as <- <- <-; reflexivity|]). destruct HI.
Qed.
Print Assumptions C92_disabled.

(** the numbers of calls, one Gram determinant, and rules that satisfy the hypotheses: an interior point that is not the centre *)
Example C92_example :
  length lt_calls = 22%nat /\ detR 4 (mmul 5 (mtr lt_A) lt_A) = 224 /\ lt_f 2 2 (fun _ => 1) 0%nat = 6 /\ lt_f 2 2 (fun _ => 1) 1%nat = 7 /\
  forall tol, 0 < tol < 1 / 2 -> rules_ok tol (fun id d o => Some [((fun _ => if Z.eqb o 2 then 1 / 4 else 1 / 2) : Vec, referenceVolume id d)]) 0 1.
Proof.
  split; [reflexivity|]. split; [exact (lt_gram 4 5)|]. split; [unfold lt_f, mv, lt_A, lt_b; cbn; lra|]. split; [unfold lt_f, mv, lt_A, lt_b; cbn; lra|].
  intros tol Ht. split; [|split].
  - eexists. split; [reflexivity|]. cbn [fold_right snd]. ring.
  - eexists. split; [reflexivity|]. intros x w [E|[]]. injection E as <- _. split; [left; left; reflexivity|]. intro V. specialize (V 0%nat ltac:(lia)). rewrite mean_corners in V. cbn in V. unfold upd, vzero in V. cbn in V. lra.
  - eexists. split; [reflexivity|]. intros x w [E|[]]. injection E as <- _. left. left. reflexivity.
Qed.
