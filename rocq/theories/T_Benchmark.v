(** Property C97: what benchmark-geometries.cc checks, that the classes of the library pass it for every number of iterations, why the
    calls that are commented out cannot, and what it lets through. *)
From Coq Require Import PeanoNat NArith ZArith Bool List Reals Lia Lra.
From Verif Require Import M_Type M_RefTopo M_RefGeo M_Matrix M_Affine M_MultiLinear M_GaussNewton M_LocalFE M_CheckGeo M_AffineTest M_MLTest M_LFETest M_Benchmark
  S_Topo S_RefGeo S_Matrix S_MultiLinear S_GaussNewton S_Agree S_CheckGeo P_Type P_Topo P_RefTopo P_RefTopo2 P_RefTopo3 P_RSum P_RefGeo P_RefGeo2 P_RefGeo3 P_RefGeo4
  P_Matrix P_Matrix2 P_Matrix3 P_Matrix4 P_Matrix5 P_Det P_MxBridge P_Affine
  P_ML1 P_ML2 P_ML3 P_ML4 P_ML5 P_GaussNewton P_Agree P_LocalFE T_RefGeo T_Matrix T_Affine T_MultiLinear T_GaussNewton T_LocalFE P_Agree2 T_Agree P_CheckGeo T_CheckGeo P_AffineTest
  P_MLTest P_LFETest T_LFETest P_MappedTest P_RefVol.
Import ListNotations.
Local Open Scope R_scope.

(** ** one geometry *)
(** two points of the world space that differ *)
Definition differ (n : nat) (a b : option Vec) : Prop := exists u v, a = Some u /\ b = Some v /\ ~ veq n u v.
(** what the loops look at: consecutive corners, corners and centre, and the signs of the volume and of the integration element *)
Definition consecutive (cdim : nat) (g : GeoI) : Prop :=
  forall i, (i < gi_corners g)%nat -> differ cdim (gi_corner g i) (gi_corner g (Nat.modulo (i + 1) (gi_corners g))) /\ differ cdim (gi_corner g i) (gi_center g).
Definition positive_at (g : GeoI) (x : Vec) : Prop :=
  gi_global g x <> None /\ gi_jacobian g x <> None /\ gi_jacobianTransposed g x <> None /\ gi_jacobianInverse g x <> None /\ gi_jacobianInverseTransposed g x <> None /\
  exists d, gi_integrationElement g x = Some d /\ 0 < d.

Lemma apart_true n a b : bm_apart n a b = Some true <-> differ n a b.
Proof.
  unfold bm_apart. rewrite obind_true. split.
  - intros (u & Eu & H). rewrite obind_true in H. destruct H as (v & Ev & H). exists u, v. split; [exact Eu|]. split; [exact Ev|].
    assert (L : Rltb 0 (two_norm n (fun k => u k - v k)) = true) by congruence. apply Rltb_true' in L. intro V. rewrite two_norm_0 in L; [lra|]. intros k Hk. rewrite V by assumption. ring.
  - intros (u & v & Eu & Ev & NV). exists u. split; [exact Eu|]. rewrite obind_true. exists v. split; [exact Ev|]. f_equal. apply Rltb_true'.
    destruct (Rle_lt_or_eq_dec 0 _ (two_norm_nonneg n (fun k => u k - v k))) as [L|E]; [exact L|]. exfalso. apply NV. intros k Hk. assert (Z := two_norm_zero_inv _ _ (eq_sym E) k Hk). cbn beta in Z. lra.
Qed.
Lemma corners_true n g : forall c i pass, bm_corners n g c i pass = Some true <->
  pass = true /\ forall j, (i <= j < i + c)%nat -> differ n (gi_corner g j) (gi_corner g (Nat.modulo (j + 1) (gi_corners g))) /\ differ n (gi_corner g j) (gi_center g).
Proof.
  induction c as [|c IH]; intros i pass; cbn [bm_corners].
  - split; [intro H; split; [congruence|intros j Hj; lia]|]. intros [-> _]. reflexivity.
  - rewrite obind_true. split.
    + intros (p1 & E1 & H). rewrite obind_true in H. destruct H as (p2 & E2 & H). apply IH in H. destruct H as [P H]. rewrite !andb_true_iff in P. destruct P as [[-> ->] ->].
      split; [reflexivity|]. intros j Hj. destruct (Nat.eq_dec j i) as [->|N]; [|apply H; lia]. split; now apply apart_true.
    + intros [-> H]. destruct (H i ltac:(lia)) as [D1 D2]. exists true. split; [now apply apart_true|]. rewrite obind_true. exists true. split; [now apply apart_true|].
      apply IH. split; [reflexivity|]. intros j Hj. apply H. lia.
Qed.
Lemma some_ne {X} (o : option X) : o <> None <-> exists x, o = Some x.
Proof. destruct o; split; [eauto|discriminate|congruence|intros [x H]; discriminate]. Qed.
Lemma point_true n g a x pass : gi_affine g = Some a ->
  bm_point n g a (gi_type g) x pass = Some true <->
  pass = true /\ (0 < gi_corners g)%nat /\ consecutive n g /\ (exists v, gi_volume g = Some v /\ 0 < v) /\ positive_at g x.
Proof.
  intro EA. unfold bm_point. rewrite EA. cbn [obind]. rewrite Bool.eqb_reflx, gt_eqb_refl, !andb_true_r. rewrite obind_true. split.
  - intros (p & E & H). rewrite obind_true in H. destruct H as (v & Ev & H). rewrite obind_true in H. destruct H as (y & E1 & H).
    rewrite obind_true in H. destruct H as (J & E2 & H). rewrite obind_true in H. destruct H as (Jt & E3 & H). rewrite obind_true in H. destruct H as (Ji & E4 & H).
    rewrite obind_true in H. destruct H as (Jit & E5 & H). rewrite obind_true in H. destruct H as (d & E6 & H).
    assert (P : p && Rltb 0 v && Rltb 0 d = true) by congruence. rewrite !andb_true_iff, !Rltb_true' in P. destruct P as [[-> Pv] Pd].
    apply corners_true in E. destruct E as [E C]. rewrite andb_true_iff, Nat.ltb_lt in E. destruct E as [-> L]. split; [reflexivity|]. split; [exact L|].
    split; [intros i Hi; apply C; lia|]. split; [eauto|]. unfold positive_at. rewrite E1, E2, E3, E4, E5. repeat (split; [discriminate|]). eauto.
  - intros (-> & L & C & (v & Ev & Pv) & N1 & N2 & N3 & N4 & N5 & (d & E6 & Pd)). apply some_ne in N1, N2, N3, N4, N5. destruct N1 as [y E1], N2 as [J E2], N3 as [Jt E3], N4 as [Ji E4], N5 as [Jit E5].
    exists true. split.
    + apply corners_true. split; [now rewrite (proj2 (Nat.ltb_lt _ _) L)|]. intros j Hj. apply C. lia.
    + rewrite Ev. cbn [obind]. rewrite E1. cbn [obind]. rewrite E2. cbn [obind]. rewrite E3. cbn [obind]. rewrite E4. cbn [obind]. rewrite E5. cbn [obind]. rewrite E6. cbn [obind].
      rewrite (proj2 (Rltb_true' _ _) Pv), (proj2 (Rltb_true' _ _) Pd). reflexivity.
Qed.
Lemma points_true n g a : gi_affine g = Some a -> forall q pass, bm_points n g a (gi_type g) q pass = Some true <->
  pass = true /\ (q <> [] -> (0 < gi_corners g)%nat /\ consecutive n g /\ exists v, gi_volume g = Some v /\ 0 < v) /\ forall x w, In (x, w) q -> positive_at g x.
Proof.
  intro EA. induction q as [|[x w] q IH]; intro pass; cbn [bm_points].
  - split; [intro H; split; [congruence|]; split; [congruence|intros x w []]|]. intros [-> _]. reflexivity.
  - rewrite obind_true. split.
    + intros (p & E & H). apply IH in H. destruct H as (-> & _ & H2). apply (point_true n g a x pass EA) in E. destruct E as (-> & L & C & V & P). split; [reflexivity|]. split; [auto|].
      intros x' w' [Q|Q]; [injection Q as <- _; exact P|exact (H2 _ _ Q)].
    + intros (-> & H1 & H2). destruct (H1 ltac:(discriminate)) as (L & C & V). exists true. split.
      * apply (point_true n g a x true EA). split; [reflexivity|]. split; [exact L|]. split; [exact C|]. split; [exact V|]. apply (H2 x w). now left.
      * apply IH. split; [reflexivity|]. split; [auto|]. intros x' w' Q. apply (H2 x' w'). now right.
Qed.
(** benchmarkGeometry returns true if and only if consecutive corners differ, no corner is the centre, the volume is positive and at the points
    of the rule everything is defined and the integration element is positive; an empty rule lets everything pass *)
Theorem C97_geometry :
  forall mydim cdim g rules,
    bm_geometry mydim cdim g rules = Some true <->
    gi_affine g <> None /\ exists q, rules (gt_id (gi_type g)) mydim 8%Z = Some q /\
      (q <> [] -> (0 < gi_corners g)%nat /\ consecutive cdim g /\ exists v, gi_volume g = Some v /\ 0 < v) /\
      forall x w, In (x, w) q -> positive_at g x.
Proof.
  intros. unfold bm_geometry. rewrite obind_true, some_ne. split.
  - intros (a & EA & H). split; [eauto|]. rewrite obind_true in H. destruct H as (q & Eq & H). exists q. split; [exact Eq|]. now apply (points_true cdim g a EA) in H.
  - intros ((a & EA) & q & Eq & H). exists a. split; [exact EA|]. rewrite obind_true. exists q. split; [exact Eq|]. apply (points_true cdim g a EA). auto.
Qed.
Print Assumptions C97_geometry.

(** a geometry with one corner does not pass *)
Theorem C97_one_corner :
  forall mydim cdim g rules q, gi_corners g = 1%nat -> rules (gt_id (gi_type g)) mydim 8%Z = Some q -> q <> [] ->
    bm_geometry mydim cdim g rules <> Some true.
Proof.
  intros mydim cdim g rules q E1 Eq N H. apply C97_geometry in H. destruct H as (_ & q' & Eq' & H & _). assert (q' = q) by congruence. subst q'.
  destruct (H N) as (_ & C & _). destruct (C 0%nat ltac:(lia)) as [(u & v & Eu & Ev & NV) _]. rewrite E1 in Ev. cbn in Ev. apply NV. assert (u = v) by congruence. subst v. intros k _. reflexivity.
Qed.
Print Assumptions C97_one_corner.

(** ** the classes of the library *)
Lemma aff_differ mydim cdim o M x y : row_independent mydim cdim M -> veq cdim (aff mydim o M x) (aff mydim o M y) -> veq mydim x y.
Proof.
  intros HR V k Hk. assert (E := HR (fun j => x j - y j)). cbn beta in E. enough (x k - y k = 0) by lra. apply E; [|exact Hk]. intros j Hj. specialize (V j Hj). unfold aff in V.
  unfold mvec, mtr. rewrite (rsum_ext mydim _ (fun i => M i j * x i - M i j * y i)) by (intros; ring). rewrite rsum_minus. lra.
Qed.
Lemma not_mean id d i p : nth_error (referenceCorners id (S d)) i = Some p -> ~ veq (S d) p (meanT (topo_of id (S d))).
Proof.
  intros E V. pose proof (far_coord id d i p E) as F. rewrite (V d ltac:(lia)) in F. rewrite Rminus_diag_eq, Rabs_R0 in F by reflexivity.
  assert (L : (i < length (referenceCorners id (S d)))%nat) by (apply nth_error_Some; congruence). rewrite C16_corner_count in L.
  assert (0 < 1 / INR (size id (S d) (S d))) by (apply Rdiv_lt_0_compat; [lra|]; apply lt_0_INR; lia). lra.
Qed.
(** every class that represents an affine map of full rank passes *)
Theorem C97_affine_classes :
  forall mydim cdim tol id r o M g rules q, (0 < mydim <= cdim)%nat -> (mydim <= 13)%nat -> 0 < tol < 1 / 2 -> (id < 2 ^ N.of_nat mydim)%N -> re_infos id mydim = Some r ->
    row_independent mydim cdim M -> affine_instance mydim cdim tol id r o M g ->
    rules (gt_id (gi_type g)) mydim 8%Z = Some q -> (forall x w, In (x, w) q -> usable tol id mydim x) ->
    bm_geometry mydim cdim g rules = Some true.
Proof.
  intros mydim cdim tol id r o M g rules q Hm Hd Ht Hid Hr HR HA Eq HU. assert (Hid' := Hid). rewrite <- bit_pow in Hid'.
  destruct (pinv_exists mydim cdim M ltac:(lia) HR) as (X & d & HP).
  destruct (instance_like mydim cdim tol id r o M X d ltac:(lia) ltac:(lia) Ht Hid' Hr HR HP g HA) as (A1 & A2 & A3 & A4 & (c & A5 & A5') & A6 & A7).
  apply C97_geometry. split; [rewrite A1; discriminate|]. exists q. split; [exact Eq|]. assert (D0 : 0 < d) by apply HP.
  assert (CN : (2 <= gi_corners g)%nat).
  { rewrite A3. apply size_two. lia. }
  split.
  - intros _. split; [lia|]. split.
    + intros i Hi. assert (CI : forall j, (j < gi_corners g)%nat -> exists p, nth_error (referenceCorners id mydim) j = Some p).
      { intros j Hj. rewrite A3, <- C16_corner_count in Hj. eexists. exact (nth_error_nth' _ vzero Hj). }
      destruct (CI i Hi) as [p Ep]. destruct (A4 i p Ep) as (u & Eu & Vu). split.
      * set (j := Nat.modulo (i + 1) (gi_corners g)). assert (Hj : (j < gi_corners g)%nat) by (apply Nat.mod_upper_bound; lia).
        destruct (CI j Hj) as [p' Ep']. destruct (A4 j p' Ep') as (v & Ev & Vv). exists u, v. split; [exact Eu|]. split; [exact Ev|]. intro V.
        assert (EP : veq mydim p p'). { apply (aff_differ mydim cdim o M p p' HR). intros k Hk. rewrite <- Vu, <- Vv by assumption. now apply V. }
        assert (EJ := C16_corners_distinct id mydim i j p p' Ep Ep' EP). unfold j in EJ. destruct (Nat.eq_dec (i + 1) (gi_corners g)) as [E|N].
        -- rewrite E, Nat.mod_same in EJ by lia. lia.
        -- rewrite Nat.mod_small in EJ by lia. lia.
      * exists u, c. split; [exact Eu|]. split; [exact A5|]. intro V. destruct mydim as [|m]; [lia|]. apply (not_mean id m i p Ep). apply (aff_differ (S m) cdim o M _ _ HR).
        intros k Hk. rewrite <- Vu, <- A5' by assumption. now apply V.
    + eexists. split; [exact A6|]. apply Rmult_lt_0_compat; [exact D0|]. rewrite C21_volume_small_dimension, volumeT_tvol by assumption. apply tvol_pos.
  - intros x w I. destruct (A7 x (HU x w I)) as ((u1 & E1 & _) & (u2 & E2 & _) & (u3 & E3 & _) & (u4 & E4 & _) & (u5 & E5 & _) & E6).
    unfold positive_at. rewrite E1, E2, E3, E4, E5. repeat (split; [discriminate|]). eauto.
Qed.
Print Assumptions C97_affine_classes.

(** ** the calls *)
Lemma repeat_true mydim cdim g rules : forall n pass, bm_repeat mydim cdim g rules n pass = Some true <-> pass = true /\ (n <> 0%nat -> bm_geometry mydim cdim g rules = Some true).
Proof.
  induction n as [|n IH]; intro pass; cbn [bm_repeat].
  - split; [intro H; split; congruence|]. intros [-> _]. reflexivity.
  - rewrite obind_true. split.
    + intros (p & E & H). apply IH in H. destruct H as [P _]. apply andb_true_iff in P. destruct P as [-> ->]. auto.
    + intros [-> H]. exists true. split; [now apply H|]. apply IH. auto.
Qed.
Lemma repeat_pass mydim cdim g rules : forall n pass p, bm_repeat mydim cdim g rules n pass = Some p -> p = true -> pass = true.
Proof. intros n pass p E ->. now apply repeat_true in E. Qed.
(** a call succeeds if and only if the three geometries can be built and, with at least one iteration, each of them passes *)
Theorem C97_call :
  forall rules mydim cdim mk nIter id,
    bm_call rules mydim cdim mk nIter id = Some true <->
    let cs := map (lt_f mydim cdim) (referenceCorners id mydim) in
    exists r fe g h m, re_infos id mydim = Some r /\ lt_fe id mydim = Some fe /\
      bmk_coefficients mk id r fe cs = Some g /\ bmk_multilinear mk id r cs = Some h /\ bmk_mapped mk id r fe cs true = Some m /\
      ((0 < nIter)%Z -> bm_geometry mydim cdim g rules = Some true /\ bm_geometry mydim cdim h rules = Some true /\ bm_geometry mydim cdim m rules = Some true).
Proof.
  intros rules mydim cdim mk nIter id. cbv zeta. set (cs := map (lt_f mydim cdim) (referenceCorners id mydim)).
  assert (CV : forall r, lt_corners mydim cdim id r (size id mydim mydim) 0 = Some cs) by (intro r; rewrite lt_corners_value by (rewrite C16_corner_count; lia); reflexivity).
  assert (OR : forall fe, lt_fe id mydim = Some fe -> Z.eqb (fe_order fe) 1 && true = true).
  { unfold lt_fe. intro fe. destruct (isSimplex _); [intro H; injection H as <-; reflexivity|]. destruct (isCube _); [intro H; injection H as <-; reflexivity|discriminate]. }
  assert (NZ : Z.to_nat nIter <> 0%nat <-> (0 < nIter)%Z) by lia.
  unfold bm_call. rewrite obind_true. split.
  - intros (r & Er & H). rewrite obind_true in H. destruct H as (fe & Ef & H). rewrite CV in H. cbn [obind] in H.
    rewrite obind_true in H. destruct H as (g & Eg & H). rewrite obind_true in H. destruct H as (p1 & E1 & H). rewrite obind_true in H. destruct H as (h & Eh & H).
    rewrite obind_true in H. destruct H as (p2 & E2 & H). rewrite geometry_0 in H. cbn [obind] in H. rewrite (OR fe Ef) in H. rewrite obind_true in H. destruct H as (m & Em & H).
    apply repeat_true in H. destruct H as [-> H3]. apply repeat_true in E2. destruct E2 as [-> H2]. apply repeat_true in E1. destruct E1 as [_ H1].
    exists r, fe, g, h, m. repeat (split; [assumption|]). intro P. apply NZ in P. auto.
  - intros (r & fe & g & h & m & Er & Ef & Eg & Eh & Em & H). exists r. split; [exact Er|]. rewrite Ef, CV. cbn [obind]. rewrite Eg. cbn [obind].
    rewrite obind_true. exists true. split; [apply repeat_true; split; [reflexivity|]; intro P; now apply H, NZ|]. rewrite Eh. cbn [obind].
    rewrite obind_true. exists true. split; [apply repeat_true; split; [reflexivity|]; intro P; now apply H, NZ|]. rewrite geometry_0. cbn [obind]. rewrite (OR fe Ef), Em. cbn [obind].
    apply repeat_true. split; [reflexivity|]. intro P. now apply H, NZ.
Qed.
Print Assumptions C97_call.

(** what a call needs of the rules: that of order 1 for the volumes, that of order 8 for the points *)
Definition bm_rules_ok (tol : R) (rules : N -> nat -> Z -> option Rule) (id : N) (dim : nat) : Prop :=
  first_rule id dim (rules id dim) /\ exists q, rules id dim 8%Z = Some q /\ forall x w, In (x, w) q -> usable tol id dim x.
(** the classes of the library pass for every simplex and cube and every number of iterations *)
Theorem C97_library :
  forall rules jd nIter mydim cdim id, (0 < mydim <= cdim)%nat -> (mydim <= 13)%nat -> (id < 2 ^ N.of_nat mydim)%N ->
    isSimplex (GT2 id mydim) = true \/ isCube (GT2 id mydim) = true -> ~ (mydim = 7 /\ cdim = 7)%nat ->
    lj_ok jd -> bm_rules_ok (lj_tol jd) rules id mydim ->
    bm_call rules mydim cdim (bm_library rules jd mydim cdim) nIter id = Some true.
Proof.
  intros rules jd nIter mydim cdim id Hm Hd Hid HT H7 HJ (FR & q & Eq & HU). apply C97_call. cbv zeta.
  assert (Hm' : (mydim <= cdim)%nat) by lia. assert (Hd' : (mydim < 256)%nat) by lia.
  assert (HR := lt_independent mydim cdim Hm' H7). assert (Hid' := Hid). rewrite <- bit_pow in Hid'. destruct (fe_exists id mydim HT) as [fe HF].
  destruct (re_infos_spec id mydim Hid') as (r & Er & _). destruct HJ as (J1 & J2 & J3). assert (HJ : lj_ok jd) by (split; [exact J1|]; split; assumption).
  assert (LF := lt_f_like mydim cdim). set (cs := map (lt_f mydim cdim) (referenceCorners id mydim)).
  assert (CI := call_instance mydim cdim id r fe lt_b (lt_f mydim cdim) Hid Er HF LF rules jd HJ FR).
  destruct (instance_local mydim cdim (lj_tol jd) id r lt_b (mtr lt_A) true _ _ Hm' Hd' J1 Hid' Er HR CI) as (HA & _).
  destruct (call_mapped mydim cdim id r fe lt_b (lt_f mydim cdim) Hm' Hd' Hid Er HF LF rules jd HR FR) as (m & Em & Am).
  assert (Aml := call_ml mydim cdim id r lt_b (lt_f mydim cdim) Hid Er LF rules jd). fold cs in Aml, Em.
  assert (EG : lm_coefficients (lt_library rules jd mydim cdim) id r fe cs = Some (lt_lfe mydim cdim rules (lj_tolf jd) (lj_junk jd) (lj_ret jd) (lj_j1 jd) (lj_j2 jd) (lj_opts jd) (lj_gn jd) (call_lfe mydim id r fe (lt_f mydim cdim)))).
  { cbn [lt_library lm_coefficients]. unfold lt_coefficients, cs. now rewrite (call_size mydim cdim id r fe lt_b (lt_f mydim cdim) Hm' Hd' Hid Er HF LF). }
  assert (TM : gt_id (gi_type m) = id).
  { cbn [lt_library lm_mapped] in Em. unfold lt_mapped in Em. destruct (lff_eval _ _ _); [|discriminate]. cbn [obind] in Em. destruct (lff_derivative _ _ _ _); [|discriminate]. cbn [obind] in Em.
    destruct (reg_make _ _ _ _ _ _) as [base|] eqn:EB; [|discriminate]. cbn [obind] in Em. injection Em as <-. cbn [gi_mg gi_type]. 
    unfold reg_make in EB. rewrite geometry_0 in EB. cbn [obind fst snd] in EB.
    destruct (affine_from_jacobian_inv _ _ _ _ _ _ _ _ _ base (le_n _) (midentity_independent mydim) EB) as (EI & _).
    cbn. now rewrite EI. }
  exists r, fe. eexists. eexists. exists m. split; [exact Er|]. split; [exact HF|]. split; [cbn [bm_library bmk_coefficients]; fold cs; rewrite EG; reflexivity|]. split; [reflexivity|].
  split; [exact Em|]. intros _. assert (K : forall g, affine_instance mydim cdim (lj_tol jd) id r lt_b (mtr lt_A) g -> gt_id (gi_type g) = id -> bm_geometry mydim cdim g rules = Some true).
  { intros g A T. apply (C97_affine_classes mydim cdim (lj_tol jd) id r lt_b (mtr lt_A) g rules q); auto. now rewrite T. }
  split; [apply K; [exact HA|reflexivity]|]. split; [apply K; [exact Aml|reflexivity]|]. now apply K.
Qed.
Print Assumptions C97_library.

(** ** the program *)
Lemma bm_all_true rules mk nIter : forall calls pass, bm_all rules mk nIter calls pass = Some true <->
  pass = true /\ forall gt m n, In (gt, m, n) calls -> bm_call rules m n (mk m n) nIter (gt_id gt) = Some true.
Proof.
  induction calls as [|[[gt m] n] calls IH]; intro pass; cbn [bm_all].
  - split; [intro H; split; [congruence|intros gt m n []]|intros [-> _]; reflexivity].
  - rewrite obind_true. split.
    + intros (p & E & H). apply IH in H. destruct H as [H1 H2]. apply andb_true_iff in H1. destruct H1 as [-> ->]. split; [reflexivity|]. intros gt' m' n' [Q|Q]; [injection Q as <- <- <-; exact E|auto].
    + intros [-> H]. exists true. split; [apply H; now left|]. apply IH. split; [reflexivity|]. intros gt' m' n' Q. apply H. now right.
Qed.
(** the exit code is 0 if and only if every call succeeds, for both scalar types *)
Theorem C97_verdict :
  forall rules mkd mkf argument,
    bm_main rules mkd mkf argument = Some true <->
    forall gt m n, In (gt, m, n) bm_calls -> forall nIter, nIter = match argument with Some n => n | None => 10%Z end ->
      bm_call rules m n (mkd m n) nIter (gt_id gt) = Some true /\ bm_call rules m n (mkf m n) nIter (gt_id gt) = Some true.
Proof.
  intros. unfold bm_main. set (k := match argument with Some n => n | None => 10%Z end). rewrite obind_true. split.
  - intros (p & E & H). rewrite obind_true in H. destruct H as (p' & E' & H). assert (P : p && p' = true) by congruence. apply andb_true_iff in P. destruct P as [-> ->].
    apply bm_all_true in E. apply bm_all_true in E'. intros gt m n I nIter ->. split; [exact (proj2 E gt m n I)|exact (proj2 E' gt m n I)].
  - intro H. exists true. split; [apply bm_all_true; split; [reflexivity|]; intros gt m n I; exact (proj1 (H gt m n I k eq_refl))|]. rewrite obind_true. exists true.
    split; [apply bm_all_true; split; [reflexivity|]; intros gt m n I; exact (proj2 (H gt m n I k eq_refl))|reflexivity].
Qed.
Print Assumptions C97_verdict.

(** one iteration decides: the verdict is the same for all positive numbers *)
Theorem C97_iterations :
  forall rules mkd mkf n k, (0 < n)%Z -> (0 < k)%Z ->
    (bm_main rules mkd mkf (Some n) = Some true <-> bm_main rules mkd mkf (Some k) = Some true) /\
    (bm_main rules mkd mkf None = Some true <-> bm_main rules mkd mkf (Some n) = Some true).
Proof.
  assert (C : forall rules m c mk a b id, (0 < a)%Z -> (0 < b)%Z -> bm_call rules m c mk a id = Some true -> bm_call rules m c mk b id = Some true).
  { intros rules m c mk a b id Ha Hb H. apply C97_call in H. apply C97_call. cbv zeta in *. destruct H as (r & fe & g & h & mm & E1 & E2 & E3 & E4 & E5 & H).
    exists r, fe, g, h, mm. repeat (split; [assumption|]). intros _. now apply H. }
  assert (M : forall rules mkd mkf a b, (0 < match a with Some n => n | None => 10%Z end)%Z -> (0 < match b with Some n => n | None => 10%Z end)%Z ->
    bm_main rules mkd mkf a = Some true -> bm_main rules mkd mkf b = Some true).
  { intros rules mkd mkf a b Ha Hb H. rewrite C97_verdict in H. apply C97_verdict. intros gt m n I nIter ->. destruct (H gt m n I _ eq_refl) as [H1 H2].
    split; eapply C; [exact Ha|exact Hb|exact H1|exact Ha|exact Hb|exact H2]. }
  intros rules mkd mkf n k Hn Hk. split; split; apply M; try assumption; reflexivity.
Qed.
Print Assumptions C97_iterations.

(** with the argument 0, a negative one or one that is not a number nothing is looked at *)
Theorem C97_no_iteration :
  forall rules mkd mkf n, (n <= 0)%Z ->
    (bm_main rules mkd mkf (Some n) = Some true <->
     forall gt m c, In (gt, m, c) bm_calls -> forall mk, mk = mkd \/ mk = mkf ->
       let cs := map (lt_f m c) (referenceCorners (gt_id gt) m) in
       exists r fe, re_infos (gt_id gt) m = Some r /\ lt_fe (gt_id gt) m = Some fe /\
         bmk_coefficients (mk m c) (gt_id gt) r fe cs <> None /\ bmk_multilinear (mk m c) (gt_id gt) r cs <> None /\ bmk_mapped (mk m c) (gt_id gt) r fe cs true <> None).
Proof.
  intros rules mkd mkf n Hn. rewrite C97_verdict.
  assert (C : forall m c mk id, bm_call rules m c mk n id = Some true <-> let cs := map (lt_f m c) (referenceCorners id m) in
    exists r fe, re_infos id m = Some r /\ lt_fe id m = Some fe /\ bmk_coefficients mk id r fe cs <> None /\ bmk_multilinear mk id r cs <> None /\ bmk_mapped mk id r fe cs true <> None).
  { intros m c mk id. rewrite C97_call. cbv zeta. split.
    - intros (r & fe & g & h & mm & E1 & E2 & E3 & E4 & E5 & _). exists r, fe. split; [exact E1|]. split; [exact E2|]. rewrite E3, E4, E5. repeat split; discriminate.
    - intros (r & fe & E1 & E2 & E3 & E4 & E5). apply some_ne in E3, E4, E5. destruct E3 as [g E3], E4 as [h E4], E5 as [mm E5]. exists r, fe, g, h, mm. repeat (split; [assumption|]). lia. }
  split.
  - intros H gt m c I mk [-> | ->]; destruct (H gt m c I n eq_refl) as [H1 H2]; now apply C.
  - intros H gt m c I nIter ->. split; apply C; apply H; auto.
Qed.
Print Assumptions C97_no_iteration.

Definition bm_good_rules (tol : R) (rules : N -> nat -> Z -> option Rule) : Prop := forall gt m n, In (gt, m, n) bm_calls -> bm_rules_ok tol rules (gt_id gt) m.
(** in exact arithmetic the program succeeds, whatever its argument *)
Theorem C97_main :
  forall rules jd jf argument, lj_ok jd -> lj_ok jf -> bm_good_rules (lj_tol jd) rules -> bm_good_rules (lj_tol jf) rules ->
    bm_main rules (bm_library rules jd) (bm_library rules jf) argument = Some true.
Proof.
  intros rules jd jf argument HJ HF RJ RF. apply C97_verdict. intros gt m n I nIter _. assert (I' := I). change (In (gt, m, n) lt_calls) in I'.
  destruct (lt_calls_ok gt m n I') as (C1 & C2 & C3 & C4 & C5 & C6 & C7).
  split; apply C97_library; auto; try lia; [exact (RJ gt m n I)|exact (RF gt m n I)].
Qed.
Print Assumptions C97_main.

(** the calls that are commented out do not succeed: there is no element for pyramids and prisms, and a vertex has one corner *)
Theorem C97_disabled :
  forall rules jd nIter gt m n q, In (gt, m, n) bm_disabled -> rules (gt_id gt) m 8%Z = Some q -> q <> [] -> (0 < nIter)%Z ->
    bm_call rules m n (bm_library rules jd m n) nIter (gt_id gt) <> Some true.
Proof.
  intros rules jd nIter gt m n q HI Hq Nq HN H. apply C97_call in H. cbv zeta in H. destruct H as (r & fe & g & h & mm & Er & Ef & E1 & E2 & _ & H). destruct (H HN) as (_ & H2 & _).
  destruct HI as [E|HI].
  - injection E as <- <- <-. cbn [bm_library bmk_multilinear] in E2. injection E2 as <-. revert H2. apply C97_one_corner with (q := q); [|exact Hq|exact Nq].
    reflexivity.
  - clear -HI Ef. assert (lt_fe (gt_id gt) m = None); [|congruence]. cbn [bm_disabled In] in HI. repeat (destruct HI as [E|HI]; [injection E as <- <- <-; reflexivity|]). destruct HI.
Qed.
Print Assumptions C97_disabled.

(** One fixed interval in place of all 66 geometries passes: nothing ties a geometry to its type, its corners or its map. *)
Definition bm_interval : GeoI := {|
  gi_affine := Some false; gi_type := simplex 1; gi_corners := 2;
  gi_corner := fun i => Some (fun _ => INR i); gi_center := Some (fun _ => 5); gi_volume := Some 3;
  gi_global := fun _ => Some vzero; gi_jacobian := fun _ => Some mzero; gi_jacobianTransposed := fun _ => Some mzero;
  gi_jacobianInverse := fun _ => Some mzero; gi_jacobianInverseTransposed := fun _ => Some mzero; gi_integrationElement := fun _ => Some 7 |}.
Definition bm_constant : BMMakers := {|
  bmk_coefficients := fun _ _ _ _ => Some bm_interval; bmk_multilinear := fun _ _ _ => Some bm_interval; bmk_mapped := fun _ _ _ _ _ => Some bm_interval |}.
Theorem C97_constant_refuted :
  forall rules argument, (forall m, (1 <= m <= 4)%nat -> rules (gt_id (simplex 1)) m 8%Z <> None) ->
    bm_main rules (fun _ _ => bm_constant) (fun _ _ => bm_constant) argument = Some true.
Proof.
  intros rules argument HQ. apply C97_verdict. intros gt m n I nIter _. assert (I' := I). change (In (gt, m, n) lt_calls) in I'.
  destruct (lt_calls_ok gt m n I') as (C1 & C2 & C3 & C4 & C5 & C6 & C7).
  assert (G : bm_geometry m n bm_interval rules = Some true).
  { apply C97_geometry. split; [discriminate|]. destruct (proj1 (some_ne _) (HQ m ltac:(lia))) as [q Eq]. exists q. split; [exact Eq|]. split.
    - intros _. split; [cbn; lia|]. split; [|exists 3; split; [reflexivity|lra]]. intros i Hi. cbn [bm_interval gi_corners] in Hi. 
      assert (D : forall a b : R, a <> b -> ~ veq n (fun _ => a) (fun _ => b)) by (intros a b N V; apply N; exact (V 0%nat ltac:(lia))).
      destruct i as [|[|i]]; [| |lia]; (split; eexists; eexists; (split; [reflexivity|]); (split; [reflexivity|]); apply D; cbn; lra).
    - intros x w _. unfold positive_at. repeat (split; [discriminate|]). exists 7. split; [reflexivity|lra]. }
  assert (C : bm_call rules m n bm_constant nIter (gt_id gt) = Some true).
  { apply C97_call. cbv zeta. destruct (re_infos_spec (gt_id gt) m ltac:(now rewrite bit_pow)) as (r & Er & _). destruct (fe_exists (gt_id gt) m C6) as [fe Ef].
    exists r, fe, bm_interval, bm_interval, bm_interval. repeat (split; [first [exact Er|exact Ef|reflexivity]|]). auto. }
  split; exact C.
Qed.
Print Assumptions C97_constant_refuted.

(** A geometry that passes still does after its map, its derivatives and their inverses are replaced by anything, and its volume and
    integration element by other positive numbers. *)
Theorem C97_values_refuted :
  forall mydim cdim g rules G J Jt Ji Jit v (ie : Vec -> R), bm_geometry mydim cdim g rules = Some true -> 0 < v -> (forall x, 0 < ie x) ->
    bm_geometry mydim cdim {| gi_affine := gi_affine g; gi_type := gi_type g; gi_corners := gi_corners g; gi_corner := gi_corner g; gi_center := gi_center g; gi_volume := Some v;
      gi_global := fun x => Some (G x); gi_jacobian := fun x => Some (J x); gi_jacobianTransposed := fun x => Some (Jt x); gi_jacobianInverse := fun x => Some (Ji x);
      gi_jacobianInverseTransposed := fun x => Some (Jit x); gi_integrationElement := fun x => Some (ie x) |} rules = Some true.
Proof.
  intros mydim cdim g rules G J Jt Ji Jit v ie H Hv Hi. apply C97_geometry in H. apply C97_geometry. destruct H as (A & q & Eq & H1 & H2). split; [exact A|]. exists q. split; [exact Eq|]. split.
  - intro N. destruct (H1 N) as (L & C & _). split; [exact L|]. split; [exact C|]. exists v. auto.
  - intros x w _. unfold positive_at. cbn [gi_global gi_jacobian gi_jacobianTransposed gi_jacobianInverse gi_jacobianInverseTransposed gi_integrationElement]. repeat (split; [discriminate|]). eauto.
Qed.
Print Assumptions C97_values_refuted.

(** rules that satisfy the hypotheses of a call, and a degenerate geometry: corners 0 and 0 *)
Example C97_example :
  (forall tol, 0 < tol < 1 / 2 -> bm_rules_ok tol (fun id d _ => Some [((fun _ => 1 / 2) : Vec, referenceVolume id d)]) 0 1) /\
  (forall jd, lj_ok jd -> let rules := (fun id d _ => Some [((fun _ => 1 / 2) : Vec, referenceVolume id d)]) in
     bm_call rules 1 1 (bm_library rules jd 1 1) 10 0 = Some true) /\
  bm_geometry 1 1 {| gi_affine := Some true; gi_type := simplex 1; gi_corners := 2; gi_corner := fun i => Some vzero; gi_center := Some (fun _ => 5); gi_volume := Some 3;
    gi_global := fun _ => Some vzero; gi_jacobian := fun _ => Some mzero; gi_jacobianTransposed := fun _ => Some mzero;
    gi_jacobianInverse := fun _ => Some mzero; gi_jacobianInverseTransposed := fun _ => Some mzero; gi_integrationElement := fun _ => Some 7 |} (fun _ _ _ => Some [(vzero, 1)]) <> Some true.
Proof.
  assert (R0 : forall tol, 0 < tol < 1 / 2 -> bm_rules_ok tol (fun id d _ => Some [((fun _ => 1 / 2) : Vec, referenceVolume id d)]) 0 1).
  { intros tol Ht. split; [eexists; split; [reflexivity|]; cbn [fold_right snd]; ring|]. eexists. split; [reflexivity|]. intros x w [E|[]]. injection E as <- _. left. left. reflexivity. }
  split; [exact R0|]. split.
  - intros jd HJ rules. apply C97_library; auto; try lia. apply R0. apply HJ.
  - intro H. apply C97_geometry in H. destruct H as (_ & q & Eq & H & _). assert (q = [(vzero, 1)]) by (cbn in Eq; congruence). subst q.
    destruct (H ltac:(discriminate)) as (_ & C & _). destruct (C 0%nat ltac:(cbn; lia)) as [(u & v & Eu & Ev & N) _]. cbn in Eu, Ev. apply N. assert (u = v) by congruence. subst v. intros k _. reflexivity.
Qed.
