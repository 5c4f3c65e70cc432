(** Property C81: the geometry classes agree with one another. *)
From Coq Require Import PeanoNat NArith ZArith Bool List Reals Lia Lra.
From Verif Require Import M_Type M_RefTopo M_RefGeo M_Matrix M_Affine M_MultiLinear M_GaussNewton M_LocalFE
  S_Topo S_RefGeo S_Matrix S_MultiLinear S_GaussNewton S_Agree P_Type P_Topo P_RefTopo P_RefTopo2 P_RefTopo3 P_RSum P_RefGeo P_RefGeo2 P_RefGeo3 P_RefGeo4 P_Matrix P_Matrix2 P_Matrix3 P_MxBridge P_Affine
  P_ML1 P_ML2 P_ML3 P_ML4 P_ML5 P_GaussNewton P_Agree P_LocalFE T_RefGeo T_Matrix T_Affine T_MultiLinear T_GaussNewton T_LocalFE P_Agree2.
Import ListNotations.
Local Open Scope R_scope.

(** ** compareGeometries *)
Lemma near0 n tol u v : 0 <= tol -> veq n u v -> vnear n tol u v.
Proof. intros Ht E. unfold vnear. rewrite two_norm_0; [exact Ht|]. intros k Hk. rewrite E by assumption. ring. Qed.
Lemma mnear0 m n tol u v : 0 <= tol -> meq m n u v -> mnear m n tol u v.
Proof.
  intros Ht E. unfold mnear, frobenius_norm. rewrite rsum_0; [now rewrite sqrt_0|]. intros i Hi. apply rsum_0. intros j Hj. rewrite E by assumption. ring.
Qed.
Lemma both_mono {A} (E F : A -> A -> Prop) a b : (forall u v, E u v -> F u v) -> both E a b -> both F a b.
Proof. intros H (u & v & -> & -> & Q). exists u, v. auto. Qed.
Lemma agree_near mydim cdim tol g h x : 0 <= tol -> agree_at mydim cdim g h x -> near_at mydim cdim tol g h x.
Proof.
  intros Ht (H1 & H2 & H3 & H4 & H5 & H6). split; [|split; [|split; [|split; [|split]]]].
  - revert H1. apply both_mono. intros; now apply near0.
  - revert H2. apply both_mono. intros; now apply mnear0.
  - revert H3. apply both_mono. intros; now apply mnear0.
  - revert H4. apply both_mono. intros; now apply mnear0.
  - revert H5. apply both_mono. intros; now apply mnear0.
  - revert H6. apply both_mono. intros u v ->. rewrite Rminus_diag_eq, Rabs_R0 by reflexivity. exact Ht.
Qed.

Lemma negb_Rltb t a : negb (Rltb t a) = true <-> a <= t.
Proof.
  destruct (Rltb t a) eqn:E; cbn [negb].
  - apply Rltb_true in E. split; [discriminate|lra].
  - apply Rltb_false in E. split; auto.
Qed.
Lemma andthen_true c k : andthen c k = Some true <-> c = Some true /\ k = Some true.
Proof. destruct c as [[|]|]; cbn; split; try tauto; try discriminate; intros [? ?]; congruence. Qed.
Lemma vec_ok_true n tol a b : vec_ok n tol a b = Some true <-> both (vnear n tol) a b.
Proof.
  unfold vec_ok, both, vnear. destruct a as [u|]; cbn [obind]; [|split; [discriminate|intros (u & v & E & _); discriminate]].
  destruct b as [v|]; cbn [obind]; [|split; [discriminate|intros (u' & v & _ & E & _); discriminate]].
  split.
  - intro E. injection E as E. apply negb_Rltb in E. exists u, v. auto.
  - intros (u' & v' & E1 & E2 & E). injection E1 as <-. injection E2 as <-. f_equal. now apply negb_Rltb.
Qed.
Lemma mat_ok_true tol m n a b : mat_ok tol m n a b = Some true <-> both (mnear m n tol) a b.
Proof.
  unfold mat_ok, both, mnear. destruct a as [u|]; cbn [obind]; [|split; [discriminate|intros (u & v & E & _); discriminate]].
  destruct b as [v|]; cbn [obind]; [|split; [discriminate|intros (u' & v & _ & E & _); discriminate]].
  split.
  - intro E. injection E as E. apply negb_Rltb in E. exists u, v. auto.
  - intros (u' & v' & E1 & E2 & E). injection E1 as <-. injection E2 as <-. f_equal. now apply negb_Rltb.
Qed.
Lemma num_ok_true tol a b : num_ok tol a b = Some true <-> both (fun a b => Rabs (a - b) <= tol) a b.
Proof.
  unfold num_ok, both. destruct a as [u|]; cbn [obind]; [|split; [discriminate|intros (u & v & E & _); discriminate]].
  destruct b as [v|]; cbn [obind]; [|split; [discriminate|intros (u' & v & _ & E & _); discriminate]].
  split.
  - intro E. injection E as E. apply negb_Rltb in E. exists u, v. auto.
  - intros (u' & v' & E1 & E2 & E). injection E1 as <-. injection E2 as <-. f_equal. now apply negb_Rltb.
Qed.
Lemma cmp_corners_true cdim tol g h k : forall n i,
  cmp_corners cdim tol g h n i k = Some true <-> (forall j, (i <= j < i + n)%nat -> both (vnear cdim tol) (gi_corner g j) (gi_corner h j)) /\ k = Some true.
Proof.
  induction n as [|n IH]; intro i; cbn [cmp_corners].
  - split; [intro E; split; [intros; lia|exact E]|tauto].
  - rewrite andthen_true, IH, vec_ok_true. split.
    + intros (A & B & C). split; [|exact C]. intros j Hj. destruct (Nat.eq_dec j i) as [->|]; [exact A|apply B; lia].
    + intros (A & C). split; [apply A; lia|]. split; [intros; apply A; lia|exact C].
Qed.
Lemma cmp_points_true mydim cdim tol g h : forall q,
  cmp_points mydim cdim tol g h q = Some true <-> forall p w, In (p, w) q -> near_at mydim cdim tol g h p.
Proof.
  induction q as [|[p w] q IH]; cbn [cmp_points]; [split; [intros _ p w []|reflexivity]|].
  unfold cmp_point. rewrite !andthen_true, vec_ok_true, !mat_ok_true, num_ok_true, IH. split.
  - intros (H1 & H2 & H3 & H4 & H5 & H6 & H) p' w' [E|I]; [injection E as <- <-; repeat (split; [assumption|]); assumption|now apply (H p' w')].
  - intro H. destruct (H p w (or_introl eq_refl)) as (H1 & H2 & H3 & H4 & H5 & H6). repeat (split; [assumption|]). intros p' w' I. apply (H p' w'). now right.
Qed.

(** compareGeometries answers true exactly when the flags, types and corner numbers are equal
    and everything it looks at is defined and within the tolerance *)
Theorem C81_compare :
  forall mydim cdim tol rule g h, compareGeometries mydim cdim tol rule g h = Some true <->
    (exists a, gi_affine g = Some a /\ gi_affine h = Some a) /\
    gt_eqb (gi_type g) (gi_type h) = true /\ gi_corners g = gi_corners h /\
    (forall i, (i < gi_corners g)%nat -> both (vnear cdim tol) (gi_corner g i) (gi_corner h i)) /\
    both (vnear cdim tol) (gi_center g) (gi_center h) /\
    both (fun a b => Rabs (a - b) <= tol) (gi_volume g) (gi_volume h) /\
    exists q, rule = Some q /\ forall p w, In (p, w) q -> near_at mydim cdim tol g h p.
Proof.
  intros mydim cdim tol rule g h. unfold compareGeometries.
  destruct (gi_affine g) as [a|]; cbn [obind]; [|split; [discriminate|intros ((a & E & _) & _); discriminate]].
  destruct (gi_affine h) as [b|]; cbn [obind]; [|split; [discriminate|intros ((b & _ & E) & _); discriminate]].
  destruct (Bool.eqb a b) eqn:EA; cbn [negb].
  2:{ split; [discriminate|]. intros ((c & E1 & E2) & _). injection E1 as ->. injection E2 as ->. now rewrite eqb_reflx in EA. }
  apply eqb_prop in EA. subst b. unfold gt_neqb. destruct (gt_eqb (gi_type g) (gi_type h)); cbn [negb].
  2:{ split; [discriminate|]. intros (_ & E & _). discriminate. }
  destruct (Nat.eqb_spec (gi_corners g) (gi_corners h)) as [EC|EC]; cbn [negb].
  2:{ split; [discriminate|]. intros (_ & _ & E & _). congruence. }
  rewrite cmp_corners_true, !andthen_true, vec_ok_true, num_ok_true.
  assert (Q : obind rule (cmp_points mydim cdim tol g h) = Some true <-> exists q, rule = Some q /\ forall p w, In (p, w) q -> near_at mydim cdim tol g h p).
  { destruct rule as [q|]; cbn [obind]; [|split; [discriminate|intros (q & E & _); discriminate]]. rewrite cmp_points_true. split.
    - intro H. exists q. auto.
    - intros (q' & E & H). injection E as <-. exact H. }
  rewrite Q. split.
  - intros (A & B & C & D). split; [exists a; auto|]. split; [reflexivity|]. split; [exact EC|]. split; [intros i Hi; apply A; lia|]. auto.
  - intros (_ & _ & _ & A & B & C & D). split; [intros j Hj; apply A; lia|]. auto.
Qed.
Print Assumptions C81_compare.

Lemma compare_agree mydim cdim tol rule g h a v q : 0 <= tol ->
  gi_affine g = Some a -> gi_affine h = Some a -> agree_corners cdim g h -> gi_volume g = Some v -> gi_volume h = Some v ->
  rule = Some q -> (forall p w, In (p, w) q -> agree_at mydim cdim g h p) ->
  compareGeometries mydim cdim tol rule g h = Some true.
Proof.
  intros Ht EA EB (HT & HC & HK & HZ) EV EW -> HP. apply C81_compare. split; [exists a; auto|]. split; [exact HT|]. split; [exact HC|].
  split; [intros i Hi; eapply both_mono; [|now apply HK]; intros; now apply near0|].
  split; [eapply both_mono; [|exact HZ]; intros; now apply near0|].
  split; [exists v, v; repeat split; auto; rewrite Rminus_diag_eq, Rabs_R0 by reflexivity; exact Ht|].
  exists q. split; [reflexivity|]. intros p w I. apply agree_near; auto. now apply (HP p w).
Qed.

(** ** finite element geometries of order one and multilinear geometries *)
Lemma usable_nice mydim tol g x : 0 <= tol < 1 -> usable tol (ml_id g) mydim x -> nice mydim tol g x.
Proof. intros Ht [H|[H I]]; [now apply nice_smooth|now apply nice_inside]. Qed.
Lemma cub_prisms id : forall dim, cubT (topo_of id dim) -> prisms (lt id dim).
Proof.
  induction dim as [|d IH]; intro H; [exact I|]. rewrite lt_S. rewrite topo_S in H. destruct (N.testbit id (N.of_nat d)); cbn [orb].
  - cbn [prisms cubT] in *. now apply IH.
  - cbn [cubT] in H. apply topo_Pt in H. subst d. cbn. exact I.
Qed.
Lemma sim_corners mydim cdim g : (ml_id g < bit mydim)%N -> simT (topo_of (ml_id g) mydim) -> length (ml_corners g) = S mydim ->
  corners_affine mydim cdim g (nth 0 (ml_corners g) vzero) (fun j k => nth (S j) (ml_corners g) vzero k - nth 0 (ml_corners g) vzero k).
Proof.
  intros Hid HS L i c p Hc Hp k Hk. assert (Hi : (i < S mydim)%nat) by (rewrite <- L; apply nth_error_Some; congruence).
  assert (P := C16_simplex_corners (ml_id g) mydim i p ltac:(now rewrite <- bit_pow) ltac:(now apply isSimplex_simT) Hp).
  rewrite <- (nth_error_nth _ _ vzero Hc). destruct i as [|i].
  - rewrite rsum_0; [ring|]. intros j Hj. rewrite P. cbn [Nat.eqb]. ring.
  - rewrite (rsum_ext mydim _ (fun j => (nth (S j) (ml_corners g) vzero k - nth 0 (ml_corners g) vzero k) * (if Nat.eqb i j then 1 else 0))).
    + rewrite (rsum_one mydim i (fun j => nth (S j) (ml_corners g) vzero k - nth 0 (ml_corners g) vzero k)) by lia. ring.
    + intros j Hj. rewrite P. reflexivity.
Qed.

Section LM.
Variables (mydim cdim : nat) (tol : R) (g : MLGeo) (h : LFEGeo).
Hypothesis (Hd : (mydim < 256)%nat) (Ht : 0 <= tol < 1).
Hypothesis wf : ml_wf mydim g.
Hypothesis Eid : lf_id h = ml_id g.
Hypothesis Ev : lf_vertices h = ml_corners g.
Hypothesis HL : lagrange (ml_id g) mydim (lf_fe h).

Lemma lm_lengths x : length (fe_values (lf_fe h) x) = length (lf_vertices h) /\ length (fe_jacobians (lf_fe h) x) = length (lf_vertices h).
Proof.
  rewrite Ev, (ml_wf_nv mydim g wf), <- nv_verts. destruct HL as [[HS ->]|[HS ->]]; cbn [P1 Q1 fe_values fe_jacobians].
  - apply isSimplex_simT in HS; [|apply wf]. rewrite (simT_verts_length _ HS), tdim_topo_of. apply p1_length.
  - apply isCube_cubT in HS; [|assumption|apply wf]. rewrite (cubT_verts_length _ HS), tdim_topo_of. apply q1_length.
Qed.
Lemma lm_map jv jm jk x : usable tol (ml_id g) mydim x ->
  exists u v J A, lf_global cdim h x = Some u /\ mlg_global mydim cdim tol jv g x = Some v /\ veq cdim u v /\
    lf_jacobian mydim cdim h x = Some J /\ mlg_jacobianTransposed mydim cdim tol jm jk g x = Some A /\ meq cdim mydim J (mtr A).
Proof.
  intro HX. destruct (lm_lengths x) as [L1 L2].
  destruct (C57_global cdim h x L1) as (u & Eu & Vu). destruct (C57_jacobian mydim cdim h x L2) as (J & EJ & VJ).
  rewrite Ev in Vu, VJ. assert (LN := ml_wf_nv mydim g wf). exists u.
  destruct HL as [[HS EF]|[HS EF]].
  - apply isSimplex_simT in HS; [|apply wf].
    assert (LS : length (ml_corners g) = S mydim) by (rewrite LN, <- nv_verts, (simT_verts_length _ HS), tdim_topo_of; reflexivity).
    assert (HA := sim_corners mydim cdim g (proj1 wf) HS LS). set (o := nth 0 (ml_corners g) vzero) in *.
    assert (NX := usable_nice mydim tol g x Ht HX).
    destruct (affine_global mydim cdim tol ltac:(lra) g wf jv _ _ x HA NX) as (v & E1 & V1).
    destruct (affine_jt mydim cdim tol ltac:(lra) g wf jm jk _ _ x HA NX) as (A & E2 & V2).
    exists v, J, A. split; [exact Eu|]. split; [exact E1|]. split; [|split; [exact EJ|split; [exact E2|]]].
    + intros k Hk. rewrite Vu, V1 by assumption. rewrite EF, LS. cbn [P1 fe_values]. rewrite rsum_shift, p1_0. fold o.
      rewrite (rsum_ext mydim (fun i => nth (S i) (p1_values mydim x) 0 * nth (S i) (ml_corners g) vzero k)
        (fun i => o k * x i + (nth (S i) (ml_corners g) vzero k - o k) * x i)) by (intros i Hi; rewrite p1_S by assumption; ring).
      rewrite rsum_plus, rsum_scal. ring.
    + intros k j Hk Hj. rewrite VJ by assumption. unfold mtr. rewrite V2 by assumption. rewrite EF, LS. cbn [P1 fe_jacobians].
      rewrite rsum_shift, p1_jac_0 by assumption. fold o.
      rewrite (rsum_ext mydim _ (fun i => nth (S i) (ml_corners g) vzero k * (if Nat.eqb j i then 1 else 0))).
      * rewrite (rsum_one mydim j (fun i => nth (S i) (ml_corners g) vzero k)) by assumption. ring.
      * intros i Hi. rewrite p1_jac_S, Nat.eqb_sym by assumption. ring.
  - apply isCube_cubT in HS; [|assumption|apply wf]. assert (HP := cub_prisms _ _ HS).
    eexists _, J, _. split; [exact Eu|]. split; [apply global_spec; auto; lra|]. split; [|split; [exact EJ|split; [apply jt_value; auto; lra|]]].
    + intros k Hk. rewrite Vu by assumption. unfold vset. rewrite (proj2 (Nat.ltb_lt k cdim)) by assumption. unfold comb. rewrite LN. apply rsum_ext.
      intros i Hi. f_equal. rewrite EF. cbn [Q1 fe_values]. rewrite <- nv_lt in Hi. rewrite (shapeC_q1 tol _ HP) by assumption. rewrite tdim_lt. apply q1_nth.
      now rewrite (prisms_nv _ HP), tdim_lt in Hi.
    + intros k j Hk Hj. rewrite VJ by assumption. unfold mtr. rewrite (proj2 (Nat.ltb_lt k cdim)), (proj2 (Nat.ltb_lt j mydim)) by assumption. cbn [andb].
      unfold comb. rewrite LN. apply rsum_ext.
      intros i Hi. f_equal. rewrite EF. cbn [Q1 fe_jacobians]. rewrite <- nv_lt in Hi. rewrite (dshapeC_q1 tol _ HP) by (rewrite ?tdim_lt; assumption). rewrite tdim_lt. apply q1_jac; [|assumption].
      now rewrite (prisms_nv _ HP), tdim_lt in Hi.
Qed.
End LM.

(** The Lagrange geometry of order one and the multilinear geometry with the same corners are
    the same map with the same derivative, and have the same corners and centre. *)
Theorem C81_lagrange_map :
  forall mydim cdim tol jv jm jk j1 j2 tolf junk ret l1 l2 rule opts g h,
    (mydim < 256)%nat -> 0 <= tol < 1 / 2 -> ml_wf mydim g -> lf_id h = ml_id g -> lf_ref h = ml_ref g -> lf_vertices h = ml_corners g ->
    lagrange (ml_id g) mydim (lf_fe h) ->
    agree_corners cdim (gi_lf mydim cdim tolf junk ret l1 l2 rule opts h) (gi_ml mydim cdim tol jv jm jk j1 j2 g) /\
    forall x, usable tol (ml_id g) mydim x ->
      both (veq cdim) (lf_global cdim h x) (mlg_global mydim cdim tol jv g x) /\
      both (meq cdim mydim) (lf_jacobian mydim cdim h x) (mlg_jacobian mydim cdim tol jm jk g x) /\
      both (meq mydim cdim) (lf_jacobianTransposed mydim cdim h x) (mlg_jacobianTransposed mydim cdim tol jm jk g x).
Proof.
  intros mydim cdim tol jv jm jk j1 j2 tolf junk ret l1 l2 rule opts g h Hd Ht wf EI ER EV HL.
  assert (LM := fun jv jm jk x => lm_map mydim cdim tol g h Hd ltac:(lra) wf EV HL jv jm jk x).
  assert (Hid2 : (ml_id g < 2 ^ N.of_nat mydim)%N) by (rewrite <- bit_pow; apply wf).
  split.
  - split; [cbn [gi_lf gi_ml gi_type]; rewrite EI; apply gt_eqb_refl|]. split; [cbn [gi_lf gi_ml gi_corners]; unfold lf_corners, mlg_cornercount; now rewrite EI|]. split.
    + intros i Hi. cbn [gi_lf gi_ml gi_corners gi_corner] in *. unfold lf_corners, lf_corner, mlg_corner in *. rewrite EI, ER in *. unfold re_position. rewrite Nat.eqb_refl.
      assert (LC : (i < length (ml_corners g))%nat) by (destruct wf as (_ & _ & ->); exact Hi). rewrite <- C16_corner_count in Hi.
      set (p := nth i (referenceCorners (ml_id g) mydim) vzero). assert (Ep : nth_error (referenceCorners (ml_id g) mydim) i = Some p) by now apply nth_error_nth'.
      rewrite Ep. cbn [obind]. destruct (lm_lengths mydim g h Hd wf EV HL p) as [L1 _]. destruct (C57_global cdim h p L1) as (u & Eu & Vu).
      exists u, (nth i (ml_corners g) vzero). split; [exact Eu|]. split; [now apply nth_error_nth'|]. intros k Hk. rewrite Vu by assumption. rewrite EV.
      destruct (C80_kronecker (ml_id g) mydim i i p Hid2 Hd Ep) as [_ _].
      rewrite (rsum_ext _ _ (fun j => if Nat.eqb j i then nth j (ml_corners g) vzero k else 0)).
      * apply (rsum_delta (length (ml_corners g)) i (fun j => nth j (ml_corners g) vzero k)). exact LC.
      * intros j Hj. destruct (C80_kronecker (ml_id g) mydim j i p Hid2 Hd Ep) as [K1 K2]. rewrite <- EV, <- L1 in Hj.
        replace (nth j (fe_values (lf_fe h) p) 0) with (if Nat.eqb j i then 1 else 0); [destruct (Nat.eqb j i); ring|].
        destruct HL as [[HS EF]|[HS EF]]; rewrite EF in *; cbn [P1 Q1 fe_values] in *.
        -- symmetry. apply K1; auto. rewrite (proj1 (p1_length mydim p)) in Hj. lia.
        -- symmetry. apply K2; auto. now rewrite (proj1 (q1_length mydim p)) in Hj.
    + cbn [gi_lf gi_ml gi_center]. unfold lf_center, mlg_center. rewrite EI, ER. destruct (P_ML5.center_spec mydim g wf) as (p & E & V). rewrite E. cbn [obind].
      destruct (LM jv jm jk p) as (u & v & J & A & E1 & E2 & E3 & _); [|exists u, v; auto]. left.
      apply (P_ML5.smooth_ext _ _ (meanT (topo_of (ml_id g) mydim))); [intros k Hk; symmetry; apply V; now rewrite tdim_topo in Hk|]. apply meanT_smooth. lra.
  - intros x U. destruct (LM jv jm jk x U) as (u & v & J & A & E1 & E2 & E3 & E4 & E5 & E6). split; [exists u, v; auto|].
    unfold mlg_jacobian, lf_jacobianTransposed. rewrite E4, E5. cbn [option_map]. split.
    + eexists _, _. split; [reflexivity|]. split; [reflexivity|]. intros i j Hi Hj. now apply E6.
    + eexists _, _. split; [reflexivity|]. split; [reflexivity|]. intros i j Hi Hj. rewrite E6 by assumption. reflexivity.
Qed.
Print Assumptions C81_lagrange_map.

(** where the derivative has full rank, the inverses and integration elements agree as well *)
Theorem C81_lagrange_multilinear :
  forall mydim cdim tol jv jm jk j1 j2 tolf junk ret l1 l2 rule opts g h x A,
    (mydim <= cdim)%nat -> (mydim < 256)%nat -> 0 <= tol < 1 -> ml_wf mydim g -> lf_vertices h = ml_corners g ->
    lagrange (ml_id g) mydim (lf_fe h) -> usable tol (ml_id g) mydim x ->
    mlg_jacobianTransposed mydim cdim tol jm jk g x = Some A -> row_independent mydim cdim A ->
    agree_at mydim cdim (gi_lf mydim cdim tolf junk ret l1 l2 rule opts h) (gi_ml mydim cdim tol jv jm jk j1 j2 g) x.
Proof.
  intros mydim cdim tol jv jm jk j1 j2 tolf junk ret l1 l2 rule opts g h x A Hm Hd Ht wf EV HL U EA HR.
  destruct (lm_map mydim cdim tol g h Hd Ht wf EV HL jv jm jk x U) as (u & v & J & A' & E1 & E2 & E3 & E4 & E5 & E6).
  rewrite EA in E5. injection E5 as <-. destruct (pinv_exists mydim cdim A Hm HR) as (X & d & HP).
  apply (std_agree mydim cdim _ _ x v A X d).
  - exact (lf_std mydim cdim Hm x v A X d HR HP tolf junk ret l1 l2 rule opts h u J E1 E3 E4 E6).
  - apply (ml_std mydim cdim Hm x v A X d HR HP tol jv jm jk j1 j2 g v A E2); [intros k Hk; reflexivity|exact EA|intros i j Hi Hj; reflexivity].
Qed.
Print Assumptions C81_lagrange_multilinear.

(** Whatever class represents an affine map of full rank, compareGeometries finds no
    difference, not even with tolerance zero. *)
Theorem C81_affine_classes :
  forall mydim cdim tol id r o M g h,
    (mydim <= cdim)%nat -> (mydim < 256)%nat -> 0 < tol < 1 / 2 -> (id < 2 ^ N.of_nat mydim)%N -> re_infos id mydim = Some r ->
    row_independent mydim cdim M -> affine_instance mydim cdim tol id r o M g -> affine_instance mydim cdim tol id r o M h ->
    (forall x, usable tol id mydim x -> agree_at mydim cdim g h x) /\ agree_corners cdim g h /\
    forall ctol q, 0 <= ctol -> (forall p w, In (p, w) q -> usable tol id mydim p) ->
      compareGeometries mydim cdim ctol (Some q) g h = Some true.
Proof.
  intros mydim cdim tol id r o M g h Hm Hd Ht Hid Hr HR Ig Ih. rewrite <- bit_pow in Hid.
  destruct (pinv_exists mydim cdim M Hm HR) as (X & d & HP).
  assert (Lg := instance_like mydim cdim tol id r o M X d Hm Hd Ht Hid Hr HR HP g Ig).
  assert (Lh := instance_like mydim cdim tol id r o M X d Hm Hd Ht Hid Hr HR HP h Ih).
  destruct (aff_like_agree _ _ _ _ _ _ _ _ _ _ Lg Lh) as (A & B & C & D & E & F). split; [exact F|]. split; [exact A|].
  intros ctol q Hc HQ. apply (compare_agree mydim cdim ctol (Some q) g h true _ q Hc B C A D E eq_refl). intros p w I. apply F. now apply (HQ p w).
Qed.
Print Assumptions C81_affine_classes.

(** The MappedGeometry of a finite element function over the reference element and the
    LocalFiniteElementGeometry with the coefficients as vertices are the same, for every
    finite element that looks at mydim coordinates only. *)
Theorem C81_mapped_lfe :
  forall mydim cdim ret j1 j2 rule opts ret' j1' j2' tolf junk l0 l1 l2 rule' opts' r base f g h,
    (mydim <= cdim)%nat -> (lf_id h < 2 ^ N.of_nat mydim)%N -> re_infos (lf_id h) mydim = Some r -> lf_ref h = r ->
    reg_make mydim (lf_id h) r ret' j1' j2' = Some base -> mg_geo g = reg_wrapped mydim base ->
    lf_fe h = lff_fe f -> lf_vertices h = lff_coefficients f ->
    (forall x, lff_eval cdim f x = Some (mg_map g x)) -> (forall x, lff_derivative mydim cdim f x = Some (mg_dmap g x)) ->
    (forall x y, veq mydim x y -> fe_values (lff_fe f) x = fe_values (lff_fe f) y) ->
    let G := gi_mg mydim cdim mydim ret j1 j2 rule opts g in
    let H := gi_lf mydim cdim tolf junk l0 l1 l2 rule' opts' h in
    agree_corners cdim G H /\
    forall x, both (veq cdim) (gi_global G x) (gi_global H x) /\ both (meq cdim mydim) (gi_jacobian G x) (gi_jacobian H x) /\
      (col_independent cdim mydim (mg_dmap g x) -> agree_at mydim cdim G H x).
Proof.
  intros mydim cdim ret j1 j2 rule opts ret' j1' j2' tolf junk l0 l1 l2 rule' opts' r base f g h Hm Hid Hr ER EB EW EF EV HE HD HV G H.
  destruct (reg_identity mydim (lf_id h) r _ _ _ _ EB) as (BI & BR & BG).
  assert (GL : forall x, lf_global cdim h x = Some (mg_map g x)).
  { intro x. rewrite <- HE. unfold lf_global, lff_eval. now rewrite EF, EV. }
  assert (JL : forall x, lf_jacobian mydim cdim h x = Some (mg_dmap g x)).
  { intro x. rewrite <- HD. unfold lf_jacobian, lff_derivative. now rewrite EF, EV. }
  assert (MX : forall x y, veq mydim x y -> mg_map g x = mg_map g y).
  { intros x y E. assert (Q : lff_eval cdim f x = lff_eval cdim f y) by (unfold lff_eval; now rewrite (HV x y E)). rewrite !HE in Q. congruence. }
  assert (GM : forall x, mg_global g x = Some (mg_map g x)) by (intro x; unfold mg_global; now rewrite EW).
  assert (JM : forall x, exists J, mg_jacobian mydim g x = Some J /\ meq cdim mydim J (mg_dmap g x)).
  { intro x. unfold mg_jacobian. rewrite EW. cbn [reg_wrapped wg_global wg_jacobian obind]. eexists. split; [reflexivity|]. intros i j Hi Hj.
    rewrite (rsum_ext mydim _ (fun k => if Nat.eqb k j then mg_dmap g x i k else 0)).
    - now rewrite (rsum_delta mydim j (fun k => mg_dmap g x i k)).
    - intros k Hk. destruct (Nat.eqb k j); ring. }
  split.
  - unfold G, H. split; [cbn [gi_mg gi_lf gi_type]; rewrite EW; cbn [reg_wrapped wg_id]; rewrite BI; apply gt_eqb_refl|].
    split; [cbn [gi_mg gi_lf gi_corners]; rewrite EW; cbn [reg_wrapped wg_id]; now rewrite BI|]. split.
    + intros i Hi. cbn [gi_mg gi_lf gi_corners gi_corner] in *. rewrite EW in Hi. cbn [reg_wrapped wg_id] in Hi. rewrite BI in Hi.
      unfold mg_corner, lf_corner. rewrite EW. cbn [reg_wrapped wg_corner]. unfold ag_corner. rewrite BI, BR, ER.
      unfold re_position. rewrite Nat.eqb_refl. rewrite <- C16_corner_count in Hi. rewrite (nth_error_nth' _ vzero Hi). cbn [obind option_map]. rewrite GL.
      eexists _, _. split; [reflexivity|]. split; [reflexivity|]. rewrite (MX _ _ (BG _)). intros k Hk. reflexivity.
    + cbn [gi_mg gi_lf gi_center]. unfold mg_center, lf_center. rewrite EW. cbn [reg_wrapped wg_center]. unfold ag_center. rewrite BI, BR, ER.
      rewrite <- bit_pow in Hid. destruct (center_pos mydim (lf_id h) r Hid Hr) as (p & E & _). rewrite E. cbn [obind option_map]. rewrite GL.
      eexists _, _. split; [reflexivity|]. split; [reflexivity|]. rewrite (MX _ _ (BG _)). intros k Hk. reflexivity.
  - intro x. destruct (JM x) as (J & EJ & VJ). split; [|split].
    + unfold G, H. cbn [gi_mg gi_lf gi_global]. rewrite GM, GL. eexists _, _. split; [reflexivity|]. split; [reflexivity|]. intros k Hk. reflexivity.
    + unfold G, H. cbn [gi_mg gi_lf gi_jacobian]. rewrite EJ, JL. eexists _, _. split; [reflexivity|]. split; [reflexivity|]. exact VJ.
    + intro HC. set (A := mtr (mg_dmap g x)).
      assert (HR : row_independent mydim cdim A) by (intros v Hv; apply HC; intros j Hj; exact (Hv j Hj)).
      destruct (pinv_exists mydim cdim A Hm HR) as (X & d & HP). apply (std_agree mydim cdim G H x (mg_map g x) A X d).
      * apply (mg_std mydim cdim Hm x _ A X d HR HP mydim ret j1 j2 rule opts g (mg_map g x) J (GM x)); [intros k Hk; reflexivity|exact EJ|exact VJ].
      * apply (lf_std mydim cdim Hm x _ A X d HR HP tolf junk l0 l1 l2 rule' opts' h (mg_map g x) (mg_dmap g x) (GL x)); [intros k Hk; reflexivity|apply JL|intros i j Hi Hj; reflexivity].
Qed.
Print Assumptions C81_mapped_lfe.

(** Mapping a geometry is the same as composing the map with global() and handing it to the
    LocalDerivativeGeometry. *)
Theorem C81_local_derivative :
  forall mydim gdim cdim ret j1 j2 base G F DF (w : WrappedGeo) (a : bool) x,
    (forall x, wg_global w x = Some (G x)) ->
    let m1 := {| mg_map := F; mg_dmap := DF; mg_geo := w; mg_affine := a |} in
    let m2 := {| mg_map := fun x => F (G x); mg_dmap := fun x => DF (G x); mg_geo := ldg_wrapped mydim base (wg_jacobian w); mg_affine := a |} in
    mg_global m2 x = mg_global m1 x /\ mg_jacobian gdim m2 x = mg_jacobian gdim m1 x /\
    mg_integrationElement mydim gdim cdim j1 j2 m2 x = mg_integrationElement mydim gdim cdim j1 j2 m1 x /\
    mg_jacobianInverse mydim gdim cdim ret j1 j2 m2 x = mg_jacobianInverse mydim gdim cdim ret j1 j2 m1 x.
Proof.
  intros mydim gdim cdim ret j1 j2 base G F DF w a x HG m1 m2.
  assert (E1 : mg_global m2 x = mg_global m1 x) by (unfold m1, m2, mg_global; cbn [mg_geo mg_map ldg_wrapped wg_global option_map]; now rewrite HG).
  assert (E2 : mg_jacobian gdim m2 x = mg_jacobian gdim m1 x).
  { unfold m1, m2, mg_jacobian. cbn [mg_geo mg_dmap ldg_wrapped wg_global wg_jacobian]. rewrite HG. reflexivity. }
  split; [exact E1|]. split; [exact E2|]. unfold mg_integrationElement, mg_jacobianTransposed, mg_jacobianInverse. now rewrite E2.
Qed.
Print Assumptions C81_local_derivative.

(** ** when the answers differ *)
(** the flag of LocalFiniteElementGeometry: order at most one, and the corners within the
    tolerance of the affine map through the corners of the reference simplex *)
Theorem C57_affine_criterion :
  forall mydim cdim tol junk ret j1 j2 g F, (1 < mydim <= cdim)%nat -> (fe_order (lf_fe g) <= 1)%Z -> isSimplex (GT2 (lf_id g) mydim) = false ->
    (forall x, lf_global cdim g x = Some (F x)) ->
    let v i := F (nth i (referenceCorners 0 mydim) vzero) in
    let A j k := v (S j) k - v 0%nat k in
    row_independent mydim cdim A ->
    exists b, lf_affineImpl mydim cdim tol junk ret j1 j2 g = Some b /\
      (b = true <-> forall i p, nth_error (referenceCorners (lf_id g) mydim) i = Some p ->
         two_norm cdim (fun k => v 0%nat k + mvec mydim (mtr A) p k - F p k) <= tol).
Proof.
  intros mydim cdim tol junk ret j1 j2 g F Hd Ho HS HF v A HR. unfold lf_affineImpl.
  destruct (Nat.eqb_spec mydim 0) as [|N0]; [lia|]. rewrite (proj2 (Z.ltb_ge 1 (fe_order (lf_fe g)))) by lia.
  destruct (Nat.eqb_spec mydim 1) as [|N1]; [lia|]. rewrite HS.
  change (gt_id (simplex mydim)) with 0%N. set (sid := 0%N).
  assert (V : (sid < bit mydim)%N). { rewrite bit_pow. unfold sid. assert (2 ^ N.of_nat mydim <> 0)%N by (apply N.pow_nonzero; discriminate). lia. }
  destruct (re_infos_spec sid mydim V) as (r & Er & _). cbv zeta. rewrite Er. cbn [obind].
  destruct (simplex_pos mydim r ltac:(lia)) as [SZ _]. change (gt_id (simplex mydim)) with sid in SZ. rewrite SZ.
  assert (LR : length (referenceCorners sid mydim) = S mydim) by now rewrite C16_corner_count.
  assert (RP : forall i, (i <= mydim)%nat -> re_position sid mydim r i mydim = Some (nth i (referenceCorners sid mydim) vzero)).
  { intros i Hi. unfold re_position. rewrite Nat.eqb_refl. apply nth_error_nth'. lia. }
  destruct (ocollect_ok (fun i => obind (re_position sid mydim r i mydim) (lf_global cdim g)) (S mydim)) as [l El].
  { intros i Hi. rewrite RP by lia. cbn [obind]. rewrite HF. discriminate. }
  rewrite El. cbn [obind]. destruct (ocollect_spec _ _ _ El) as [LL LN].
  assert (Lc : forall i, (i <= mydim)%nat -> nth_error l i = Some (v i)).
  { intros i Hi. rewrite LN by lia. rewrite RP by assumption. cbn [obind]. apply HF. }
  destruct (C28_construction mydim cdim sid r l junk ret j1 j2 ltac:(lia)) as [ag Ea]; [lia| |].
  { intros w Hw i Hi. apply (HR w); [|exact Hi]. intros k Hk. rewrite <- (Hw k Hk). unfold mvec, mtr. apply rsum_ext. intros j Hj.
    rewrite (nth_error_nth _ _ vzero (Lc (S j) ltac:(lia))), (nth_error_nth _ _ vzero (Lc 0%nat ltac:(lia))). unfold A. ring. }
  rewrite Ea. cbn [obind]. destruct (corners_inv _ _ _ _ _ _ _ _ _ _ Ea) as (o' & Eo & _ & _ & EO & EJ).
  rewrite (Lc 0%nat) in Eo by lia. injection Eo as <-.
  assert (AG : forall x k, ag_global mydim ag x k = v 0%nat k + mvec mydim (mtr A) x k).
  { intros x k. unfold ag_global. rewrite EO. f_equal. unfold mvec, mtr. apply rsum_ext. intros i Hi. destruct (EJ i Hi) as (c & Ec & Jc). rewrite Jc.
    rewrite (Lc (S i)) in Ec by lia. injection Ec as <-. unfold A. ring. }
  assert (CK : forall n i, (i + n <= lf_corners mydim g)%nat -> exists b, lf_check mydim cdim tol g ag n i = Some b /\
     (b = true <-> forall j p, (i <= j < i + n)%nat -> nth_error (referenceCorners (lf_id g) mydim) j = Some p ->
        two_norm cdim (fun k => v 0%nat k + mvec mydim (mtr A) p k - F p k) <= tol)).
  { induction n; intros i Hi; [exists true; split; [reflexivity|split; [intros _ j p Hj; lia|reflexivity]]|]. cbn [lf_check].
    unfold re_position. rewrite Nat.eqb_refl.
    destruct (nth_error (referenceCorners (lf_id g) mydim) i) as [p|] eqn:E.
    2:{ apply nth_error_None in E. rewrite C16_corner_count in E. unfold lf_corners in Hi. lia. }
    cbn [obind]. rewrite HF. cbn [obind].
    assert (NE : two_norm cdim (fun k => ag_global mydim ag p k - F p k) = two_norm cdim (fun k => v 0%nat k + mvec mydim (mtr A) p k - F p k)).
    { unfold two_norm. f_equal. apply rsum_ext. intros k Hk. now rewrite AG. }
    rewrite NE. destruct (Rltb tol _) eqn:L.
    - apply Rltb_true in L. exists false. split; [reflexivity|]. split; [discriminate|]. intro Q. specialize (Q i p ltac:(lia) E). lra.
    - apply Rltb_false in L. destruct (IHn (S i) ltac:(lia)) as (b & Eb & Hb). exists b. split; [exact Eb|]. rewrite Hb. split.
      + intros Q j q Hj Eq. destruct (Nat.eq_dec j i) as [->|]; [assert (q = p) by congruence; subst q; exact L|apply (Q j q); [lia|exact Eq]].
      + intros Q j q Hj Eq. apply (Q j q); [lia|exact Eq]. }
  destruct (CK (lf_corners mydim g) 0%nat ltac:(lia)) as (b & Eb & Hb). exists b. split; [exact Eb|]. rewrite Hb. split.
  - intros Q i p Ep. apply (Q i p); [|exact Ep]. split; [lia|]. unfold lf_corners. rewrite <- C16_corner_count. apply nth_error_Some. congruence.
  - intros Q j p _ Ep. exact (Q j p Ep).
Qed.
Print Assumptions C57_affine_criterion.

Definition v2 (a b : R) : Vec := fun k => match k with 0%nat => a | 1%nat => b | _ => 0 end.
Definition v3 (a b c : R) : Vec := fun k => match k with 0%nat => a | 1%nat => b | 2%nat => c | _ => 0 end.
Lemma q1_global cdim (h : LFEGeo) m x : lf_fe h = Q1 m -> length (lf_vertices h) = (2 ^ m)%nat ->
  exists u, lf_global cdim h x = Some u /\ forall k, (k < cdim)%nat -> u k = rsum (2 ^ m) (fun i => q1p x i m * nth i (lf_vertices h) vzero k).
Proof.
  intros EF EL. destruct (C57_global cdim h x) as (u & Eu & Vu); [rewrite EF, EL; apply q1_length|]. exists u. split; [exact Eu|].
  intros k Hk. rewrite Vu, EL, EF by assumption. apply rsum_ext. intros i Hi. f_equal. now apply q1_nth.
Qed.
Lemma lf_total cdim h m : lf_fe h = Q1 m -> length (lf_vertices h) = (2 ^ m)%nat -> exists F, forall x, lf_global cdim h x = Some (F x).
Proof.
  intros EF EL. eexists. intro x. unfold lf_global. rewrite EF, EL. cbn [Q1 fe_values]. rewrite (proj1 (q1_length m x)), Nat.eqb_refl. reflexivity.
Qed.

(** The two flags are computed with different tolerances: a square with one corner moved by
    2^-25 is affine for MultiLinearGeometry and not affine for LocalFiniteElementGeometry,
    so compareGeometries rejects the pair although it is the same map. *)
Theorem C81_flag_refuted :
  exists g h, ml_wf 2 g /\ lf_id h = ml_id g /\ lf_ref h = ml_ref g /\ lf_vertices h = ml_corners g /\ lf_fe h = Q1 2 /\
    forall jv jm jk j1 j2 junk ret l1 l2 rule opts,
      gi_affine (gi_ml 2 2 (16 * / 2 ^ 52) jv jm jk j1 j2 g) = Some true /\
      gi_affine (gi_lf 2 2 (/ 2 ^ 26) junk ret l1 l2 rule opts h) = Some false /\
      forall ctol q, compareGeometries 2 2 ctol q (gi_ml 2 2 (16 * / 2 ^ 52) jv jm jk j1 j2 g) (gi_lf 2 2 (/ 2 ^ 26) junk ret l1 l2 rule opts h) = Some false.
Proof.
  set (d := / 2 ^ 25). destruct (quad_wf (v2 0 0) (v2 1 0) (v2 0 1) (v2 (1 + d) 1)) as (r & wf).
  set (g := quad (v2 0 0) (v2 1 0) (v2 0 1) (v2 (1 + d) 1) r) in *.
  set (h := {| lf_id := 3; lf_ref := r; lf_fe := Q1 2; lf_vertices := ml_corners g |}).
  assert (D : d = / 2 ^ 25) by reflexivity. clearbody d.
  exists g, h. split; [exact wf|]. do 4 (split; [reflexivity|]). intros jv jm jk j1 j2 junk ret l1 l2 rule opts.
  assert (FA : gi_affine (gi_ml 2 2 (16 * / 2 ^ 52) jv jm jk j1 j2 g) = Some true).
  { cbn [gi_ml gi_affine]. destruct (affine_flag 2 2 (16 * / 2 ^ 52) g wf jm jk) as (jt & E & _). rewrite E. cbn [option_map fst]. f_equal.
    unfold g. cbn [quad ml_id ml_corners]. cbn [affB]. unfold bitp, edge, shift. cbn [N.lor N.testbit N.of_nat Pos.lor Pos.of_succ_nat Pos.testbit lt nv orb Nat.eqb rsum].
    rewrite !(proj2 (Rltb_true 0 (16 * / 2 ^ 52))) by lra. cbn [andb]. apply Rltb_true. cbn. rewrite D. unfold norm2. cbn. lra. }
  assert (FB : gi_affine (gi_lf 2 2 (/ 2 ^ 26) junk ret l1 l2 rule opts h) = Some false).
  { cbn [gi_lf gi_affine lf_affine]. destruct (lf_total 2 h 2 eq_refl eq_refl) as (F & HF).
    assert (VF : forall x k, (k < 2)%nat -> F x k = rsum (2 ^ 2) (fun i => q1p x i 2 * nth i (ml_corners g) vzero k)).
    { intros x k Hk. destruct (q1_global 2 h 2 x eq_refl eq_refl) as (u & E & V). rewrite HF in E. injection E as <-. now apply V. }
    assert (V0 : forall k, (k < 2)%nat -> F (nth 0 (referenceCorners 0 2) vzero) k = 0).
    { intros k Hk. rewrite VF by assumption. destruct k as [|[|k]]; [| |lia]; unfold q1p, q1_factor; cbn; unfold vzero; ring. }
    assert (V1 : forall k, (k < 2)%nat -> F (nth 1 (referenceCorners 0 2) vzero) k = v2 1 0 k).
    { intros k Hk. rewrite VF by assumption. destruct k as [|[|k]]; [| |lia]; unfold q1p, q1_factor; cbn; unfold vzero; ring. }
    assert (V2 : forall k, (k < 2)%nat -> F (nth 2 (referenceCorners 0 2) vzero) k = v2 0 1 k).
    { intros k Hk. rewrite VF by assumption. destruct k as [|[|k]]; [| |lia]; unfold q1p, q1_factor; cbn; unfold vzero; ring. }
    destruct (C57_affine_criterion 2 2 (/ 2 ^ 26) junk ret l1 l2 h F ltac:(lia)) as (b & Eb & Hb); [cbn; lia|reflexivity|exact HF| |].
    - intros w Hw. assert (W0 := Hw 0%nat ltac:(lia)). assert (W1 := Hw 1%nat ltac:(lia)). unfold mvec, mtr in W0, W1. cbn [rsum] in W0, W1.
      rewrite !V1, !V2, !V0 in W0, W1 by lia. cbn [v2] in W0, W1. intros i Hi. destruct i as [|[|i]]; [lra|lra|lia].
    - unfold lf_affine. rewrite Eb. cbn [obind option_map fst]. f_equal. destruct b; [exfalso|reflexivity].
      set (p := nth 3 (referenceCorners 3 2) vzero).
      assert (Hb' := proj1 Hb eq_refl 3%nat p eq_refl). clear Hb.
      assert (P3 : forall k, (k < 2)%nat -> F p k = v2 (1 + d) 1 k).
      { intros k Hk. rewrite VF by assumption. unfold p. destruct k as [|[|k]]; [| |lia]; unfold q1p, q1_factor; cbn; unfold vzero; ring. }
      assert (NN : two_norm 2 (fun k => F (nth 0 (referenceCorners 0 2) vzero) k + mvec 2 (mtr (fun j k => F (nth (S j) (referenceCorners 0 2) vzero) k - F (nth 0 (referenceCorners 0 2) vzero) k)) p k - F p k) = d).
      { unfold two_norm, norm2, mvec, mtr. cbn [rsum]. rewrite !V1, !V2, !V0, !P3 by lia. unfold p. cbn. unfold vzero.
        match goal with |- sqrt ?z = _ => replace z with (d * d) by ring end. apply sqrt_square. rewrite D. lra. }
      change (two_norm 2 (fun k => F (nth 0 (referenceCorners 0 2) vzero) k + mvec 2 (mtr (fun j k => F (nth (S j) (referenceCorners 0 2) vzero) k - F (nth 0 (referenceCorners 0 2) vzero) k)) p k - F p k) <= / 2 ^ 26) in Hb'.
      rewrite NN, D in Hb'. lra. }
  split; [exact FA|]. split; [exact FB|]. intros ctol q. unfold compareGeometries. rewrite FA, FB. reflexivity.
Qed.
Print Assumptions C81_flag_refuted.

(** MultiLinearGeometry takes the integration element at the centre as volume, the other
    classes use quadrature: for the frustum (x(1+z), y(1+z), z) the values are 9/4 and 7/3. *)
Definition frustum (r : RefElement) : MLGeo :=
  {| ml_id := 7; ml_ref := r; ml_corners := [v3 0 0 0; v3 1 0 0; v3 0 1 0; v3 1 1 0; v3 0 0 1; v3 2 0 1; v3 0 2 1; v3 2 2 1] |}.
Lemma frustum_jac h r x : lf_fe h = Q1 3 -> lf_vertices h = ml_corners (frustum r) ->
  exists J, lf_jacobian 3 3 h x = Some J /\
    meq 3 3 J (fun k j => match k, j with
      | 0%nat, 0%nat | 1%nat, 1%nat => 1 + x 2%nat | 0%nat, 2%nat => x 0%nat | 1%nat, 2%nat => x 1%nat | 2%nat, 2%nat => 1 | _, _ => 0 end).
Proof.
  intros EF EV. destruct (C57_jacobian 3 3 h x) as (J & EJ & VJ); [rewrite EF, EV; apply q1_length|]. exists J. split; [exact EJ|].
  intros k j Hk Hj. rewrite VJ by assumption. rewrite EF, EV. cbn [Q1 fe_jacobians].
  rewrite (rsum_ext _ _ (fun i => q1d x i 3 j * nth i (ml_corners (frustum r)) vzero k)) by (intros i Hi; f_equal; now apply q1_jac).
  destruct k as [|[|[|k]]]; [| | |lia]; (destruct j as [|[|[|j]]]; [| | |lia]); unfold q1d, q1_factor; cbn; ring.
Qed.

Theorem C81_volume_refuted :
  exists g h, ml_wf 3 g /\ lf_id h = ml_id g /\ lf_ref h = ml_ref g /\ lf_vertices h = ml_corners g /\ lf_fe h = Q1 3 /\
    forall tol jv jm jk j1 j2 tolf junk ret l1 l2 (rule : Z -> option Rule) opts, 0 <= tol < 1 / 2 -> 0 <= tolf < 1 -> (3 <= co_maxIt opts)%Z ->
      rule 1%Z <> None -> (forall p, (2 <= p)%Z -> exists q, rule p = Some q /\ rule_value (fun x => (1 + x 2%nat) ^ 2) q = 7 / 3) ->
      gi_volume (gi_ml 3 3 tol jv jm jk j1 j2 g) = Some (9 / 4) /\ gi_volume (gi_lf 3 3 tolf junk ret l1 l2 rule opts h) = Some (7 / 3).
Proof.
  destruct (re_infos_spec 7 3 ltac:(reflexivity)) as (r & Er & _).
  assert (wf : ml_wf 3 (frustum r)) by (repeat split; auto). set (g := frustum r) in *.
  set (h := {| lf_id := 7; lf_ref := r; lf_fe := Q1 3; lf_vertices := ml_corners g |}).
  exists g, h. split; [exact wf|]. do 4 (split; [reflexivity|]).
  intros tol jv jm jk j1 j2 tolf junk ret l1 l2 rule opts Ht Hf HO R1 R2.
  assert (DT : forall A : Mat, forall z x y, meq 3 3 A (fun j k => match k, j with
      | 0%nat, 0%nat | 1%nat, 1%nat => 1 + z | 0%nat, 2%nat => x | 1%nat, 2%nat => y | 2%nat, 2%nat => 1 | _, _ => 0 end) ->
      forall i1 i2, sqrtDetAAT 3 3 A i1 i2 = Some ((1 + z) ^ 2)).
  { intros A z x y E i1 i2. unfold sqrtDetAAT. cbn [Nat.eqb andb]. rewrite !E by lia. f_equal.
    match goal with |- Rabs ?e = _ => replace e with ((1 + z) ^ 2) by ring end. apply Rabs_pos_eq. apply pow2_ge_0. }
  split.
  - cbn [gi_ml gi_volume]. unfold mlg_volume. destruct (P_ML5.center_spec 3 g wf) as (p & E & V). rewrite E. cbn [obind].
    assert (U : usable tol (ml_id g) 3 p).
    { left. apply (P_ML5.smooth_ext _ _ (meanT (topo_of (ml_id g) 3))); [intros k Hk; symmetry; apply V; now rewrite tdim_topo in Hk|]. apply meanT_smooth. lra. }
    destruct (lm_map 3 3 tol g h ltac:(lia) ltac:(lra) wf eq_refl (or_intror (conj eq_refl eq_refl)) jv jm jk p U) as (u & v & J & A & _ & _ & _ & E4 & E5 & E6).
    destruct (frustum_jac h r p eq_refl eq_refl) as (J' & EJ & VJ). rewrite EJ in E4. injection E4 as <-.
    unfold mlg_integrationElement. rewrite E5. cbn [obind].
    assert (P2 : p 2%nat = 1 / 2) by (rewrite V by lia; apply cub_mean; [cbn; auto|cbn; lia]).
    rewrite (DT A (p 2%nat) (p 0%nat) (p 1%nat)).
    + cbn [obind]. change (ml_id g) with 7%N. rewrite cub_refvol by (cbn; auto; lia). rewrite P2. f_equal. field.
    + intros j k Hj Hk. transitivity (J' k j); [symmetry; now apply E6|now apply VJ].
  - cbn [gi_lf gi_volume]. unfold lf_volume.
    assert (FB : option_map fst (lf_affine 3 3 tolf junk ret l1 l2 h None) = Some false).
    { destruct (lf_total 3 h 3 eq_refl eq_refl) as (F & HF).
      assert (VF : forall x k, (k < 3)%nat -> F x k = rsum (2 ^ 3) (fun i => q1p x i 3 * nth i (ml_corners g) vzero k)).
      { intros x k Hk. destruct (q1_global 3 h 3 x eq_refl eq_refl) as (u & E & V). rewrite HF in E. injection E as <-. now apply V. }
      set (rc := referenceCorners 0 3).
      assert (V0 : forall k, (k < 3)%nat -> F (nth 0 rc vzero) k = 0).
      { intros k Hk. rewrite VF by assumption. destruct k as [|[|[|k]]]; [| | |lia]; unfold q1p, q1_factor; cbn; unfold vzero; ring. }
      assert (VS : forall j k, (j < 3)%nat -> (k < 3)%nat -> F (nth (S j) rc vzero) k = if Nat.eqb j k then 1 else 0).
      { intros j k Hj Hk. rewrite VF by assumption. destruct j as [|[|[|j]]]; [| | |lia]; (destruct k as [|[|[|k]]]; [| | |lia]); unfold q1p, q1_factor; cbn; unfold vzero; ring. }
      destruct (C57_affine_criterion 3 3 tolf junk ret l1 l2 h F ltac:(lia)) as (b & Eb & Hb); [cbn; lia|reflexivity|exact HF| |].
      - intros w Hw i Hi. specialize (Hw i Hi). unfold mvec, mtr in Hw. rewrite <- Hw.
        rewrite (rsum_ext 3 _ (fun j => if Nat.eqb j i then w j else 0)).
        + symmetry. now apply (rsum_delta 3 i w).
        + intros j Hj. fold rc. rewrite VS, V0 by assumption. destruct (Nat.eqb j i); ring.
      - unfold lf_affine. rewrite Eb. cbn [obind option_map fst]. f_equal. destruct b; [exfalso|reflexivity].
        set (p := nth 7 (referenceCorners 7 3) vzero).
        assert (Hb' := proj1 Hb eq_refl 7%nat p eq_refl). clear Hb. fold rc in Hb'.
        assert (P7 : forall k, (k < 3)%nat -> F p k = v3 2 2 1 k).
        { intros k Hk. rewrite VF by assumption. unfold p. destruct k as [|[|[|k]]]; [| | |lia]; unfold q1p, q1_factor; cbn; unfold vzero; ring. }
        unfold two_norm, norm2, mvec, mtr in Hb'. cbn [rsum] in Hb'. rewrite !VS, !V0, !P7 in Hb' by lia.
        assert (PK : p 0%nat = 1 /\ p 1%nat = 1 /\ p 2%nat = 1) by (unfold p; cbn; auto). destruct PK as (K0 & K1 & K2).
        rewrite K0, K1, K2 in Hb'. cbn [Nat.eqb v3] in Hb'.
        match type of Hb' with sqrt ?z <= _ => replace z with 2 in Hb' by ring end.
        assert (1 < sqrt 2) by (rewrite <- sqrt_1; apply sqrt_lt_1; lra). lra. }
    rewrite FB. destruct (C58_volume rule (lf_integrationElement 3 3 l1 l2 h) (fun x => (1 + x 2%nat) ^ 2) opts) as (v & Ev & p & q & Hp & Eq & -> & HC & _).
    + intro x. destruct (frustum_jac h r x eq_refl eq_refl) as (J & EJ & VJ). unfold lf_integrationElement, lf_jacobianTransposed. rewrite EJ. cbn [option_map obind].
      apply (DT _ (x 2%nat) (x 0%nat) (x 1%nat)). intros j k Hj Hk. now apply VJ.
    + intros p Hp. destruct (Z.eq_dec p 1) as [->|]; [exact R1|]. destruct (R2 p ltac:(lia)) as (q & -> & _). discriminate.
    + rewrite Ev. f_equal. assert (2 <= p)%Z by (destruct HC as [->|[? _]]; lia). destruct (R2 p) as (q' & Eq' & Q); [assumption|]. congruence.
Qed.
Print Assumptions C81_volume_refuted.

(** Closer to the apex of a simplex than the tolerance the multilinear geometry is thrown off
    and the P1 geometry is not. *)
Theorem C81_near_apex_refuted :
  forall tol, 0 < tol < 1 -> exists g h x u v, ml_wf 2 g /\ lf_id h = ml_id g /\ lf_vertices h = ml_corners g /\ lf_fe h = P1 2 /\
    inside_ref 2 g x /\ lf_global 1 h x = Some u /\ mlg_global 2 1 tol (fun _ => 0) g x = Some v /\ u 0%nat = 1 /\ v 0%nat <> 1.
Proof.
  intros tol Ht. destruct (triangle_wf (fun _ => 1) (fun _ => 1) (fun _ => 1)) as (r & wf).
  set (x := fun k => if Nat.eqb k 1 then 1 - tol / 2 else 0).
  exists (triangle (fun _ => 1) (fun _ => 1) (fun _ => 1) r), {| lf_id := 0; lf_ref := r; lf_fe := P1 2; lf_vertices := [fun _ => 1; fun _ => 1; fun _ => 1] |}, x.
  eexists _, _. split; [exact wf|]. do 3 (split; [reflexivity|]). split; [apply inside_T; cbn; lra|]. split; [reflexivity|]. split; [apply global_spec; exact wf|]. split.
  - cbn. unfold vzero. ring.
  - cbn. assert (A : away tol (1 - (1 - tol / 2)) = false).
    { destruct (away tol (1 - (1 - tol / 2))) eqn:E; [|reflexivity]. apply away_true in E; [|lra].
      rewrite Rabs_pos_eq in E by lra. lra. }
    unfold vset, comb. cbn. rewrite A. lra.
Qed.
Print Assumptions C81_near_apex_refuted.

(** the square [0,2] x [1,4] as AxisAlignedCubeGeometry and as MultiLinearGeometry *)
Example C81_example :
  exists r g, ml_wf 2 (quad (v2 0 1) (v2 2 1) (v2 0 4) (v2 2 4) r) /\ g = aac_make2 2 (v2 0 1) (v2 2 4) /\
    aac_jacobianTransposed 2 2 g 1%nat 1%nat = 3 /\ aac_jacobianTransposed 2 2 g 0%nat 1%nat = 0 /\
    forall tol jv jm jk j1 j2 ctol q, 0 < tol < 1 / 2 -> 0 <= ctol ->
      compareGeometries 2 2 ctol (Some q) (gi_aac 2 2 g) (gi_ml 2 2 tol jv jm jk j1 j2 (quad (v2 0 1) (v2 2 1) (v2 0 4) (v2 2 4) r)) = Some true.
Proof.
  destruct (quad_wf (v2 0 1) (v2 2 1) (v2 0 4) (v2 2 4)) as (r & wf). exists r, (aac_make2 2 (v2 0 1) (v2 2 4)).
  split; [exact wf|]. split; [reflexivity|]. split; [cbn; ring|]. split; [cbn; reflexivity|]. intros tol jv jm jk j1 j2 ctol q Ht Hc.
  set (g := aac_make2 2 (v2 0 1) (v2 2 4)). set (M := aac_jacobianTransposed 2 2 g).
  assert (ME : forall i j, (i < 2)%nat -> (j < 2)%nat -> M i j = if Nat.eqb i j then (if Nat.eqb i 0 then 2 else 3) else 0).
  { intros i j Hi Hj. destruct i as [|[|i]]; [| |lia]; (destruct j as [|[|j]]; [| |lia]); cbn; try reflexivity; ring. }
  destruct (C81_affine_classes 2 2 tol 3 r (v2 0 1) M (gi_aac 2 2 g) (gi_ml 2 2 tol jv jm jk j1 j2 (quad (v2 0 1) (v2 2 1) (v2 0 4) (v2 2 4) r))) as (_ & _ & H).
  - lia.
  - lia.
  - exact Ht.
  - reflexivity.
  - apply wf.
  - intros w Hw i Hi. specialize (Hw i Hi). unfold mvec, mtr in Hw. cbn [rsum] in Hw. rewrite !ME in Hw by (assumption || lia).
    destruct i as [|[|i]]; cbn [Nat.eqb] in Hw; [lra|lra|lia].
  - apply AI_cube; [reflexivity|apply C29_constructors| |intros k Hk; reflexivity|intros i j Hi Hj; reflexivity].
    intros i Hi _. destruct i as [|[|i]]; [| |lia]; cbn; lra.
  - apply AI_multilinear; [exact wf|reflexivity|]. intros i c p Ec Ep k Hk. cbn [quad ml_corners ml_id] in Ec, Ep. cbn [rsum].
    rewrite !ME by (assumption || lia).
    assert (Hi : (i < 4)%nat) by (change 4%nat with (length [v2 0 1; v2 2 1; v2 0 4; v2 2 4]); apply nth_error_Some; congruence).
    destruct i as [|[|[|[|i]]]]; [| | | |lia]; cbn in Ec, Ep; injection Ec as <-; injection Ep as <-; (destruct k as [|[|k]]; [| |lia]); cbn; unfold vzero; ring.
  - apply H; auto. intros p w _. left. cbn. auto.
Qed.
