(** Every class that can represent an affine map represents it in the same way. *)
From Coq Require Import PeanoNat NArith ZArith Bool List Reals Lia Lra.
From Verif Require Import M_Type M_RefTopo M_RefGeo M_Matrix M_Affine M_MultiLinear M_GaussNewton M_LocalFE
  S_Topo S_RefGeo S_Matrix S_MultiLinear S_GaussNewton P_AACube S_Agree P_Type P_Type2 P_Topo P_RefTopo P_RefTopo2 P_RefTopo3 P_RSum P_RefGeo P_RefGeo2 P_RefGeo3 P_RefGeo4 P_RefVol
  P_Matrix P_Matrix2 P_Matrix3 P_Matrix4 P_Matrix5 P_MxBridge P_Det P_Affine
  P_ML1 P_ML2 P_ML3 P_ML4 P_ML5 P_Normal2 P_GaussNewton P_Agree P_LocalFE T_RefGeo T_Matrix T_Affine T_GaussNewton T_LocalFE.
Import ListNotations.
Local Open Scope R_scope.

Lemma frechet_unique m n F F' p D D' : (forall x, exists a b, F x = Some a /\ F' x = Some b /\ veq n a b) ->
  frechet m n F p D -> frechet m n F' p D' -> meq n m D D'.
Proof.
  intros HE (Fp & E & H) (Fp' & E' & H') k j Hk Hj.
  destruct (Req_dec (D k j) (D' k j)) as [|NE]; [assumption|exfalso].
  set (eps := Rabs (D k j - D' k j) / 4). assert (PE : 0 < Rabs (D k j - D' k j)) by (apply Rabs_pos_lt; lra).
  assert (He : 0 < eps) by (unfold eps; lra).
  destruct (H eps He) as (d & Hd & K). destruct (H' eps He) as (d' & Hd' & K').
  set (t := Rmin d d' / 2). assert (T0 : 0 < Rmin d d') by (now apply Rmin_glb_lt). assert (T1 := Rmin_l d d'). assert (T2 := Rmin_r d d').
  set (h := fun i => if Nat.eqb i j then t else 0).
  assert (H0 : forall i, (m <= i)%nat -> h i = 0) by (intros i Hi; unfold h; destruct (Nat.eqb_spec i j); [lia|reflexivity]).
  assert (HH : forall i, Rabs (h i) <= t) by (intro i; unfold h; destruct (Nat.eqb i j); [rewrite Rabs_pos_eq; unfold t; lra|rewrite Rabs_R0; unfold t; lra]).
  destruct (K h H0) as (Fq & EQ & V); [intros i _; specialize (HH i); unfold t in *; lra|].
  destruct (K' h H0) as (Fq' & EQ' & V'); [intros i _; specialize (HH i); unfold t in *; lra|].
  destruct (HE p) as (a & b & A1 & A2 & A3). destruct (HE (fun i => p i + h i)) as (a' & b' & B1 & B2 & B3).
  rewrite E in A1. injection A1 as <-. rewrite E' in A2. injection A2 as <-. rewrite EQ in B1. injection B1 as <-. rewrite EQ' in B2. injection B2 as <-.
  specialize (V k Hk). specialize (V' k Hk). rewrite <- (A3 k Hk), <- (B3 k Hk) in V'.
  assert (SD : forall G : Mat, rsum m (fun i => G k i * h i) = G k j * t).
  { intro G. rewrite (rsum_ext m _ (fun i => if Nat.eqb i j then G k i * t else 0)).
    - now rewrite (rsum_delta m j (fun i => G k i * t)).
    - intros i Hi. unfold h. destruct (Nat.eqb i j); ring. }
  assert (SH : rsum m (fun i => Rabs (h i)) = t).
  { rewrite (rsum_ext m _ (fun i => if Nat.eqb i j then t else 0)).
    - now rewrite (rsum_delta m j (fun _ => t)).
    - intros i Hi. unfold h. destruct (Nat.eqb i j); [apply Rabs_pos_eq; unfold t; lra|apply Rabs_R0]. }
  rewrite SD, SH in V, V'.
  assert (Q : Rabs ((D k j - D' k j) * t) <= 2 * (eps * t)).
  { replace ((D k j - D' k j) * t) with ((Fq k - Fp k - D' k j * t) - (Fq k - Fp k - D k j * t)) by ring.
    eapply Rle_trans; [apply Rabs_triang|]. rewrite Rabs_Ropp. lra. }
  rewrite Rabs_mult, (Rabs_pos_eq t) in Q by (unfold t; lra). unfold eps in Q. assert (0 < t) by (unfold t; lra). nra.
Qed.

Lemma cub_mean T k : cubT T -> (k < tdim T)%nat -> meanT T k = 1 / 2.
Proof.
  revert k. induction T as [|b IH|b IH]; intros k H Hk; cbn [cubT tdim] in *; [lia| |].
  - destruct (Nat.eq_dec k (tdim b)) as [->|]; [apply meanT_Pri_last|]. rewrite meanT_Pri by lia. apply IH; auto; lia.
  - subst b. cbn [tdim] in Hk. replace k with (tdim Pt) by (cbn; lia). rewrite meanT_Pyr_last. cbn. lra.
Qed.
Lemma cub_vol T : cubT T -> tvolinv T = 1%N.
Proof. induction T as [|b IH|b IH]; cbn [cubT tvolinv]; auto. intros ->. reflexivity. Qed.
Lemma cub_pred id d : cubT (topo_of id d) -> cubT (topo_of id (pred d)).
Proof.
  destruct d as [|d]; [auto|]. cbn [pred]. rewrite topo_S. destruct (N.testbit id (N.of_nat d)); cbn [cubT]; [auto|]. intros ->. exact I.
Qed.
Lemma cub_refvol id d : (d < 256)%nat -> cubT (topo_of id d) -> referenceVolume id d = 1.
Proof.
  intros Hd H. rewrite (proj2 (referenceVolume_iff id d Hd)); rewrite volumeT_tvol; unfold tvol; rewrite cub_vol by (try apply cub_pred; assumption); cbn; lra.
Qed.
Lemma cub_type id d : (d < 256)%nat -> isCube (GT2 id d) = true -> gt_eqb (GT2 id d) (cube d) = true.
Proof.
  intros Hd HC. assert (Q := proj1 (isCube_iff (GT2 id d) ltac:(cbn [GT2 gt_dim]; rewrite to_uchar_small by assumption; exact Hd)) HC).
  cbn [GT2 gt_dim] in Q. rewrite to_uchar_small in Q by assumption. exact Q.
Qed.

Lemma geometry_0 id d : re_geometry id d 0 0 = Some (vzero, midentity d).
Proof. unfold re_geometry. destruct d; reflexivity. Qed.

(** ** the common description *)
Definition aff (mydim : nat) (o : Vec) (M : Mat) (x : Vec) : Vec := fun k => o k + rsum mydim (fun j => M j k * x j).
Definition aff_like (mydim cdim : nat) (tol : R) (id : N) (o : Vec) (M X : Mat) (d : R) (g : GeoI) : Prop :=
  gi_affine g = Some true /\ gt_eqb (gi_type g) (GT2 id mydim) = true /\ gi_corners g = size id mydim mydim /\
  (forall i p, nth_error (referenceCorners id mydim) i = Some p -> exists u, gi_corner g i = Some u /\ veq cdim u (aff mydim o M p)) /\
  (exists u, gi_center g = Some u /\ veq cdim u (aff mydim o M (meanT (topo_of id mydim)))) /\
  gi_volume g = Some (d * referenceVolume id mydim) /\
  (forall x, usable tol id mydim x -> std_at mydim cdim g x (aff mydim o M x) M X d).

Lemma aff_like_agree mydim cdim tol id o M X d g h : aff_like mydim cdim tol id o M X d g -> aff_like mydim cdim tol id o M X d h ->
  agree_corners cdim g h /\ gi_affine g = Some true /\ gi_affine h = Some true /\
  gi_volume g = Some (d * referenceVolume id mydim) /\ gi_volume h = Some (d * referenceVolume id mydim) /\
  forall x, usable tol id mydim x -> agree_at mydim cdim g h x.
Proof.
  intros (A1 & A2 & A3 & A4 & (c & A5 & A5') & A6 & A7) (B1 & B2 & B3 & B4 & (c' & B5 & B5') & B6 & B7).
  split; [|repeat (split; [assumption|]); intros x U; exact (std_agree _ _ _ _ _ _ _ _ _ (A7 x U) (B7 x U))].
  split; [|split; [congruence|split]].
  - exact (gt_eqb_trans _ _ _ A2 (gt_eqb_sym _ _ B2)).
  - intros i Hi. rewrite A3, <- C16_corner_count in Hi. assert (E := nth_error_nth' _ vzero Hi).
    destruct (A4 _ _ E) as (u & U1 & U2). destruct (B4 _ _ E) as (v & V1 & V2). exists u, v. repeat split; auto. intros k Hk. now rewrite U2, V2.
  - exists c, c'. repeat split; auto. intros k Hk. now rewrite A5', B5'.
Qed.

Section I.
Variables (mydim cdim : nat) (tol : R) (id : N) (r : RefElement) (o : Vec) (M X : Mat) (d : R).
Hypothesis Hm : (mydim <= cdim)%nat.
Hypothesis Hd : (mydim < 256)%nat.
Hypothesis Ht : 0 < tol < 1 / 2.
Hypothesis Hid : (id < bit mydim)%N.
Hypothesis Hr : re_infos id mydim = Some r.
Hypothesis HR : row_independent mydim cdim M.
Hypothesis HP : pinv mydim cdim M X d.
Notation like := (aff_like mydim cdim tol id o M X d).

Lemma aff_ext x y k : veq mydim x y -> aff mydim o M x k = aff mydim o M y k.
Proof. intro E. unfold aff. f_equal. apply rsum_ext. intros j Hj. now rewrite E. Qed.
Lemma mvec_aff x k : o k + mvec mydim (mtr M) x k = aff mydim o M x k.
Proof. reflexivity. Qed.
Lemma corner_pos i p : nth_error (referenceCorners id mydim) i = Some p -> re_position id mydim r i mydim = Some p.
Proof. intro E. unfold re_position. now rewrite Nat.eqb_refl. Qed.
Lemma center_pos : exists p, re_position id mydim r 0 0 = Some p /\ veq mydim p (meanT (topo_of id mydim)).
Proof.
  assert (wf : ml_wf mydim {| ml_id := id; ml_ref := r; ml_corners := referenceCorners id mydim |}).
  { split; [exact Hid|]. split; [exact Hr|]. apply C16_corner_count. }
  destruct (P_ML5.center_spec mydim _ wf) as (p & E & V). exists p. auto.
Qed.

Lemma like_ag ret j1 j2 a : affine_from_jacobian mydim cdim id r o M ret j1 j2 = Some a -> like (gi_ag mydim a).
Proof.
  intro E. destruct (affine_from_jacobian_inv _ _ _ _ _ _ _ _ _ a Hm HR E) as (EI & ER & EO & EJ & OK).
  assert (G : forall x k, ag_global mydim a x k = aff mydim o M x k) by (intros x k; unfold ag_global, aff; now rewrite EO, EJ).
  split; [reflexivity|]. split; [cbn [gi_ag gi_type]; rewrite EI; apply gt_eqb_refl|]. split; [cbn [gi_ag gi_corners]; unfold ag_corners; now rewrite EI|].
  cbn [gi_ag gi_corner gi_center gi_volume]. split; [|split; [|split]].
  - intros i p Hp. unfold ag_corner. rewrite EI, ER, (corner_pos i p Hp). cbn [obind]. eexists. split; [reflexivity|]. intros k Hk. apply G.
  - destruct center_pos as (p & E1 & V). unfold ag_center. rewrite EI, ER, E1. cbn [obind]. eexists. split; [reflexivity|]. intros k Hk. rewrite G. now apply aff_ext.
  - unfold ag_volume. rewrite EI. do 2 f_equal.
    assert (Q := E). unfold affine_from_jacobian in Q.
    destruct (right_value mydim cdim M M X d ret j1 j2 Hm HR (fun i j _ _ => eq_refl) HP) as (Y & EY & VY).
    rewrite EY in Q. cbn [obind] in Q. injection Q as <-. reflexivity.
  - intros x _. apply (ag_std mydim cdim Hm x _ M X d HR HP id r o ret j1 j2 a E). intros k Hk. apply G.
Qed.

Lemma like_ml jv jm jk j1 j2 g : ml_wf mydim g -> ml_id g = id -> corners_affine mydim cdim g o M -> like (gi_ml mydim cdim tol jv jm jk j1 j2 g).
Proof.
  intros wf EI HA. assert (ER : ml_ref g = r) by (destruct wf as (_ & Q & _); rewrite EI in Q; congruence).
  assert (N : forall x, usable tol id mydim x -> nice mydim tol g x).
  { intros x [S|[S I]]; rewrite <- EI in *; [apply nice_smooth; auto; lra|apply nice_inside; auto; lra]. }
  assert (ST : forall x, usable tol id mydim x -> std_at mydim cdim (gi_ml mydim cdim tol jv jm jk j1 j2 g) x (aff mydim o M x) M X d).
  { intros x U. destruct (affine_global mydim cdim tol ltac:(lra) g wf jv _ _ x HA (N x U)) as (v & E1 & V1).
    destruct (affine_jt mydim cdim tol ltac:(lra) g wf jm jk _ _ x HA (N x U)) as (A & E2 & V2).
    apply (ml_std mydim cdim Hm x _ M X d HR HP tol jv jm jk j1 j2 g v A E1 V1 E2 V2). }
  destruct center_pos as (p & E1 & V).
  assert (U : usable tol id mydim p).
  { left. apply (P_ML5.smooth_ext _ _ (meanT (topo_of id mydim))); [intros k Hk; symmetry; apply V; now rewrite tdim_topo in Hk|]. apply meanT_smooth. lra. }
  split; [cbn [gi_ml gi_affine]; destruct (affine_detect mydim cdim tol g wf jm jk o M ltac:(lra) HA) as (jt & E & _); now rewrite E|].
  split; [cbn [gi_ml gi_type]; rewrite EI; apply gt_eqb_refl|]. split; [cbn [gi_ml gi_corners]; unfold mlg_cornercount; now rewrite EI|].
  split; [|split; [|split; [|exact ST]]].
  - intros i q Hq. cbn [gi_ml gi_corner]. unfold mlg_corner. assert (L : (i < length (ml_corners g))%nat).
    { destruct wf as (_ & _ & ->). rewrite EI, <- C16_corner_count. apply nth_error_Some. congruence. }
    assert (E := nth_error_nth' _ vzero L). exists (nth i (ml_corners g) vzero). split; [exact E|]. intros k Hk. rewrite <- EI in Hq. exact (HA i _ q E Hq k Hk).
  - cbn [gi_ml gi_center]. unfold mlg_center. rewrite EI, ER, E1. cbn [obind]. destruct (ST p U) as ((u & E2 & V2) & _). exists u. split; [exact E2|].
    intros k Hk. rewrite V2 by assumption. now apply aff_ext.
  - cbn [gi_ml gi_volume]. unfold mlg_volume. rewrite EI, ER, E1. cbn [obind]. destruct (ST p U) as (_ & _ & _ & _ & _ & E2). cbn [gi_ml gi_integrationElement] in E2.
    rewrite E2. reflexivity.
Qed.

Lemma lf_affine_all h g : lf_id h = id -> lagrange id mydim (lf_fe h) -> ml_wf mydim g -> ml_id g = id -> corners_affine mydim cdim g o M ->
  lf_vertices h = ml_corners g ->
  (forall x, exists u, lf_global cdim h x = Some u /\ veq cdim u (aff mydim o M x)) /\
  (forall x, exists J, lf_jacobian mydim cdim h x = Some J /\ meq cdim mydim J (mtr M)).
Proof.
  intros EI HL wf EG HA EV.
  assert (LN : length (ml_corners g) = length (referenceCorners id mydim)) by (destruct wf as (_ & _ & ->); now rewrite EG, C16_corner_count).
  assert (Hid2 : (id < 2 ^ N.of_nat mydim)%N) by now rewrite <- bit_pow.
  assert (LV : forall x, length (fe_values (lf_fe h) x) = length (lf_vertices h) /\ length (fe_jacobians (lf_fe h) x) = length (lf_vertices h)).
  { intro x. rewrite EV, LN, corners_verts, map_length. destruct HL as [[HS ->]|[HS ->]]; cbn [P1 Q1 fe_values fe_jacobians].
    - apply isSimplex_simT in HS; [|assumption]. rewrite (simT_verts_length _ HS), tdim_topo_of. apply p1_length.
    - apply isCube_cubT in HS; [|assumption|assumption]. rewrite (cubT_verts_length _ HS), tdim_topo_of. apply q1_length. }
  assert (GL : forall x, exists u, lf_global cdim h x = Some u /\ veq cdim u (aff mydim o M x)).
  { intro x. destruct (C57_global cdim h x (proj1 (LV x))) as (u & Eu & Vu). exists u. split; [exact Eu|]. intros k Hk. rewrite Vu by assumption.
    set (f := fun x => aff mydim o M x k).
    assert (RF : forall x y, veq mydim x y -> f x = f y) by (intros a b E; unfold f; now apply aff_ext).
    assert (VF : forall i, (i < length (lf_vertices h))%nat -> nth i (lf_vertices h) vzero k = nth i (map f (referenceCorners id mydim)) 0).
    { intros i Hi. rewrite EV in *. assert (Hi' : (i < length (referenceCorners id mydim))%nat) by (rewrite <- LN; exact Hi).
      rewrite (nth_indep _ 0 (f vzero)) by now rewrite map_length. rewrite map_nth. unfold f.
      apply (HA i _ _ (nth_error_nth' _ vzero Hi)); [|assumption]. rewrite EG. now apply nth_error_nth'. }
    rewrite (rsum_ext _ _ (fun i => nth i (fe_values (lf_fe h) x) 0 * nth i (map f (referenceCorners id mydim)) 0)) by (intros i Hi; now rewrite VF).
    destruct (C80_reproduce mydim f x RF) as [R1 R2]. destruct (C80_interpolate R id mydim f Hid2 Hd RF) as [I1 I2].
    change (aff mydim o M x k) with (f x). rewrite <- (proj1 (LV x)). destruct HL as [[HS EF]|[HS EF]]; rewrite EF; cbn [P1 Q1 fe_values].
    - rewrite R1 at 1; [|exists (o k), (fun j => M j k); reflexivity]. rewrite (I1 HS), (proj1 (p1_length mydim x)). reflexivity.
    - rewrite R2 at 1; [rewrite (I2 HS), (proj1 (q1_length mydim x)); reflexivity|]. intros y j t Hj. unfold f, aff.
      assert (SP : forall s, rsum mydim (fun j0 => M j0 k * upd y j s j0) = rsum mydim (fun j0 => M j0 k * upd y j 0 j0) + M j k * s).
      { intro s. rewrite <- (rsum_delta mydim j (fun j0 => M j0 k * s)) by assumption. rewrite <- rsum_plus. apply rsum_ext. intros i Hi.
        destruct (Nat.eqb_spec i j) as [->|NE]; [rewrite !upd_eq; ring|rewrite !upd_ne by auto; ring]. }
      rewrite (SP t), (SP 1). ring. }
  split; [exact GL|]. intro p. destruct (C57_jacobian mydim cdim h p (proj2 (LV p))) as (J & EJ & VJ). exists J. split; [exact EJ|].
  assert (DE : exists J, lf_jacobian mydim cdim h p = Some J /\ frechet mydim cdim (lf_global cdim h) p J).
  { apply C57_jacobian_is_derivative; [intro x; apply LV|apply LV|]. intros i Hi. rewrite <- (proj1 (LV p)) in Hi.
    destruct (C80_derivative mydim p i) as [D1 D2]. destruct HL as [[HS EF]|[HS EF]]; rewrite EF in *; cbn [P1 Q1 fe_values fe_jacobians] in *.
    - apply D1. rewrite (proj1 (p1_length mydim p)) in Hi. lia.
    - apply D2. now rewrite (proj1 (q1_length mydim p)) in Hi. }
  destruct DE as (J' & EJ' & DE). rewrite EJ in EJ'. injection EJ' as <-.
  apply (frechet_unique mydim cdim (lf_global cdim h) (fun x => Some (fun k => o k + rsum mydim (fun j => M j k * x j))) p); [|exact DE|apply frechet_affine].
  intro x. destruct (GL x) as (u & E1 & V1). exists u. eexists. split; [exact E1|]. split; [reflexivity|]. exact V1.
Qed.

Lemma like_lf tolf junk ret j1 j2 rule opts h g : lf_id h = id -> lf_ref h = r -> lagrange id mydim (lf_fe h) -> 0 <= tolf ->
  ml_wf mydim g -> ml_id g = id -> corners_affine mydim cdim g o M -> lf_vertices h = ml_corners g -> first_rule id mydim rule ->
  like (gi_lf mydim cdim tolf junk ret j1 j2 rule opts h).
Proof.
  intros EI ER HL Hf wf EG HA EV (q & EQ & SQ). destruct (lf_affine_all h g EI HL wf EG HA EV) as [GL JL].
  assert (ST : forall x, std_at mydim cdim (gi_lf mydim cdim tolf junk ret j1 j2 rule opts h) x (aff mydim o M x) M X d).
  { intro x. destruct (GL x) as (u & E1 & V1). destruct (JL x) as (J & E2 & V2).
    exact (lf_std mydim cdim Hm x _ M X d HR HP tolf junk ret j1 j2 rule opts h u J E1 V1 E2 V2). }
  assert (AF : lf_affineImpl mydim cdim tolf junk ret j1 j2 h = Some true).
  { apply (C57_affine_detected mydim cdim tolf junk ret j1 j2 h o M Hm Hf); [| |exact HR].
    - destruct HL as [[_ ->]|[_ ->]]; cbn [P1 Q1 fe_order]; lia.
    - intro x. destruct (GL x) as (u & E1 & V1). exists u. split; [exact E1|]. intros k Hk. rewrite V1 by assumption. reflexivity. }
  assert (FL : lf_affine mydim cdim tolf junk ret j1 j2 h None = Some (true, Some true)) by (unfold lf_affine; now rewrite AF).
  split; [cbn [gi_lf gi_affine]; now rewrite FL|]. split; [cbn [gi_lf gi_type]; rewrite EI; apply gt_eqb_refl|].
  split; [cbn [gi_lf gi_corners]; unfold lf_corners; now rewrite EI|]. split; [|split; [|split]].
  - intros i p Hp. cbn [gi_lf gi_corner]. unfold lf_corner. rewrite EI, ER, (corner_pos i p Hp). apply GL.
  - cbn [gi_lf gi_center]. unfold lf_center. destruct center_pos as (p & E1 & V). rewrite EI, ER, E1. cbn [obind]. destruct (GL p) as (u & E2 & V2).
    exists u. split; [exact E2|]. intros k Hk. rewrite V2 by assumption. now apply aff_ext.
  - cbn [gi_lf gi_volume]. unfold lf_volume. rewrite FL. cbn [option_map fst].
    rewrite (C58_affine rule _ d q opts EQ); [now rewrite SQ|]. intro p. destruct (ST p) as (_ & _ & _ & _ & _ & Q). exact Q.
  - intros x _. apply ST.
Qed.

Lemma reg_identity ret j1 j2 base : reg_make mydim id r ret j1 j2 = Some base ->
  ag_id base = id /\ ag_ref base = r /\ forall x, veq mydim (ag_global mydim base x) x.
Proof.
  unfold reg_make. intro E. assert (EE : re_geometry id mydim 0 0 = Some (vzero, midentity mydim)) by apply geometry_0.
  rewrite EE in E. cbn [obind fst snd] in E.
  assert (RI : row_independent mydim mydim (midentity mydim)).
  { intros v Hv i Hi. specialize (Hv i Hi). unfold mvec, mtr, midentity in Hv.
    rewrite (rsum_ext mydim _ (fun j => if Nat.eqb j i then v j else 0)) in Hv.
    - rewrite (rsum_delta mydim i v Hi) in Hv. exact Hv.
    - intros j Hj. rewrite (proj2 (Nat.ltb_lt j mydim)) by assumption. rewrite andb_true_r. destruct (Nat.eqb j i); ring. }
  destruct (affine_from_jacobian_inv _ _ _ _ _ _ _ _ _ base (le_n mydim) RI E) as (EI & ER & EO & EJ & _).
  split; [exact EI|]. split; [exact ER|]. intros x k Hk. unfold ag_global. rewrite EO, EJ. unfold vzero, midentity.
  rewrite (rsum_ext mydim _ (fun j => if Nat.eqb j k then x j else 0)).
  - rewrite (rsum_delta mydim k x Hk). ring.
  - intros j Hj. rewrite (proj2 (Nat.ltb_lt j mydim)) by assumption. rewrite andb_true_r. destruct (Nat.eqb j k); ring.
Qed.

Lemma like_mg ret j1 j2 ret' j1' j2' rule opts base g : reg_make mydim id r ret' j1' j2' = Some base -> mg_geo g = reg_wrapped mydim base ->
  mg_affine g = true -> (forall x, veq cdim (mg_map g x) (fun k => o k + mvec mydim (mtr M) x k)) ->
  (forall x, meq cdim mydim (mg_dmap g x) (mtr M)) -> first_rule id mydim rule ->
  like (gi_mg mydim cdim mydim ret j1 j2 rule opts g).
Proof.
  intros EB EW EA HM HD (q & EQ & SQ). destruct (reg_identity _ _ _ _ EB) as (EI & ER & IG).
  assert (ST : forall x, std_at mydim cdim (gi_mg mydim cdim mydim ret j1 j2 rule opts g) x (aff mydim o M x) M X d).
  { intro x. eapply (mg_std mydim cdim Hm x _ M X d HR HP mydim ret j1 j2 rule opts g).
    - unfold mg_global. rewrite EW. cbn [reg_wrapped wg_global option_map]. reflexivity.
    - intros k Hk. now rewrite HM.
    - unfold mg_jacobian. rewrite EW. cbn [reg_wrapped wg_global wg_jacobian obind]. reflexivity.
    - intros i j Hi Hj. rewrite (rsum_ext mydim _ (fun k => if Nat.eqb k j then mtr M i k else 0)).
      + now rewrite (rsum_delta mydim j (fun k => mtr M i k)).
      + intros k Hk. rewrite HD by assumption. destruct (Nat.eqb k j); ring. }
  split; [cbn [gi_mg gi_affine]; now rewrite EA|]. split; [cbn [gi_mg gi_type]; rewrite EW; cbn [reg_wrapped wg_id]; rewrite EI; apply gt_eqb_refl|].
  split; [cbn [gi_mg gi_corners]; rewrite EW; cbn [reg_wrapped wg_id]; now rewrite EI|].
  assert (GM : forall x y, veq mydim x y -> forall k, (k < cdim)%nat -> mg_map g x k = aff mydim o M y k).
  { intros x y E k Hk. rewrite HM by assumption. now apply aff_ext. }
  split; [|split; [|split; [|intros x _; apply ST]]].
  - intros i p Hp. cbn [gi_mg gi_corner]. unfold mg_corner. rewrite EW. cbn [reg_wrapped wg_corner]. unfold ag_corner. rewrite EI, ER, (corner_pos i p Hp).
    cbn [obind option_map]. eexists. split; [reflexivity|]. intros k Hk. now apply GM.
  - destruct center_pos as (p & E1 & V). cbn [gi_mg gi_center]. unfold mg_center. rewrite EW. cbn [reg_wrapped wg_center]. unfold ag_center. rewrite EI, ER, E1.
    cbn [obind option_map]. eexists. split; [reflexivity|]. intros k Hk. apply GM; auto. intros j Hj. rewrite IG by assumption. now apply V.
  - cbn [gi_mg gi_volume]. unfold mg_volume. rewrite EA. rewrite (C58_affine rule _ d q opts EQ); [now rewrite SQ|]. intro p.
    destruct (ST p) as (_ & _ & _ & _ & _ & Q). exact Q.
Qed.

Lemma like_aac g : isCube (GT2 id mydim) = true -> aac_wf mydim cdim g ->
  (forall i, (i < cdim)%nat -> ac_axes g i = true -> ac_lower g i < ac_upper g i) ->
  veq cdim o (ac_lower g) -> meq mydim cdim M (aac_jacobianTransposed mydim cdim g) -> like (gi_aac mydim cdim g).
Proof.
  intros HC W LU EO EM. assert (Hid2 : (id < 2 ^ N.of_nat mydim)%N) by now rewrite <- bit_pow.
  assert (CT := proj1 (isCube_cubT id mydim Hd Hid) HC).
  assert (G : forall x k, (k < cdim)%nat -> aac_global mydim cdim g x k = aff mydim o M x k).
  { intros x k Hk. assert (J := C29_jacobian mydim cdim g W vzero x k Hk). unfold aff.
    rewrite (rsum_ext mydim (fun j => M j k * x j) (fun j => aac_jacobianTransposed mydim cdim g j k * x j)) by (intros j Hj; now rewrite EM).
    rewrite <- J. rewrite EO by assumption.
    assert (Z : aac_global mydim cdim g vzero k = ac_lower g k).
    { rewrite (C29_global mydim cdim g W) by assumption. unfold vzero. destruct (ac_axes g k); ring. }
    assert (Y : aac_global mydim cdim g (fun j => vzero j + x j) k = aac_global mydim cdim g x k).
    { rewrite !(C29_global mydim cdim g W) by assumption. unfold vzero. destruct (ac_axes g k); ring. }
    rewrite Z, Y. ring. }
  assert (NZ : forall i, (i < cdim)%nat -> ac_axes g i = true -> ext g i <> 0) by (intros i Hi A; specialize (LU i Hi A); unfold ext; lra).
  destruct (C29_volume mydim cdim g W) as (_ & _ & VG & VP). specialize (VP LU).
  destruct (aac_pinv mydim cdim g W NZ) as (GG & HG & HX).
  destruct (pinv_unique mydim cdim M (aac_jacobianTransposed mydim cdim g) X (aac_jacobianInverseTransposed mydim cdim g) d (aac_volume mydim cdim g) EM HP) as [UX UD].
  { split; [exact VP|]. split; [exact VG|]. exists GG. auto. }
  split; [reflexivity|]. split; [apply gt_eqb_sym; now apply cub_type|].
  split; [cbn [gi_aac gi_corners]; unfold aac_corners; rewrite <- C16_corner_count, corners_verts, map_length, (cubT_verts_length _ CT); now rewrite tdim_topo_of|].
  cbn [gi_aac gi_corner gi_center gi_volume]. split; [|split; [|split]].
  - intros i p Hp. eexists. split; [reflexivity|]. intros k Hk.
    rewrite (proj2 (C29_corners_reference mydim cdim g id i p W Hid2 Hd HC Hp)) by assumption. now apply G.
  - eexists. split; [reflexivity|]. intros k Hk. rewrite (C29_center mydim cdim g W) by assumption. rewrite G by assumption. apply aff_ext.
    intros j Hj. symmetry. apply cub_mean; [exact CT|now rewrite tdim_topo].
  - rewrite cub_refvol, Rmult_1_r, UD by assumption. reflexivity.
  - intros x _. unfold std_at. cbn [gi_aac gi_global gi_jacobian gi_jacobianTransposed gi_jacobianInverse gi_jacobianInverseTransposed gi_integrationElement].
    split; [eexists; split; [reflexivity|intros k Hk; now apply G]|].
    split; [eexists; split; [reflexivity|intros i j Hi Hj; unfold mtr; now rewrite EM]|].
    split; [eexists; split; [reflexivity|now apply meq_sym]|].
    split; [eexists; split; [reflexivity|intros i j Hi Hj; unfold mtr; now rewrite UX]|].
    split; [eexists; split; [reflexivity|now apply meq_sym]|]. unfold aac_integrationElement. now rewrite UD.
Qed.

Lemma instance_like g : affine_instance mydim cdim tol id r o M g -> like g.
Proof.
  intro H. destruct H; [eapply like_ag; eassumption|apply like_ml; assumption|eapply like_lf; eassumption|eapply like_mg; eassumption|apply like_aac; assumption].
Qed.
End I.
