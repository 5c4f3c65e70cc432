(** Property C82: checkGeometry. *)
From Coq Require Import PeanoNat NArith ZArith Bool List Reals Lia Lra.
From Verif Require Import M_Type M_RefTopo M_RefGeo M_Matrix M_Affine M_MultiLinear M_GaussNewton M_LocalFE M_CheckGeo
  S_Topo S_RefGeo S_Matrix S_MultiLinear S_GaussNewton S_Agree S_CheckGeo P_Type P_Topo P_RefTopo P_RefTopo2 P_RefTopo3 P_RSum P_RefGeo P_RefGeo2 P_RefGeo3 P_RefGeo4 P_Matrix P_Matrix2 P_Matrix3 P_Det P_MxBridge P_Affine
  P_ML1 P_ML2 P_ML3 P_ML4 P_ML5 P_GaussNewton P_Agree P_LocalFE T_RefGeo T_Matrix T_Affine T_MultiLinear T_GaussNewton T_LocalFE P_Agree2 T_Agree P_Matrix5 P_CheckGeo.
Import ListNotations.
Local Open Scope R_scope.

(** checkGeometry returns true exactly if everything it demands holds *)
Theorem C82_check :
  forall mydim cdim tol junk g local rule,
    checkGeometry mydim cdim tol junk g local (detR mydim) rule = Some true <-> passes mydim cdim tol g local rule.
Proof.
  intros mydim cdim tol junk g local rule. unfold checkGeometry, passes. cbv zeta. set (n := gi_corners g).
  destruct (Nat.eqb_spec n 0) as [N0|N0]; [split; [discriminate|intros (c & m & vol & H & _); lia]|].
  assert (AV : forall c (avg : Vec), (forall k, (k < cdim)%nat -> avg k = rsum n (fun i => c i k) / INR n) ->
     forall u, vdist cdim u avg = vdist cdim u (fun k => fold_left (fun a j => fun k => a k + c j k) (seq 0 n) vzero k / INR n)).
  { intros c avg H u. unfold vdist, two_norm, norm2. f_equal. apply rsum_ext. intros k Hk. rewrite H, sum_value by assumption. reflexivity. }
  split.
  - destruct (cg_sum g n 0 vzero) as [s|] eqn:ES; [|discriminate]. apply sum_spec in ES. destruct ES as (c & HC & ->). cbn [Nat.add] in HC. cbn [obind].
    destruct (gi_center g) as [m|]; [|discriminate]. cbn [obind].
    set (avg0 := fun k => fold_left (fun a j => fun k => a k + c j k) (seq 0 n) vzero k / INR n).
    match goal with |- obind ?e _ = _ -> _ => destruct e as [pass|] eqn:EP; [|discriminate] end. cbn [obind].
    destruct (gi_volume g) as [vol|]; [|discriminate]. cbn [obind]. intro H.
    assert (HP : (if Rltb vol tol then false else pass) = true /\ (gt_none (gi_type g) = true \/
       exists r p y, re_infos (gt_id (gi_type g)) mydim = Some r /\ re_position (gt_id (gi_type g)) mydim r 0 0 = Some p /\ gi_global g p = Some y /\ vdist cdim m y <= tol /\
       size (gt_id (gi_type g)) mydim mydim = n /\
       (forall i, (i < n)%nat -> exists q z, re_position (gt_id (gi_type g)) mydim r i mydim = Some q /\ gi_global g q = Some z /\ vdist cdim (c i) z <= tol) /\
       exists q, rule = Some q /\ forall x w, In (x, w) q -> point_passes mydim cdim tol g local (gt_id (gi_type g)) x)).
    { destruct (gt_none (gi_type g)); [injection H as H; auto|].
      destruct (re_infos (gt_id (gi_type g)) mydim) as [r|]; [|discriminate]. cbn [obind] in H.
      destruct (re_position (gt_id (gi_type g)) mydim r 0 0) as [p|] eqn:E1; [|discriminate]. cbn [obind] in H.
      destruct (gi_global g p) as [y|] eqn:E2; [|discriminate]. cbn [obind] in H.
      destruct (Rltb tol (two_norm cdim (fun k => m k - y k))) eqn:E3; [discriminate|]. apply Rltb_false' in E3.
      destruct (Nat.eqb_spec (size (gt_id (gi_type g)) mydim mydim) n) as [SN|SN].
      2:{ cbn [obind] in H. destruct rule as [q|]; [|discriminate]. cbn [obind] in H. apply points_spec in H. destruct H; discriminate. }
      match type of H with obind ?e _ = _ => destruct e as [p2|] eqn:EC; [|discriminate] end. cbn [obind] in H.
      destruct rule as [q|]; [|discriminate]. cbn [obind] in H. apply points_spec in H. destruct H as [-> H]. apply place_spec in EC. destruct EC as [EV EC].
      split; [exact EV|]. right. exists r, p, y. do 2 (split; [reflexivity || assumption|]). split; [exact E2|]. split; [exact E3|]. split; [exact SN|]. split; [|exists q; auto].
      intros i Hi. destruct (EC i ltac:(lia)) as (c' & q' & z & F1 & F2 & F3 & F4). exists q', z. rewrite (HC i Hi) in F1. injection F1 as <-. auto. }
    destruct HP as [HV HR]. apply flag in HV. destruct HV as [HV ->]. apply Rltb_false' in HV.
    exists c, m, vol. split; [lia|]. split; [exact HC|]. split; [reflexivity|]. split; [|split; [reflexivity|split; [exact HV|exact HR]]].
    intros avg HA. split.
    + intros N1 i Hi. rewrite (proj2 (Nat.ltb_lt 1 n) N1) in EP. apply corners_spec in EP. destruct EP as [_ EP].
      destruct (EP i ltac:(lia)) as (c' & F1 & F2 & F3). rewrite (HC i Hi) in F1. injection F1 as <-. split; [exact F2|]. rewrite (AV c avg HA). exact F3.
    + intro N1. rewrite (proj2 (Nat.ltb_ge 1 n)) in EP by lia. injection EP as EP. apply flag in EP. destruct EP as [EP _]. apply Rltb_false' in EP.
      rewrite (AV c avg HA). exact EP.
  - intros (c & m & vol & HN & HC & -> & HA & -> & HV & HR).
    rewrite (proj2 (sum_spec g n 0 vzero (fold_left (fun a j => fun k => a k + c j k) (seq 0 n) vzero))) by (exists c; auto). cbn [obind].
    set (avg0 := fun k => fold_left (fun a j => fun k => a k + c j k) (seq 0 n) vzero k / INR n).
    destruct (HA avg0) as [H1 H2]; [intros k Hk; unfold avg0; now rewrite sum_value|].
    match goal with |- obind ?e _ = _ => assert (EP : e = Some true) end.
    { destruct (Nat.ltb_spec 1 n) as [L|L].
      - apply corners_spec. split; [reflexivity|]. intros j Hj. exists (c j). split; [apply HC; lia|apply H1; lia].
      - specialize (H2 ltac:(lia)). unfold vdist, avg0 in H2. cbv beta in H2. now rewrite (proj2 (Rltb_false' _ _) H2). }
    rewrite EP. cbn [obind]. rewrite (proj2 (Rltb_false' _ _) HV). destruct (gt_none (gi_type g)); [reflexivity|].
    destruct HR as [|(r & p & y & -> & E1 & E2 & E3 & SN & HP & q & -> & HQ)]; [discriminate|]. cbn [obind]. rewrite E1. cbn [obind]. rewrite E2. cbn [obind].
    unfold vdist in E3. rewrite (proj2 (Rltb_false' _ _) E3). rewrite SN, Nat.eqb_refl.
    rewrite (proj2 (place_spec mydim cdim tol g (gt_id (gi_type g)) r n 0 true)).
    + cbn [obind]. apply points_spec. auto.
    + split; [reflexivity|]. intros j Hj. destruct (HP j ltac:(lia)) as (q' & z & F1 & F2 & F3). exists (c j), q', z. repeat split; auto. apply HC. lia.
Qed.
Print Assumptions C82_check.

(** local() of the affine geometries returns the point *)
Lemma instance_local mydim cdim tol id r o M b g local : (mydim <= cdim)%nat -> (mydim < 256)%nat -> 0 < tol < 1 / 2 -> (id < bit mydim)%N -> re_infos id mydim = Some r ->
  row_independent mydim cdim M -> checked_instance mydim cdim tol id r o M b g local ->
  affine_instance mydim cdim tol id r o M g /\ gi_type g = GT2 id mydim /\
  forall x y, usable tol id mydim x -> (b = true -> ~ veq mydim x (meanT (topo_of id mydim))) -> gi_global g x = Some y -> exists z, local y = Some z /\ veq mydim z x.
Proof.
  intros Hm Hd Ht Hid Hr HR H.
  assert (GN : forall j1 j2 f df gn, gn_usable gn -> (forall x, exists A', df x = Some A' /\ meq mydim cdim A' M) ->
     (forall x, exists fx, f x = Some fx /\ veq cdim fx (fun k => o k + mvec mydim (mtr M) x k)) -> forall x y, f x = Some y -> ~ veq mydim x (meanT (topo_of id mydim)) ->
     exists p z, re_position id mydim r 0 0 = Some p /\ gaussNewton mydim cdim j1 j2 f df y gn p = Some (GN_OK, z) /\ veq mydim z x).
  { intros j1 j2 f df gn (G1 & G2 & G3) HD HF x y Ey Nx. destruct (center_pos mydim id r Hid Hr) as (p & Ep & Vp).
    destruct (HF x) as (y' & Ey' & Vy). rewrite Ey in Ey'. injection Ey' as <-.
    destruct (C35_affine_one_step mydim cdim j1 j2 f df y gn p o M x Hm G1 G2 G3 HR HD HF Vy) as (z & E & V).
    - destruct (Classical_Prop.classic (exists j, (j < mydim)%nat /\ p j <> x j)) as [|N]; [assumption|]. exfalso. apply Nx. intros k Hk.
      rewrite <- Vp by assumption. destruct (Req_dec (p k) (x k)) as [|N']; [now symmetry|]. exfalso. apply N. eauto.
    - exists p, z. auto. }
  destruct H.
  - split; [now apply (AI_affine mydim cdim tol id r o M ret j1 j2)|]. destruct (affine_from_jacobian_inv mydim cdim id r o M ret j1 j2 a Hm HR H) as (EI & _).
    split; [cbn [gi_ag gi_type]; now rewrite EI|]. intros x y U _ Ey. eexists. split; [reflexivity|]. cbn [gi_ag gi_global] in Ey. injection Ey as <-.
    now apply (C27_local_global mydim cdim id r o M ret j1 j2).
  - split; [now apply AI_multilinear|]. split; [cbn [gi_ml gi_type]; now rewrite H0|]. intros x y U _ Ey. cbn [gi_ml gi_global] in Ey.
    destruct (C34_affine_exact mydim cdim tol jv jm jk j1 j2 g o M x y fuel Ht H Hm H1 HR) as (z & E & V); [rewrite H0; destruct U as [U|[U1 U2]]; [now left|right; split; [exact U1|unfold inside_ref; now rewrite H0]]|exact Ey|].
    rewrite E. exists z. auto.
  - split; [now apply (AI_lfe mydim cdim tol id r o M tolf junk ret j1 j2 rule opts h g)|]. split; [cbn [gi_lf gi_type]; now rewrite H|]. intros x y U Nx Ey. cbn [gi_lf gi_global] in Ey.
    destruct (lf_affine_all mydim cdim id o M Hm Hd Hid h g H H1 H4 H5 H6 H7) as [GL JL].
    destruct (GN j1 j2 (lf_global cdim h) (lf_jacobianTransposed mydim cdim h) gn H3) with (x := x) (y := y) as (p & z & E1 & E2 & E3); auto.
    + intro x'. destruct (JL x') as (J & EJ & VJ). unfold lf_jacobianTransposed. rewrite EJ. cbn [option_map]. eexists. split; [reflexivity|]. intros i j Hi Hj. now rewrite VJ.
    + unfold lf_local. rewrite H, H0, E1. cbn [obind]. rewrite E2. cbn [obind]. exists z. auto.
  - split; [now apply (AI_mapped mydim cdim tol id r o M ret j1 j2 ret' j1' j2' rule opts base g)|].
    destruct (reg_identity mydim id r _ _ _ _ H) as (EI & ER & IG).
    split; [cbn [gi_mg gi_type]; rewrite H0; cbn [reg_wrapped wg_id]; now rewrite EI|]. intros x y U Nx Ey. cbn [gi_mg gi_global] in Ey.
    destruct (GN j1 j2 (mg_global g) (mg_jacobianTransposed mydim g) gn H5) with (x := x) (y := y) as (p & z & E1 & E2 & E3); auto.
    + intro x'. unfold mg_jacobianTransposed, mg_jacobian. rewrite H0. cbn [reg_wrapped wg_global wg_jacobian obind option_map]. eexists. split; [reflexivity|].
      intros i j Hi Hj. rewrite (rsum_ext mydim _ (fun k => if Nat.eqb k i then mtr M j k else 0)).
      * now rewrite (rsum_delta mydim i (fun k => mtr M j k)).
      * intros k Hk. rewrite H3 by assumption. destruct (Nat.eqb k i); ring.
    + intro x'. unfold mg_global. rewrite H0. cbn [reg_wrapped wg_global option_map]. eexists. split; [reflexivity|]. apply H2.
    + unfold mg_local. rewrite H0. cbn [reg_wrapped wg_id wg_ref]. rewrite EI, ER, E1. cbn [obind]. rewrite E2. cbn [obind]. exists z. auto.
  - split; [now apply AI_cube|]. split; [cbn [gi_aac gi_type]; rewrite H; reflexivity|]. intros x y U _ Ey. cbn [gi_aac gi_global] in Ey. injection Ey as <-.
    eexists. split; [reflexivity|]. apply C29_local_global; [assumption|]. intros i Hi HA. specialize (H2 i Hi HA). lra.
Qed.

Lemma hull_pt : forall n (cs : list Vec) i c, nth_error cs i = Some c -> in_hull n cs c.
Proof.
  intros n cs i c H. assert (L : (i < length cs)%nat) by (apply nth_error_Some; congruence).
  exists (fun j => if Nat.eqb j i then 1 else 0). split; [|split].
  - intros j _. destruct (Nat.eqb j i); lra.
  - rewrite Ssum_rsum. now apply (rsum_delta (length cs) i (fun _ => 1)).
  - intros k _. rewrite Ssum_rsum. rewrite (rsum_ext _ _ (fun j => if Nat.eqb j i then c k else 0)).
    + symmetry. now apply (rsum_delta (length cs) i (fun _ => c k)).
    + intros j _. destruct (Nat.eqb_spec j i) as [->|]; [|ring]. rewrite (nth_error_nth _ _ _ H). ring.
Qed.

Lemma lsum_rsum (f : Vec -> R) : forall L : list Vec, lsum f L = rsum (length L) (fun i => f (nth i L vzero)).
Proof. induction L as [|a L IH]; [reflexivity|]. cbn [length]. rewrite rsum_shift. cbn [nth]. change (lsum f (a :: L)) with (f a + lsum f L). now rewrite IH. Qed.
Lemma mean_corners id mydim k : meanT (topo_of id mydim) k =
  rsum (size id mydim mydim) (fun i => nth i (referenceCorners id mydim) vzero k) / INR (size id mydim mydim).
Proof.
  unfold meanT. rewrite <- (C16_corner_count id mydim), corners_verts.
  assert (E : lsum (fun v => forg (topo_of id mydim) v k) (verts (topo_of id mydim)) = lsum (fun p : Vec => p k) (map (forg (topo_of id mydim)) (verts (topo_of id mydim)))).
  { generalize (verts (topo_of id mydim)). induction l as [|a l IH]; [reflexivity|]. unfold lsum in *. cbn [map fold_right]. now rewrite IH. }
  rewrite E, lsum_rsum, map_length. reflexivity.
Qed.
Lemma regularC_regular tol T : forall x, regularC tol T x -> regular tol T x.
Proof. induction T as [|b IH|b IH]; intros x H; cbn [regular regularC] in *; [exact I|auto|]. destruct H as [H|[H1 H2]]; [auto|]. right. right. auto. Qed.
Lemma corner_usable tol id mydim i p : 0 <= tol < 1 -> nth_error (referenceCorners id mydim) i = Some p -> usable tol id mydim p.
Proof.
  intros Ht Hp. right. assert (Hi : (i < nv (topo_of id mydim))%nat) by (rewrite nv_size; apply nth_error_Some; congruence). split.
  - apply regularC_regular. rewrite <- (nth_error_nth _ _ vzero Hp), rc_corner by assumption. now apply rc_regular.
  - now apply (hull_pt mydim _ i).
Qed.

Lemma size_two id mydim : (0 < mydim)%nat -> (2 <= size id mydim mydim)%nat.
Proof.
  intro H. rewrite <- C16_corner_count, <- nv_size. assert (D := tdim_topo id mydim). rewrite <- D in H. clear D. revert H. destruct (topo_of id mydim) as [|b|b]; cbn [tdim nv]; [lia| |]; assert (Q := nv_pos b); lia.
Qed.

(** a geometry of one of the five classes that represents an affine map of full rank is accepted
    if and only if its corners are further from the centre than the tolerance and its volume is
    not below it; the points of the rule must be points at which the multilinear geometry is not
    thrown off, and not the centre for the classes that invert with gaussNewton *)
Theorem C82_affine_classes :
  forall mydim cdim tol tolc junk id r o M b g local c q vol,
    (mydim <= cdim)%nat -> (mydim < 256)%nat -> 0 < tol < 1 / 2 -> (id < 2 ^ N.of_nat mydim)%N -> re_infos id mydim = Some r ->
    row_independent mydim cdim M -> checked_instance mydim cdim tol id r o M b g local -> 0 < tolc ->
    re_position id mydim r 0 0 = Some c -> gi_volume g = Some vol ->
    (forall x w, In (x, w) q -> usable tol id mydim x /\ (b = true -> ~ veq mydim x c)) ->
    checkGeometry mydim cdim tolc junk g local (detR mydim) (Some q) = Some true <->
      tolc <= vol /\ ((0 < mydim)%nat -> forall i p, nth_error (referenceCorners id mydim) i = Some p ->
                       tolc < two_norm cdim (mvec mydim (mtr M) (fun j => p j - c j))).
Proof.
  intros mydim cdim tol tolc junk id r o M b g local c q vol Hm Hd Ht Hid Hr HR HI Htc Hc Hv HQ. assert (Hid' := Hid). rewrite <- bit_pow in Hid'.
  destruct (center_pos mydim id r Hid' Hr) as (c' & Ec & Vc). rewrite Hc in Ec. injection Ec as <-.
  destruct (instance_local mydim cdim tol id r o M b g local Hm Hd Ht Hid' Hr HR HI) as (HA & TY & HL).
  destruct (pinv_exists mydim cdim M Hm HR) as (X & d & HP).
  destruct (instance_like mydim cdim tol id r o M X d Hm Hd Ht Hid' Hr HR HP g HA) as (A1 & A2 & A3 & A4 & (m & A5 & A5') & A6 & A7).
  rewrite A6 in Hv. injection Hv as <-.
  assert (NL : length (referenceCorners id mydim) = size id mydim mydim) by apply C16_corner_count.
  set (n := size id mydim mydim) in *. set (rcs := referenceCorners id mydim) in *.
  assert (NP : (0 < n)%nat) by (rewrite <- NL; unfold rcs; rewrite corners_verts, map_length; apply verts_length_pos).
  assert (RN : forall i, (i < n)%nat -> nth_error rcs i = Some (nth i rcs vzero)) by (intros i Hi; apply nth_error_nth'; lia).
  (* the corners of the geometry *)
  assert (CU : forall i u, gi_corner g i = Some u -> (i < n)%nat -> veq cdim u (aff mydim o M (nth i rcs vzero))).
  { intros i u E Hi. destruct (A4 i _ (RN i Hi)) as (u' & E' & V). rewrite E in E'. injection E' as <-. exact V. }
  assert (MV : forall k, (k < cdim)%nat -> m k = aff mydim o M c k).
  { intros k Hk. rewrite A5' by assumption. unfold aff. f_equal. apply rsum_ext. intros j Hj. now rewrite Vc. }
  assert (AVG : forall (cs : nat -> Vec) k, (k < cdim)%nat -> (forall i, (i < n)%nat -> gi_corner g i = Some (cs i)) -> rsum n (fun i => cs i k) / INR n = aff mydim o M c k).
  { intros cs k Hk HC. rewrite (rsum_ext n _ (fun i => o k + rsum mydim (fun j => M j k * nth i rcs vzero j))).
    2:{ intros i Hi. rewrite (CU i (cs i) (HC i Hi) Hi) by assumption. reflexivity. }
    rewrite rsum_plus, rsum_const, rsum_swap. unfold aff.
    rewrite (rsum_ext mydim (fun j => M j k * c j) (fun j => / INR n * (M j k * rsum n (fun i => nth i rcs vzero j)))).
    2:{ intros j Hj. rewrite Vc by assumption. rewrite mean_corners. fold n rcs. unfold Rdiv. ring. }
    rewrite rsum_scal. rewrite (rsum_ext mydim (fun j => M j k * rsum n (fun i => nth i rcs vzero j)) (fun j => rsum n (fun i => M j k * nth i rcs vzero j))) by (intros; symmetry; apply rsum_scal).
    field. apply not_0_INR. lia. }
  assert (DI : forall u v p, veq cdim u (aff mydim o M p) -> veq cdim v (aff mydim o M c) -> vdist cdim u v = two_norm cdim (mvec mydim (mtr M) (fun j => p j - c j))).
  { intros u v p HU HV. unfold vdist, two_norm, norm2. f_equal. apply rsum_ext. intros k Hk.
    assert (E : u k - v k = mvec mydim (mtr M) (fun j => p j - c j) k); [|now rewrite E].
    rewrite HU, HV by assumption. unfold aff, mvec, mtr. rewrite (rsum_ext mydim (fun j => M j k * (p j - c j)) (fun j => M j k * p j - M j k * c j)) by (intros; ring).
    rewrite rsum_minus. ring. }
  assert (N1 : (1 < n)%nat <-> (0 < mydim)%nat).
  { unfold n. destruct mydim as [|d0]; [cbn; lia|]. split; [lia|]. intros _. assert (Q := size_two id (S d0) ltac:(lia)). unfold n in *. lia. }
  rewrite C82_check. unfold passes. rewrite A3. cbv zeta. fold n. split.
  - intros (cs & m' & vol' & _ & HC & Em & HD & Ev & HV & _). rewrite A5 in Em. injection Em as <-. rewrite A6 in Ev. injection Ev as <-. split; [exact HV|].
    intros Hpos i p Hp. assert (Hi : (i < n)%nat) by (rewrite <- NL; apply nth_error_Some; congruence).
    destruct (HD (aff mydim o M c)) as [HD1 _]; [intros k Hk; symmetry; now apply AVG|].
    destruct (HD1 (proj2 N1 Hpos) i Hi) as [D _]. rewrite (RN i Hi) in Hp. injection Hp as <-.
    rewrite (DI (cs i) m (nth i rcs vzero)) in D; [exact D|now apply CU; auto|exact MV].
  - intros [HV HD].
    assert (EX : forall i, exists u, (i < n)%nat -> gi_corner g i = Some u).
    { intro i. destruct (Nat.lt_ge_cases i n) as [L|L]; [|exists vzero; lia]. destruct (A4 i _ (RN i L)) as (u & E & _). now exists u. }
    set (cs := fun i => match gi_corner g i with Some u => u | None => vzero end).
    assert (HC : forall i, (i < n)%nat -> gi_corner g i = Some (cs i)). { intros i Hi. destruct (EX i) as [u E]. unfold cs. now rewrite (E Hi). }
    assert (CV : forall i, (i < n)%nat -> veq cdim (cs i) (aff mydim o M (nth i rcs vzero))) by (intros i Hi; now apply CU; auto).
    assert (GP : forall x, usable tol id mydim x -> exists y, gi_global g x = Some y /\ veq cdim y (aff mydim o M x)) by (intros x U; exact (proj1 (A7 x U))).
    assert (VD0 : forall u v, veq cdim u v -> vdist cdim u v <= tolc).
    { intros u v E. unfold vdist. rewrite two_norm_0; [lra|]. intros k Hk. rewrite E by assumption. ring. }
    exists cs, m, (d * referenceVolume id mydim). split; [exact NP|]. split; [exact HC|]. split; [exact A5|]. split.
    { intros avg HAvg. assert (AV : veq cdim avg (aff mydim o M c)) by (intros k Hk; rewrite HAvg by assumption; now apply AVG). split.
      - intros Hn i Hi. assert (Hpos := proj1 N1 Hn). rewrite (DI (cs i) m (nth i rcs vzero) (CV i Hi) MV), (DI (cs i) avg (nth i rcs vzero) (CV i Hi) AV).
        split; apply (HD Hpos i); now apply RN.
      - intros _. apply VD0. intros k Hk. rewrite MV, AV by assumption. reflexivity. }
    split; [exact A6|]. split; [exact HV|]. right. rewrite TY. cbn [GT2 gt_id]. 
    assert (UC : usable tol id mydim c).
    { left. apply (P_ML5.smooth_ext _ _ (meanT (topo_of id mydim))); [intros k Hk; symmetry; apply Vc; now rewrite tdim_topo in Hk|]. apply meanT_smooth. lra. }
    destruct (GP c UC) as (yc & Eyc & Vyc). exists r, c, yc. split; [exact Hr|]. split; [exact Hc|]. split; [exact Eyc|].
    split; [apply VD0; intros k Hk; rewrite MV, Vyc by assumption; reflexivity|]. split; [reflexivity|]. split.
    { intros i Hi. assert (E := RN i Hi). destruct (GP (nth i rcs vzero) (corner_usable tol id mydim i _ ltac:(lra) E)) as (z & Ez & Vz). exists (nth i rcs vzero), z.
      split; [unfold re_position; now rewrite Nat.eqb_refl|]. split; [exact Ez|]. apply VD0. intros k Hk. rewrite (CV i Hi), Vz by assumption. reflexivity. }
    exists q. split; [reflexivity|]. intros x w Hx. destruct (HQ x w Hx) as [U Nx].
    destruct (A7 x U) as ((y & E1 & V1) & (J & E2 & V2) & (Jt & E3 & V3) & (Ji & E4 & V4) & (Jit & E5 & V5) & E6).
    destruct (HL x y U) as (z & Ez & Vz); [intros Hb E; apply (Nx Hb); intros k Hk; rewrite E by assumption; now rewrite Vc|exact E1|].
    assert (ID : forall i j, (i < mydim)%nat -> (j < mydim)%nat -> mmul cdim M X i j = mone i j).
    { destruct HP as (_ & _ & G & HG & HX). intros i j Hi Hj. rewrite <- (HG i j Hi Hj). unfold mmul at 1.
      rewrite (rsum_ext cdim _ (fun k => M i k * mmul mydim (mtr M) G k j)) by (intros k Hk; now rewrite HX).
      symmetry. exact (mvec_mmul cdim mydim M (mtr M) (fun k => G k j) i). }
    exists y, z, Jt, Jit, J, Ji, d. split; [exact E1|]. split; [exact Ez|].
    split; [unfold vdist; rewrite two_norm_0; [lra|intros k Hk; rewrite Vz by assumption; ring]|]. do 4 (split; [assumption|]).
    split; [intros i j Hi Hj; rewrite <- (ID i j Hi Hj); change (mmul cdim Jt Jit i j) with (rsum cdim (fun k => Jt i k * Jit k j)); rewrite (mmul_id mydim cdim Jt Jit M X V3 V5 i j Hi Hj), Rminus_diag_eq, Rabs_R0 by reflexivity; exact Htc|].
    split.
    { intros i j Hi Hj. assert (E : mmul cdim Ji J i j = mone j i).
      { rewrite <- (ID j i Hj Hi). unfold mmul. apply rsum_ext. intros k Hk. rewrite V4, V2 by assumption. unfold mtr. ring. }
      rewrite E. replace (mone j i) with (mone i j) by (unfold mone; now rewrite Nat.eqb_sym). rewrite Rminus_diag_eq, Rabs_R0 by reflexivity. exact Htc. }
    split; [intros i j Hi Hj; rewrite V3 by assumption; unfold mtr; now rewrite V2|].
    split; [intros i j Hi Hj; rewrite V5 by assumption; unfold mtr; now rewrite V4|].
    split; [exact E6|]. destruct HP as (D1 & D2 & _). split; [lra|]. split.
    { rewrite (@detR_ext mydim _ (mmul cdim M (mtr M))).
      - rewrite <- D2, sqrt_square by lra. rewrite Rminus_diag_eq, Rabs_R0 by reflexivity. lra.
      - intros i j Hi Hj. apply rsum_ext. intros k Hk. unfold mtr. now rewrite !V3. }
    exists true. split; [exact A1|]. intros _. exists (d * referenceVolume id mydim). split; [exact A6|]. replace (d * referenceVolume id mydim - referenceVolume id mydim * d) with 0 by ring. rewrite Rabs_R0. lra.
Qed.
Print Assumptions C82_affine_classes.

(** a rule that contains the centre makes the check fail for the classes that invert with
    gaussNewton: local(global(centre)) throws.  In dimension 0 every point is the centre *)
Theorem C82_centre_refuted :
  forall mydim cdim tol tolc junk id r o M g local c q x w,
    (mydim <= cdim)%nat -> (mydim < 256)%nat -> 0 < tol < 1 / 2 -> (id < 2 ^ N.of_nat mydim)%N -> re_infos id mydim = Some r ->
    row_independent mydim cdim M -> checked_instance mydim cdim tol id r o M true g local ->
    re_position id mydim r 0 0 = Some c -> In (x, w) q -> veq mydim x c ->
    checkGeometry mydim cdim tolc junk g local (detR mydim) (Some q) <> Some true.
Proof.
  intros mydim cdim tol tolc junk id r o M g local c q x w Hm Hd Ht Hid Hr HR HI Hc Hx Vx HG. rewrite <- bit_pow in Hid.
  assert (ND : gt_none (gi_type g) = false).
  { destruct (instance_local mydim cdim tol id r o M true g local Hm Hd Ht Hid Hr HR HI) as (_ & TY & _). now rewrite TY. }
  assert (GN : forall j1 j2 f df gn, gn_usable gn -> (forall x, exists A', df x = Some A' /\ meq mydim cdim A' M) ->
     (forall x, exists fx, f x = Some fx /\ veq cdim fx (fun k => o k + mvec mydim (mtr M) x k)) -> forall y, f x = Some y ->
     gaussNewton mydim cdim j1 j2 f df y gn c = Some (GN_STAGNATION, c)).
  { intros j1 j2 f df gn (G1 & G2 & _) HD HF y Ey. destruct (HF c) as (fc & Ec & Vc). destruct (HF x) as (y' & Ey' & Vy). rewrite Ey in Ey'. injection Ey' as <-.
    destruct (HD c) as (A' & EA & VA). apply (C36_exact_start_stagnates mydim cdim j1 j2 f df y gn c fc A' Hm G1 G2); auto.
    - intro z. destruct (HF z) as (u & -> & _). discriminate.
    - intros k Hk. rewrite Vc, Vy by assumption. f_equal. apply rsum_ext. intros j Hj. now rewrite Vx.
    - eapply rowind_meq; [|exact HR]. intros i j Hi Hj. symmetry. now apply VA. }
  assert (LN : forall y, gi_global g x = Some y -> local y = None).
  { clear HG ND. inversion HI; subst; intros y Ey.
    - cbn [gi_lf gi_global] in Ey. destruct (lf_affine_all mydim cdim (lf_id h) o M Hm Hd Hid h g0 eq_refl H1 H4 H5 H6 H7) as [GL JL].
      unfold lf_local. rewrite Hc. cbn [obind]. rewrite (GN j1 j2 (lf_global cdim h) (lf_jacobianTransposed mydim cdim h) gn H3); auto.
      intro x'. destruct (JL x') as (J & EJ & VJ). unfold lf_jacobianTransposed. rewrite EJ. cbn [option_map]. eexists. split; [reflexivity|]. intros i j Hi Hj. now rewrite VJ.
    - cbn [gi_mg gi_global] in Ey. destruct (reg_identity mydim id r _ _ _ _ H) as (EI & ER & IG).
      unfold mg_local. rewrite H0. cbn [reg_wrapped wg_id wg_ref]. rewrite EI, ER, Hc. cbn [obind].
      rewrite (GN j1 j2 (mg_global g0) (mg_jacobianTransposed mydim g0) gn H5); auto.
      + intro x'. unfold mg_jacobianTransposed, mg_jacobian. rewrite H0. cbn [reg_wrapped wg_global wg_jacobian obind option_map]. eexists. split; [reflexivity|].
        intros i j Hi Hj. rewrite (rsum_ext mydim _ (fun k => if Nat.eqb k i then mtr M j k else 0)).
        * now rewrite (rsum_delta mydim i (fun k => mtr M j k)).
        * intros k Hk. rewrite H3 by assumption. destruct (Nat.eqb k i); ring.
      + intro x'. unfold mg_global. rewrite H0. cbn [reg_wrapped wg_global option_map]. eexists. split; [reflexivity|]. apply H2. }
  apply C82_check in HG. destruct HG as (_ & _ & _ & _ & _ & _ & _ & _ & _ & [H|(r' & p & y & _ & _ & _ & _ & _ & _ & q' & Eq & HQ)]); [congruence|].
  injection Eq as <-. destruct (HQ x w Hx) as (y' & z & Jt & Jit & J & Ji & ie & E1 & E2 & _). rewrite (LN y' E1) in E2. discriminate.
Qed.
Print Assumptions C82_centre_refuted.

(** the tolerance is absolute: intervals shorter than it are rejected although all their
    member functions are right *)
Theorem C82_small_refuted :
  forall tolc ret j1 j2, 0 < tolc -> exists r M a, re_infos 1 1 = Some r /\ row_independent 1 1 M /\
    affine_from_jacobian 1 1 1 r vzero M ret j1 j2 = Some a /\
    forall junk rule, checkGeometry 1 1 tolc junk (gi_ag 1 a) (fun y => Some (ag_local 1 a y)) (detR 1) rule <> Some true.
Proof.
  intros tolc ret j1 j2 Ht. destruct (re_infos_spec 1 1 ltac:(reflexivity)) as (r & Er & _). set (M := (fun _ _ => tolc / 2) : Mat).
  assert (HR : row_independent 1 1 M).
  { intros w Hw i Hi. specialize (Hw 0%nat ltac:(lia)). unfold mvec, mtr, M in Hw. cbn [rsum] in Hw. destruct i; [|lia]. nra. }
  destruct (affine_from_jacobian_ok 1 1 1 r vzero M ret j1 j2 (le_n 1) HR) as (a & Ea & _). exists r, M, a. split; [exact Er|]. split; [exact HR|]. split; [exact Ea|].
  intros junk rule HG. apply C82_check in HG. destruct HG as (_ & _ & vol & _ & _ & _ & _ & Ev & HV & _).
  destruct (pinv_exists 1 1 M (le_n 1) HR) as (X & d & HP).
  destruct (instance_like 1 1 (1 / 4) 1 r vzero M X d (le_n 1) ltac:(lia) ltac:(lra) ltac:(reflexivity) Er HR HP _ (AI_affine 1 1 (1 / 4) 1 r vzero M ret j1 j2 a Ea)) as (_ & _ & _ & _ & _ & A6 & _).
  rewrite A6 in Ev. injection Ev as <-. destruct HP as (D1 & D2 & _).
  assert (E : detR 1 (mmul 1 M (mtr M)) = (tolc / 2) * (tolc / 2)) by (rewrite detR_1; unfold mmul, mtr, M; cbn [rsum]; ring).
  assert (RV : referenceVolume 1 1 = 1) by (apply cub_refvol; [lia|reflexivity]).
  rewrite RV in HV. rewrite E in D2. nra.
Qed.
Print Assumptions C82_small_refuted.

(** the volume of a geometry that is not affine is only compared with the tolerance: any value
    passes *)
Theorem C82_volume_unchecked :
  forall mydim cdim tol junk g local rule vol, gi_affine g = Some false -> tol <= vol ->
    checkGeometry mydim cdim tol junk g local (detR mydim) rule = Some true ->
    checkGeometry mydim cdim tol junk
      {| gi_affine := gi_affine g; gi_type := gi_type g; gi_corners := gi_corners g; gi_corner := gi_corner g; gi_center := gi_center g; gi_volume := Some vol;
         gi_global := gi_global g; gi_jacobian := gi_jacobian g; gi_jacobianTransposed := gi_jacobianTransposed g; gi_jacobianInverse := gi_jacobianInverse g;
         gi_jacobianInverseTransposed := gi_jacobianInverseTransposed g; gi_integrationElement := gi_integrationElement g |} local (detR mydim) rule = Some true.
Proof.
  intros mydim cdim tol junk g local rule vol HA HV H. apply C82_check. apply C82_check in H. unfold passes in *. cbn [gi_corners gi_corner gi_center gi_volume gi_type gi_global].
  destruct H as (c & m & v0 & H1 & H2 & H3 & H4 & H5 & H6 & H7). exists c, m, vol. split; [exact H1|]. split; [exact H2|]. split; [exact H3|]. split; [exact H4|]. split; [reflexivity|]. split; [exact HV|].
  destruct H7 as [H7|(r & p & y & K1 & K2 & K3 & K4 & K5 & K6 & q & K7 & K8)]; [now left|]. right. exists r, p, y. do 6 (split; [assumption|]). exists q. split; [exact K7|].
  intros x w Hx. destruct (K8 x w Hx) as (y' & z & Jt & Jit & J & Ji & ie & L). exists y', z, Jt, Jit, J, Ji, ie.
  cbn [gi_affine gi_volume gi_global gi_jacobian gi_jacobianTransposed gi_jacobianInverse gi_jacobianInverseTransposed gi_integrationElement].
  destruct L as (L1 & L2 & L3 & L4 & L5 & L6 & L7 & L8 & L9 & L10 & L11 & L12 & L13 & L14 & a & L15 & L16). do 14 (split; [assumption|]).
  exists false. split; [exact HA|discriminate].
Qed.
Print Assumptions C82_volume_unchecked.

(** the rectangle [0,2] x [1,4] is accepted, whatever the points *)
Example C82_example :
  forall junk q, checkGeometry 2 2 (1 / 1000) junk (gi_aac 2 2 (aac_make2 2 (v2 0 1) (v2 2 4))) (fun y => Some (aac_local 2 2 (aac_make2 2 (v2 0 1) (v2 2 4)) y)) (detR 2) (Some q) = Some true.
Proof.
  intros junk q. destruct (re_infos_spec 3 2 ltac:(reflexivity)) as (r & Er & _). set (g := aac_make2 2 (v2 0 1) (v2 2 4)). set (M := aac_jacobianTransposed 2 2 g).
  assert (ME : forall i j, (i < 2)%nat -> (j < 2)%nat -> M i j = if Nat.eqb i j then (if Nat.eqb i 0 then 2 else 3) else 0).
  { intros i j Hi Hj. destruct i as [|[|i]]; [| |lia]; (destruct j as [|[|j]]; [| |lia]); cbn; try reflexivity; ring. }
  destruct (center_pos 2 3 r ltac:(reflexivity) Er) as (c & Ec & Vc).
  assert (C : forall k, (k < 2)%nat -> c k = 1 / 2) by (intros k Hk; rewrite Vc by assumption; apply cub_mean; [cbn; auto|cbn; lia]).
  apply (C82_affine_classes 2 2 (1 / 4) (1 / 1000) junk 3 r (v2 0 1) M false (gi_aac 2 2 g) _ c q 6); try lia; try lra; auto.
  - intros w Hw i Hi. specialize (Hw i Hi). unfold mvec, mtr in Hw. cbn [rsum] in Hw. rewrite !ME in Hw by (assumption || lia).
    destruct i as [|[|i]]; cbn [Nat.eqb] in Hw; [lra|lra|lia].
  - apply CI_cube; [reflexivity|reflexivity|apply C29_constructors| |intros k Hk; reflexivity|intros i j Hi Hj; reflexivity].
    intros i Hi _. destruct i as [|[|i]]; [| |lia]; cbn; lra.
  - cbn. f_equal. ring.
  - intros x w _. split; [left; cbn; auto|discriminate].
  - split; [lra|]. intros _ i p Hp.
    assert (Hi : (i < 4)%nat) by (change 4%nat with (length (referenceCorners 3 2)); apply nth_error_Some; congruence).
    assert (N : two_norm 2 (mvec 2 (mtr M) (fun j => p j - c j)) = sqrt (1 + 9 / 4)).
    { unfold two_norm, norm2, mvec, mtr. f_equal. cbn [rsum]. rewrite !ME, !C by lia. cbn [Nat.eqb].
      destruct i as [|[|[|[|i]]]]; [| | | |lia]; cbn in Hp; injection Hp as <-; cbn; unfold vzero; field. }
    rewrite N. rewrite <- (sqrt_square (1 / 1000)) by lra. apply sqrt_lt_1; lra.
Qed.
