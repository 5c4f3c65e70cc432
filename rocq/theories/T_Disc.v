(** C79: quadrature rules on elements: the divergence theorem for the sums a program forms. *)
From Coq Require Import NArith ZArith PeanoNat Bool List Lia QArith.Qreals Reals Lra FunctionalExtensionality.
From Coquelicot Require Import Coquelicot.
From Verif Require Import M_Type M_TypeIndex M_RefTopo M_RefGeo P_Type P_Type2 S_Topo P_Topo P_RefTopo P_RefTopo2 P_RefTopo3 P_RSum P_RefGeo P_RefGeo2 P_RefGeo3 P_Det P_DetInv P_RefDet S_RefGeo P_RefVol P_RefGeo4 T_RefGeo M_Matrix M_MultiLinear S_Matrix S_MultiLinear P_MxBridge P_Matrix P_Matrix3 P_Matrix4 T_Matrix P_Volume P_ML1 P_ML2 P_ML3 P_ML4 P_ML5 T_RefTopo T_MultiLinear P_Trace S_Trace P_Trace2 T_Trace S_Normal P_Normal P_Normal2 T_Normal
  M_QuadFactory M_Quadrature S_Quad S_Quad1D S_QuadND P_QuadProd P_QuadAll T_Quad S_Gauss P_Gauss P_Gauss2 T_Gauss P_Col1 P_Col2 P_Piola P_ColMap P_Orient T_Div P_KuhnInt S_Disc P_DiscPoly P_RulePts P_Disc.
Import ListNotations.
Local Open Scope R_scope.

Lemma hull_pt : forall n (cs : list Vec) i c, nth_error cs i = Some c -> in_hull n cs c.
Proof.
  intros n cs i c H. assert (L : (i < length cs)%nat) by (apply nth_error_Some; congruence).
  exists (fun j => if Nat.eqb j i then 1 else 0). split; [|split].
  - intros j _. destruct (Nat.eqb j i); lra.
  - rewrite Ssum_rsum. now apply (rsum_delta (length cs) i (fun _ => 1)).
  - intros k _. rewrite Ssum_rsum. rewrite (rsum_ext _ _ (fun j => if Nat.eqb j i then c k else 0)).
    + symmetry. now apply (rsum_delta (length cs) i (fun _ => c k)).
    + intros j _. destruct (Nat.eqb_spec j i) as [->|]; [|ring]. rewrite (nth_error_nth _ _ _ H). ring.
Qed.

Section Elements.
Variables (n : nat) (g : MLGeo) (gs : nat -> MLGeo) (es : nat -> Vec * Mat).
Hypothesis Hn : (1 <= n)%nat.
Hypothesis wf : ml_wf n g.
Hypothesis HS : forall i, (i < re_size (ml_ref g) 1)%nat -> sub_geometry n g i 1 (gs i) /\ re_geometry (ml_id g) n 1 i = Some (es i).
Notation T := (topo_of (ml_id g) n).
Notation c := (fun k i => nth i (ml_corners g) vzero k).
Notation nf := (re_size (ml_ref g) 1).

Lemma affine_vals o M k x : corners_affine n n g o M -> (k < n)%nat -> smooth 0 T x ->
  phi T (c k) x = o k + rsum n (fun j => M j k * x j) /\ forall j, (j < n)%nat -> dphi T (c k) j x = M j k.
Proof.
  intros HA Hk Hs. split.
  - destruct (glob_map n g wf 0 vzero x (Rle_refl 0) (regular_0 _ _)) as (u & EU & VU).
    destruct (affine_global n n 0 ltac:(lra) g wf vzero o M x HA (nice_smooth _ _ _ _ Hs)) as (u' & EU' & VU'). rewrite EU in EU'. injection EU' as <-.
    rewrite <- VU' by assumption. symmetry. now apply VU.
  - intros j Hj. destruct (jt_jac n g wf 0 mzero mzero x (Rle_refl 0) Hs) as (J & EJ & VJ).
    destruct (affine_jt n n 0 ltac:(lra) g wf mzero mzero o M x HA (nice_smooth _ _ _ _ Hs)) as (J' & EJ' & VJ'). rewrite EJ in EJ'. injection EJ' as <-.
    rewrite <- (VJ' j k Hj Hk). symmetry. exact (VJ j k Hj Hk).
Qed.
Lemma corner_box R0 i k : in_box n R0 g -> (i < nv T)%nat -> (k < n)%nat -> Rabs (c k i) <= R0.
Proof. intros HBx Hi Hk. apply (HBx (nth i (ml_corners g) vzero) k); [apply nth_In; now rewrite (ml_wf_nv n g wf)|exact Hk]. Qed.
Lemma affine_bounds o M R0 : corners_affine n n g o M -> in_box n R0 g -> forall k, (k < n)%nat -> Rabs (o k) <= R0 /\ forall j, (j < n)%nat -> Rabs (M j k) <= 2 * R0.
Proof.
  intros HA HBx k Hk. apply (affine_img n n g wf) in HA.
  assert (NL : forall j, (j < n)%nat -> (nv (lt (ml_id g) j) < nv T)%nat) by (intros j Hj; rewrite <- nv_lt; now apply nv_mono).
  assert (C0 : Rabs (nth 0 (ml_corners g) vzero k) <= R0) by (apply (corner_box R0 0 k HBx); [apply nv_pos|exact Hk]).
  split; [now rewrite <- (image_origin n (ml_id g) n _ o M k HA Hk)|].
  intros j Hj. rewrite <- (image_edge n (ml_id g) n _ o M j k HA Hj Hk). unfold edge, Rminus. eapply Rle_trans; [apply Rabs_triang|]. rewrite Rabs_Ropp.
  pose proof (corner_box R0 _ k HBx (NL j Hj) Hk) as Q. cbv beta in Q. lra.
Qed.
Lemma pms R0 m : 0 <= R0 -> in_box n R0 g -> poly_element n g m -> forall k, (k < n)%nat -> pm T m (3 ^ n * R0) (c k).
Proof.
  intros HR HBx [[PT ->]|[-> (o & M & HA)]] k Hk.
  - pose proof (pm_polyT T R0 HR (c k) PT) as Q. rewrite tdim_topo in Q. apply Q. intros i Hi. now apply corner_box.
  - destruct (affine_bounds o M R0 HA HBx k Hk) as [B1 B2].
    pose proof (pm_lin T (o k) (fun j => M j k) R0 (c k) HR B1) as Q. rewrite tdim_topo in Q. apply Q; [exact B2|]. intros x Hs. now apply affine_vals.
Qed.

(** the polynomials of all coordinates *)
Lemma poly_family R0 m : 0 <= R0 -> in_box n R0 g -> poly_element n g m -> exists (G : nat -> Vec -> R) (H : nat -> nat -> Vec -> R),
  (forall k, (k < n)%nat -> polyd n m (3 ^ n * R0) (G k)) /\ (forall k j, (k < n)%nat -> (j < n)%nat -> polyd n (m - 1) (3 ^ n * R0) (H k j)) /\
  forall k x, (k < n)%nat -> smooth 0 T x -> phi T (c k) x = G k x /\ forall j, (j < n)%nat -> dphi T (c k) j x = H k j x.
Proof.
  intros HR HBx HPE.
  destruct (fin_choice ((fun _ => 0) : Vec -> R, (fun _ _ => 0) : nat -> Vec -> R)
    (fun k GH => polyd n m (3 ^ n * R0) (fst GH) /\ (forall j, (j < n)%nat -> polyd n (m - 1) (3 ^ n * R0) (snd GH j)) /\
       forall x, smooth 0 T x -> phi T (c k) x = fst GH x /\ forall j, (j < n)%nat -> dphi T (c k) j x = snd GH j x) n) as (GH & Q).
  { intros k Hk. destruct (pms R0 m HR HBx HPE k Hk) as (G & H & A1 & A2 & A3). rewrite tdim_topo in *. exists (G, H). auto. }
  exists (fun k => fst (GH k)), (fun k => snd (GH k)). split; [intros k Hk; apply (Q k Hk)|]. split; [intros k j Hk Hj; now apply (Q k Hk)|].
  intros k x Hk. apply (Q k Hk).
Qed.

(** facets of the element and the types of their geometries *)
Lemma facet_below tol f y : is_face T f -> fcod T f = 1%nat -> below tol (topo_of (ml_id (gs (fidx T f))) (n - 1)) y <-> below tol (ftype T f) y.
Proof.
  intros F1 F2. destruct (facet_data n g gs es Hn wf HS f F1 F2) as (_ & Hi & _). cbv zeta in Hi. destruct (HS _ Hi) as [SG _].
  destruct (sub_face n g wf _ 1 _ SG) as (f' & F1' & F2' & F3' & _ & F5 & F6 & _).
  assert (f' = f) by (apply (fidx_inj T); auto; congruence). subst f'. rewrite <- F6. apply (proj1 (low_below tol _ _ F5 (n - 1) y)).
Qed.


(** *** affine elements: everything but the position is constant *)
Section Affine.
Variables (o : Vec) (M : Mat).
Hypothesis HA : corners_affine n n g o M.
Hypothesis HM : row_independent n n M.

Lemma inside_nice x : insideT T x 1 -> nice n 0 g x.
Proof. intro H. apply nice_inside; [lra|apply regular_0|now apply inside_T]. Qed.
Lemma sub_affine f : is_face T f -> fcod T f = 1%nat ->
  corners_affine (n - 1) n (gs (fidx T f)) (fun k => o k + rsum n (fun j => M j k * forg T f j)) (mmul n (fjt T f) M).
Proof.
  intros F1 F2 i cc pp Hc Hp k Hk.
  destruct (facet_data n g gs es Hn wf HS f F1 F2) as (_ & Hi & He & HEm & HI & HIn & HN). cbv zeta in *. destruct (HS _ Hi) as [SG Hg].
  pose proof (sub_wf n g _ 1 _ SG) as wf'.
  destruct (C30_corners (n - 1) n 0 vzero (gs (fidx T f)) i pp cc ltac:(lra) wf' Hp Hc) as (y & EY & VY).
  assert (IP : insideT (ftype T f) pp 1).
  { apply HIn. unfold inside_ref. now apply (hull_pt _ _ i). }
  destruct (global_trace n g wf _ 1 _ SG n 0 vzero vzero (es (fidx T f)) pp (Rle_refl 0) Hg (regular_0 _ _)) as (u & v & EU & EV & UV).
  rewrite EY in EV. injection EV as <-. rewrite <- (VY k Hk), <- (UV k Hk). rewrite HEm in EU.
  destruct (affine_global n n 0 ltac:(lra) g wf vzero o M _ HA (inside_nice _ (sub_inside n g f _ F1 IP))) as (u' & EU' & VU). rewrite EU in EU'. injection EU' as <-.
  rewrite (VU k Hk). rewrite Rplus_assoc. f_equal.
  assert (TD : tdim (ftype T f) = (n - 1)%nat) by (rewrite tdim_ftype, F2, tdim_topo by assumption; reflexivity).
  unfold Emb, emb_global. cbn [fst snd fpair]. rewrite TD. unfold mmul.
  rewrite (rsum_ext (n - 1) (fun j => rsum n (fun l => fjt T f j l * M l k) * pp j) (fun j => rsum n (fun l => M l k * (fjt T f j l * pp j)))).
  - rewrite rsum_swap, <- rsum_plus. apply rsum_ext. intros j Hj. rewrite rsum_scal. ring.
  - intros j Hj. rewrite <- rsum_scal_r. apply rsum_ext. intros l Hl. ring.
Qed.

Lemma M_det : detR n M <> 0. Proof. now apply rowind_det. Qed.
Lemma M_orient : exists s, (s = 1 \/ s = -1) /\ Rabs (detR n M) = s * detR n M.
Proof. pose proof M_det. unfold Rabs. destruct (Rcase_abs (detR n M)); [exists (-1)|exists 1]; (split; [auto|lra]). Qed.
Definition ag (k : nat) (x : Vec) : R := o k + rsum n (fun j => M j k * x j).
Definition ah (k j : nat) (x : Vec) : R := M j k.

Lemma elt_aff s jv jm jk j1 j2 (Phi : nat -> MPoly) (dPhi : nat -> Vec -> R) x u D :
  Rabs (detR n M) = s * detR n M -> (forall k, (k < n)%nat -> is_partial k (peval n (Phi k)) (dPhi k)) -> insideT T x 1 ->
  mlg_global n n 0 jv g x = Some u -> mlg_integrationElement n n 0 jm jk j1 j2 g x = Some D -> Ssum n (fun k => dPhi k u) * D = fe n Phi s ag ah x.
Proof.
  intros Hs HP Hx EU ED. pose proof (inside_nice x Hx) as NI.
  destruct (affine_global n n 0 ltac:(lra) g wf jv o M x HA NI) as (u' & EU' & VU). rewrite EU in EU'. injection EU' as <-.
  destruct (affine_jt n n 0 ltac:(lra) g wf jm jk o M x HA NI) as (J & EJ & VJ). unfold mlg_integrationElement in ED. rewrite EJ in ED. cbn [obind] in ED.
  rewrite sqrtDet_square in ED by (left; rewrite (detR_meq n _ _ VJ); exact M_det). rewrite (detR_meq n _ _ VJ), Hs in ED. injection ED as <-.
  unfold fe. rewrite Ssum_rsum. rewrite (rsum_ext n (fun k => dPhi k u) (fun k => peval n (pder k (Phi k)) (gmap ag x))).
  - change (detR n (hmat ah x)) with (detR n M). ring.
  - intros k Hk. rewrite (partial_unique n (Phi k) k (dPhi k) Hk (HP k Hk)). apply peval_ext. exact VU.
Qed.
Lemma facet_aff s jv' jm jk j1 j2 jm' jk' j1' j2' (Phi : nat -> MPoly) f y u nu D : let i := fidx T f in
  Rabs (detR n M) = s * detR n M -> is_face T f -> fcod T f = 1%nat -> insideT (ftype T f) y 1 ->
  mlg_global (n - 1) n 0 jv' (gs i) y = Some u -> mapped_normal n n 0 jm jk j1 j2 g i (emb_global (n - 1) (es i) y) nu ->
  mlg_integrationElement (n - 1) n 0 jm' jk' j1' j2' (gs i) y = Some D ->
  Ssum n (fun k => peval n (Phi k) u * (nu k / vlen n nu)) * D = ff n T Phi s ag ah f y.
Proof.
  intros i Hs F1 F2 Hy EU MN ED. subst i.
  destruct (facet_data n g gs es Hn wf HS f F1 F2) as (_ & Hi & He & HEm & HI & HIn & HN). cbv zeta in *. destruct (HS _ Hi) as [SG Hg].
  pose proof (inside_nice _ (sub_inside n g f _ F1 Hy)) as NI. rewrite HEm in MN.
  destruct (global_trace n g wf _ 1 _ SG n 0 vzero jv' (es (fidx T f)) y (Rle_refl 0) Hg (regular_0 _ _)) as (u1 & u2 & EU1 & EU2 & UV).
  rewrite EU in EU2. injection EU2 as <-. rewrite HEm in EU1.
  destruct (affine_global n n 0 ltac:(lra) g wf vzero o M _ HA NI) as (u' & EU' & VU). rewrite EU1 in EU'. injection EU' as <-.
  destruct (affine_jt n n 0 ltac:(lra) g wf jm jk o M _ HA NI) as (J & EJ & VJ).
  destruct (rightInvA_spec n n M mzero mzero mzero (le_n n) HM) as (D0 & X0 & G0 & E0 & PD & DD & HG & HX).
  destruct (aff_core n n g M ltac:(lia) HM D0 X0 E0 f F1 F2) as (_ & _ & PN & QD).
  assert (D0 = Rabs (detR n M)).
  { destruct (C26_sqrtDetAAT n n M mzero mzero HM) as (sd & ES & PS & QS). rewrite sqrtDet_square in ES by (left; exact M_det). injection ES as <-.
    apply Rsqr_inj; [lra|exact PS|]. unfold Rsqr. now rewrite DD, QS. }
  destruct MN as (N & D1 & X & EN & EX & ->). rewrite HN in EN. injection EN as <-.
  unfold mlg_jacobianInverseTransposed in EX. rewrite EJ in EX. cbn [obind] in EX.
  destruct (rightInv_meq n n M J mzero jm mzero mzero j1 j2 (le_n n) (meq_sym _ _ _ _ VJ) HM) as (d & Xa & Xb & EA & EB & VX).
  rewrite E0 in EA. injection EA as <- <-. rewrite EX in EB. injection EB as -> <-.
  assert (NV : veq n (mvec n X (nrm T f)) (mvec n X0 (nrm T f))) by (intros k Hk; unfold mvec; apply rsum_ext; intros j Hj; now rewrite VX).
  assert (wf' := sub_wf n g _ 1 _ SG).
  assert (NI' : nice (n - 1) 0 (gs (fidx T f)) y) by (apply nice_inside; [lra|apply regular_0|now apply HIn]).
  destruct (affine_jt (n - 1) n 0 ltac:(lra) _ wf' jm' jk' _ _ y (sub_affine f F1 F2) NI') as (J' & EJ' & VJ').
  unfold mlg_integrationElement in ED. rewrite EJ' in ED. cbn [obind] in ED. rewrite (QD J' VJ') in ED. injection ED as <-.
  assert (LN : vlen n (mvec n X (nrm T f)) = vlen n (mvec n X0 (nrm T f))) by (now apply vlen_ext). rewrite LN.
  assert (LP : 0 < vlen n (mvec n X0 (nrm T f))) by (unfold vlen; now apply sqrt_lt_R0).
  assert (XM : meq n n (mmul n X0 M) mone).
  { apply minv_comm. eapply meq_trans; [apply meq_mulR; exact HX|]. eapply meq_trans; [apply meq_mulA|]. exact HG. }
  unfold ff, ffx. change (hmat ah (Emb T f y)) with M.
  rewrite (det_flux n M X0 XM (nrm T f) (fun k => peval n (Phi k) (gmap ag (Emb T f y)))).
  rewrite Ssum_rsum, <- rsum_scal_r. rewrite <- Rmult_assoc, <- Hs, <- H, <- rsum_scal. apply rsum_ext. intros k Hk.
  rewrite (peval_ext n (Phi k) u (gmap ag (Emb T f y))) by (intros l Hll; rewrite <- (UV l Hll); now apply VU).
  rewrite (NV k Hk). unfold mvec at 1. field. lra.
Qed.
End Affine.

Section Sums.
Variables (lapack : Z -> nat -> option (list (R * R))) (e tol R0 A : R) (p m : nat) (Phi : nat -> MPoly).
Variables (jv jv' : Vec) (jm jk jm' jk' : Mat) (j1 j2 j1' j2' : Mat).
Hypothesis Ht : 0 <= tol <= / 1024.
Hypothesis Hl : lapackOk e lapack.
Hypothesis Hb : lapackBelow tol lapack.
Hypothesis HR : 1 <= R0.
Hypothesis HBx : in_box n R0 g.
Hypothesis HPE : poly_element n g m.
Hypothesis HRE : regular_element n g jm jk.
Hypothesis HP : field n p A Phi.
Notation B := (3 ^ n * R0).

Lemma B_ge : 1 <= B.
Proof. pose proof (three_ge n). pose proof (pos_INR n). nra. Qed.

Lemma disc : exists I,
  (forall dPhi F r x, (forall k, (k < n)%nat -> is_partial k (peval n (Phi k)) (dPhi k)) ->
     plain_rule lapack e (ml_id g) n (elt_degree n p m) r x -> no_vertices r -> no_end_point r -> elt_sum n tol jv jm jk j1 j2 g dPhi F x ->
     Rabs (quad (ru_points x) F - I) <= errD 1 e n * elt_size n p A B) /\
  (forall Fs rs xs, (forall i, (i < nf)%nat -> plain_rule lapack e (ml_id (gs i)) (n - 1) (facet_degree n p m) (rs i) (xs i) /\
       no_vertices (rs i) /\ no_edges (rs i) /\ no_end_point (rs i) /\ facet_sum n tol jv' jm jk j1 j2 jm' jk' j1' j2' g (gs i) (es i) i Phi (Fs i) (xs i)) ->
     Rabs (Ssum nf (fun i => quad (ru_points (xs i)) (Fs i)) - I) <= INR nf * (errD 1 e (n - 1) * facet_size n p m A B)) /\
  (p = 0%nat -> I = 0).
Proof.
  destruct (poly_family R0 m ltac:(lra) HBx HPE) as (G & H & HG & HH & HV).
  destruct (elt_orient n g wf jm jk HRE) as (s & Hs1 & HD).
  pose proof (tdim_topo (ml_id g) n) as HT.
  pose proof wf as (W1 & W2 & _). pose proof (re_infos_ok _ _ _ W1 W2) as OK.
  assert (RS : nf = tsize T 1) by (rewrite (ok_re_size _ _ _ OK) by lia; reflexivity).
  assert (FF : Iint T (fe n Phi s G H) = lsum (fun f => Iint (ftype T f) (ff n T Phi s G H f)) (faces T 1)).
  { apply (fe_ff n T c Phi s G H HT HV). intros x Hx Hs. now apply HD. }
  assert (PE : polyd n (elt_degree n p m) (elt_size n p A B) (fe n Phi s G H)) by (now apply (fe_polyd n Phi s G H p m A B B_ge)).
  exists (Iint T (fe n Phi s G H)). split; [|split].
  - intros dPhi F r x HDv PR NV NE ES.
    destruct (plain_exact lapack e Hl _ _ _ _ _ PR) as (EX & DG & EP & IN).
    destruct (plain_placed lapack e tol _ _ _ _ _ Ht Hb PR NV NE) as (SM & _).
    apply (quad_close T (ru_points x) (Z.to_nat (ru_order x)) _ (elt_degree n p m)); auto; [now rewrite HT|].
    intros q Iq _. destruct (ES q Iq) as (u & D & EU & ED & ->). pose proof (SM q Iq) as Hs. pose proof (smooth_weak tol T (proj1 Ht) _ Hs) as Hs0.
    destruct (HD _ (IN q Iq) Hs0) as [DN DA]. rewrite (fe_smooth n T c Phi s G H HV _ Hs0).
    apply (elt_value n g wf tol jv jm jk j1 j2); auto. apply Ht.
  - intros Fs rs xs HF. rewrite FF, Ssum_rsum, RS.
    rewrite <- (facets_sum T (fun i => Iint (topo_of (ml_id (gs i)) (n - 1)) (ff n T Phi s G H (nth i (faces T 1) FPt)))).
    2:{ intros f F1 F2. destruct (facet_data n g gs es Hn wf HS f F1 F2) as (_ & Hi & He & HEm & HI & HIn & HN). cbv zeta in *.
        rewrite HI. pose proof (fidx_nth T f F1) as Q. rewrite F2 in Q. now rewrite (nth_error_nth _ _ FPt Q). }
    rewrite <- rsum_minus. eapply Rle_trans; [apply rsum_abs|]. rewrite <- rsum_const_. apply rsum_le. intros i Hi.
    rewrite <- RS in Hi. destruct (HF i Hi) as (PR & NV & NG & NE & ES).
    destruct (nth_face_ex T 1 i ltac:(lia)) as (f & E & F1 & F2 & Ei). rewrite (nth_error_nth _ _ _ E).
    destruct (facet_data n g gs es Hn wf HS f F1 F2) as (_ & _ & He & HEm & HI & HIn & HN). cbv zeta in *. rewrite Ei in *.
    destruct (plain_exact lapack e Hl _ _ _ _ _ PR) as (EX & DG & EP & IN).
    destruct (plain_placed lapack e tol _ _ _ _ _ Ht Hb PR NV NE) as (_ & BL).
    assert (TD : tdim (ftype T f) = (n - 1)%nat) by (rewrite tdim_ftype, F2, HT by assumption; reflexivity).
    apply (quad_close _ (ru_points (xs i)) (Z.to_nat (ru_order (xs i))) _ (facet_degree n p m)); auto.
    + rewrite tdim_topo, <- TD. now apply (ff_polyd n T Phi s G H p m A B HT Hn B_ge).
    + intros q Iq _. destruct (ES q Iq) as (u & nu & D & EU & MN & ED & ->).
      assert (Hy : insideT (ftype T f) (fst q) 1) by (apply HIn; apply inside_T; now apply IN).
      assert (Hs : smooth tol T (Emb T f (fst q))).
      { apply below_facet; auto; [lra|]. apply (facet_below tol f _ F1 F2). rewrite Ei. now apply BL. }
      pose proof (smooth_weak tol T (proj1 Ht) _ Hs) as Hs0.
      destruct (HD _ (sub_inside n g f _ F1 Hy) Hs0) as [DN DA]. rewrite (ff_smooth n T c Phi s G H HV f _ Hs0).
      rewrite <- Ei in EU, MN, ED. apply (facet_value n g gs es Hn wf HS tol jv' jm jk j1 j2 jm' jk' j1' j2'); auto. apply Ht.
  - intros ->. rewrite (Iint_ext T _ (fun _ => 0)); [apply ii_Iint, ii_zero|]. intro x.
    unfold fe. rewrite rsum_0; [ring|]. intros k Hk. apply (pder_zero n); [exact Hk|apply (HP k Hk)].
Qed.

(** *** The discrete divergence theorem *)
Theorem C79_divergence : forall dPhi F Fs r x rs xs,
  (forall k, (k < n)%nat -> is_partial k (peval n (Phi k)) (dPhi k)) ->
  plain_rule lapack e (ml_id g) n (elt_degree n p m) r x -> no_vertices r -> no_end_point r ->
  (forall i, (i < nf)%nat -> plain_rule lapack e (ml_id (gs i)) (n - 1) (facet_degree n p m) (rs i) (xs i) /\
     no_vertices (rs i) /\ no_edges (rs i) /\ no_end_point (rs i)) ->
  elt_sum n tol jv jm jk j1 j2 g dPhi F x -> (forall i, (i < nf)%nat -> facet_sum n tol jv' jm jk j1 j2 jm' jk' j1' j2' g (gs i) (es i) i Phi (Fs i) (xs i)) ->
  Rabs (quad (ru_points x) F - Ssum nf (fun i => quad (ru_points (xs i)) (Fs i)))
  <= errD 1 e n * elt_size n p A B + INR nf * (errD 1 e (n - 1) * facet_size n p m A B).
Proof.
  intros dPhi F Fs r x rs xs HDv PR NV NE HF ES FS. destruct disc as (I & Q1 & Q2 & _).
  specialize (Q1 dPhi F r x HDv PR NV NE ES). specialize (Q2 Fs rs xs ltac:(intros i Hi; destruct (HF i Hi) as (K1 & K2 & K3 & K4); auto 6)).
  set (a := quad _ _) in *. set (b := Ssum _ _) in *. replace (a - b) with ((a - I) + - (b - I)) by ring.
  eapply Rle_trans; [apply Rabs_triang|]. rewrite Rabs_Ropp. lra.
Qed.
(** constant fields: the flux sums of the facets cancel *)
Theorem C79_closed : forall Fs rs xs, p = 0%nat ->
  (forall i, (i < nf)%nat -> plain_rule lapack e (ml_id (gs i)) (n - 1) (facet_degree n p m) (rs i) (xs i) /\
     no_vertices (rs i) /\ no_edges (rs i) /\ no_end_point (rs i)) ->
  (forall i, (i < nf)%nat -> facet_sum n tol jv' jm jk j1 j2 jm' jk' j1' j2' g (gs i) (es i) i Phi (Fs i) (xs i)) ->
  Rabs (Ssum nf (fun i => quad (ru_points (xs i)) (Fs i))) <= INR nf * (errD 1 e (n - 1) * facet_size n p m A B).
Proof.
  intros Fs rs xs Hp HF FS. destruct disc as (I & _ & Q2 & Q3). specialize (Q3 Hp).
  specialize (Q2 Fs rs xs ltac:(intros i Hi; destruct (HF i Hi) as (K1 & K2 & K3 & K4); auto 6)). rewrite Q3, Rminus_0_r in Q2. exact Q2.
Qed.

(** *** The values in the sums exist *)
Theorem C79_defined :
  (forall deg r x, plain_rule lapack e (ml_id g) n deg r x -> no_vertices r -> no_end_point r -> forall q, In q (ru_points x) -> exists u D,
     mlg_global n n tol jv g (fst q) = Some u /\ mlg_integrationElement n n tol jm jk j1 j2 g (fst q) = Some D /\ 0 < D) /\
  (forall i deg r x, (i < nf)%nat -> plain_rule lapack e (ml_id (gs i)) (n - 1) deg r x -> no_vertices r -> no_edges r -> no_end_point r ->
     forall q, In q (ru_points x) -> exists u nu D,
     mlg_global (n - 1) n tol jv' (gs i) (fst q) = Some u /\
     mapped_normal n n tol jm jk j1 j2 g i (emb_global (n - 1) (es i) (fst q)) nu /\ 0 < vlen n nu /\
     mlg_integrationElement (n - 1) n tol jm' jk' j1' j2' (gs i) (fst q) = Some D /\ 0 < D).
Proof.
  destruct (elt_orient n g wf jm jk HRE) as (s & Hs1 & HD). split.
  - intros deg r x PR NV NE q Iq. destruct (plain_exact lapack e Hl _ _ _ _ _ PR) as (_ & _ & _ & IN).
    destruct (plain_placed lapack e tol _ _ _ _ _ Ht Hb PR NV NE) as (SM & _). pose proof (SM q Iq) as Hs. pose proof (smooth_weak tol T (proj1 Ht) _ Hs) as Hs0.
    destruct (HD _ (IN q Iq) Hs0) as [DN DA]. destruct (glob_map n g wf tol jv (fst q) (proj1 Ht) (smooth_regular _ _ _ Hs)) as (u & EU & _).
    exists u, (Rabs (detR n (jacc T c (fst q)))). split; [exact EU|]. split; [apply (ie_det n g wf); auto; apply Ht|now apply Rabs_pos_lt].
  - intros i deg r x Hi PR NV NG NE q Iq. pose proof wf as (W1 & W2 & _).
    destruct (re_face _ _ _ i 1 (re_infos_ok _ _ _ W1 W2) ltac:(lia) Hi) as (f & F1 & F2 & F3 & _).
    destruct (facet_data n g gs es Hn wf HS f F1 F2) as (_ & _ & He & HEm & _ & HIn & HN). cbv zeta in *. rewrite F3 in *.
    destruct (plain_exact lapack e Hl _ _ _ _ _ PR) as (_ & _ & _ & IN).
    destruct (plain_placed lapack e tol _ _ _ _ _ Ht Hb PR NV NE) as (_ & BL).
    assert (Hy : insideT (ftype T f) (fst q) 1) by (apply HIn; apply inside_T; now apply IN).
    assert (Hs : smooth tol T (Emb T f (fst q))) by (apply below_facet; auto; [lra|]; apply (facet_below tol f _ F1 F2); rewrite F3; now apply BL).
    pose proof (smooth_weak tol T (proj1 Ht) _ Hs) as Hs0.
    destruct (HD _ (sub_inside n g f _ F1 Hy) Hs0) as [DN _].
    destruct (HS i Hi) as [SG He']. rewrite <- HEm in Hs, DN.
    destruct (global_trace n g wf i 1 _ SG n tol vzero jv' (es i) (fst q) (proj1 Ht) He' ltac:(now apply smooth_regular)) as (u1 & u2 & _ & EU & _).
    destruct (jit_det n g wf tol jm jk j1 j2 _ (proj1 Ht) Hs DN) as (D & X & EX & _).
    assert (MN : mapped_normal n n tol jm jk j1 j2 g i (emb_global (n - 1) (es i) (fst q)) (mvec n X (nrm T f))) by (exists (nrm T f), D, X; auto).
    destruct (jt_jac n g wf tol jm jk _ (proj1 Ht) Hs) as (J & EJ & VJ).
    assert (HJ : row_independent n n J) by (apply det_rowind; now rewrite (detR_meq n _ _ VJ)).
    destruct (C74_integration_element n n tol jm jk j1 j2 jm' jk' j1' j2' g i (gs i) (es i) (fst q) J _ (proj1 Ht) ltac:(lia) wf SG He' Hs EJ HJ MN) as (D0 & ED0 & PD & PN & EDf).
    exists u2, (mvec n X (nrm T f)), (D0 * vlen n (mvec n X (nrm T f))).
    split; [exact EU|]. split; [exact MN|]. split; [exact PN|]. split; [exact EDf|nra].
Qed.

(** *** Integrals over the element *)
Theorem C79_element : forall (P : MPoly) F FI r x, pdegree_le n P p -> pnorm P <= A ->
  plain_rule lapack e (ml_id g) n (p * m + n * (m - 1)) r x -> no_vertices r -> (no_end_point r \/ tol = 0) ->
  (forall q, In q (ru_points x) -> snd q <> 0 -> exists u D,
     mlg_global n n tol jv g (fst q) = Some u /\ mlg_integrationElement n n tol jm jk j1 j2 g (fst q) = Some D /\ F (fst q) = peval n P u * D) ->
  (forall y, inside_ref n g y -> smooth 0 T y -> exists u D,
     mlg_global n n 0 jv g y = Some u /\ mlg_integrationElement n n 0 jm jk j1 j2 g y = Some D /\ FI y = peval n P u * D) ->
  Rabs (quad (ru_points x) F - Iint T FI) <= errD 1 e n * (A * B ^ p * (INR (fact n) * B ^ n)).
Proof.
  intros P F FI r x PD PN PR NV NE HF HFI.
  destruct (poly_family R0 m ltac:(lra) HBx HPE) as (G & H & HG & HH & HV).
  destruct (elt_orient n g wf jm jk HRE) as (s & Hs1 & HD).
  pose proof (tdim_topo (ml_id g) n) as HT.
  set (h := fun y => s * (peval n P (gmap G y) * detR n (hmat H y))).
  assert (HS0 : forall tol' y u D, 0 <= tol' -> insideT T y 1 -> smooth tol' T y -> mlg_global n n tol' jv g y = Some u ->
    mlg_integrationElement n n tol' jm jk j1 j2 g y = Some D -> peval n P u * D = h y).
  { intros tol' y u D H0 Hy Hs EU ED. pose proof (smooth_weak tol' T H0 _ Hs) as Hs0. destruct (HD y Hy Hs0) as [DN DA].
    rewrite (ie_det n g wf tol' jm jk j1 j2 _ H0 Hs DN) in ED. injection ED as <-. rewrite DA. unfold h.
    destruct (glob_map n g wf tol' jv y H0 (smooth_regular _ _ _ Hs)) as (u0 & EU0 & VU). rewrite EU in EU0. injection EU0 as <-.
    rewrite (peval_ext n P u (gmap G y)) by (intros l Hll; rewrite (VU l Hll); now apply (HV l y Hll Hs0)).
    rewrite (detR_meq n (jacc T c y) (hmat H y)); [ring|]. intros j k Hj Hk. now apply (HV k y Hk Hs0). }
  assert (PH : polyd n (p * m + n * (m - 1)) (A * B ^ p * (INR (fact n) * B ^ n)) h).
  { unfold h. apply polyd_sign; [now apply s_abs|]. apply polyd_mult.
    - apply (polyd_comp_f n n (peval n P) p A (gmap G) m B B_ge); [exact HG|]. exists P. auto.
    - apply polyd_det. intros j k Hj Hk. now apply HH. }
  rewrite (Iint_ext_in T FI h).
  2:{ intros y Hy Hs. destruct (HFI y ltac:(now apply inside_T) Hs) as (u & D & EU & ED & ->). now apply (HS0 0); auto; lra. }
  destruct (plain_exact lapack e Hl _ _ _ _ _ PR) as (EX & DG & EP & IN).
  apply (quad_close T (ru_points x) (Z.to_nat (ru_order x)) _ (p * m + n * (m - 1))); auto; [now rewrite HT|].
  intros q Iq Wq. destruct (HF q Iq Wq) as (u & D & EU & ED & ->). apply (HS0 tol); auto; [apply Ht|].
  destruct NE as [NE|E].
  - now apply (plain_placed lapack e tol _ _ _ _ _ Ht Hb PR NV NE).
  - rewrite E. exact (plain_weighted lapack e tol _ _ _ _ _ Ht Hb PR NV q Iq Wq).
Qed.
End Sums.

(** *** Affine elements: every rule, whatever its points *)
Theorem C79_affine : forall lapack e R0 A p Phi jv jv' jm jk j1 j2 jm' jk' j1' j2' o M dPhi F Fs r x rs xs,
  lapackOk e lapack -> 1 <= R0 -> in_box n R0 g -> corners_affine n n g o M -> row_independent n n M -> field n p A Phi ->
  (forall k, (k < n)%nat -> is_partial k (peval n (Phi k)) (dPhi k)) ->
  plain_rule lapack e (ml_id g) n (p - 1) r x ->
  (forall i, (i < nf)%nat -> plain_rule lapack e (ml_id (gs i)) (n - 1) p (rs i) (xs i)) ->
  elt_sum n 0 jv jm jk j1 j2 g dPhi F x ->
  (forall i, (i < nf)%nat -> facet_sum n 0 jv' jm jk j1 j2 jm' jk' j1' j2' g (gs i) (es i) i Phi (Fs i) (xs i)) ->
  Rabs (quad (ru_points x) F - Ssum nf (fun i => quad (ru_points (xs i)) (Fs i)))
  <= errD 1 e n * elt_size n p A (3 ^ n * R0) + INR nf * (errD 1 e (n - 1) * facet_size n p 1 A (3 ^ n * R0)).
Proof.
  intros lapack e R0 A p Phi jv jv' jm jk j1 j2 jm' jk' j1' j2' o M dPhi F Fs r x rs xs Hl HR HBx HA HM HP HDv PR PRs ES FS.
  destruct (M_orient M HM) as (s & Hs1 & Hs).
  pose proof (tdim_topo (ml_id g) n) as HT.
  pose proof wf as (W1 & W2 & _). pose proof (re_infos_ok _ _ _ W1 W2) as OK.
  assert (RS : nf = tsize T 1) by (rewrite (ok_re_size _ _ _ OK) by lia; reflexivity).
  assert (BG : 1 <= 3 ^ n * R0) by (pose proof (three_ge n); pose proof (pos_INR n); nra).
  assert (HG : forall k, (k < n)%nat -> polyd n 1 (3 ^ n * R0) (ag o M k)).
  { intros k Hk. destruct (affine_bounds o M R0 HA HBx k Hk) as [B1 B2]. apply polyd_lin; [lra|exact B1|exact B2]. }
  assert (HH : forall k j, (k < n)%nat -> (j < n)%nat -> polyd n (1 - 1) (3 ^ n * R0) (ah M k j)).
  { intros k j Hk Hj. destruct (affine_bounds o M R0 HA HBx k Hk) as [B1 B2]. apply (polyd_weaken n 0 (1 - 1) (Rabs (M j k))); [apply polyd_const|lia|].
    specialize (B2 j Hj). pose proof (three_ge n). assert (1 <= INR n) by (apply (le_INR 1); exact Hn). nra. }
  assert (FF : Iint T (fe n Phi s (ag o M) (ah M)) = lsum (fun f => Iint (ftype T f) (ff n T Phi s (ag o M) (ah M) f)) (faces T 1)).
  { apply (fe_ff n T c Phi s (ag o M) (ah M) HT).
    - intros k y Hk Hy. destruct (affine_vals o M k y HA Hk Hy) as [V1 V2]. split; [exact V1|exact V2].
    - intros y Hi Hy. rewrite (detR_meq n _ M); [now apply M_det|]. intros j k Hj Hk. unfold jacc. now apply (affine_vals o M k y HA Hk Hy). }
  assert (Q1 : Rabs (quad (ru_points x) F - Iint T (fe n Phi s (ag o M) (ah M))) <= errD 1 e n * elt_size n p A (3 ^ n * R0)).
  { destruct (plain_exact lapack e Hl _ _ _ _ _ PR) as (EX & DG & EP & IN).
    apply (quad_close T (ru_points x) (Z.to_nat (ru_order x)) _ (p - 1)); auto.
    - rewrite HT. apply (polyd_weaken n (elt_degree n p 1) (p - 1) (elt_size n p A (3 ^ n * R0))); [now apply fe_polyd|unfold elt_degree; lia|lra].
    - intros q Iq _. destruct (ES q Iq) as (u & D & EU & ED & ->). now apply (elt_aff o M HA HM s jv jm jk j1 j2); auto. }
  assert (Q2 : Rabs (Ssum nf (fun i => quad (ru_points (xs i)) (Fs i)) - Iint T (fe n Phi s (ag o M) (ah M))) <= INR nf * (errD 1 e (n - 1) * facet_size n p 1 A (3 ^ n * R0))).
  { rewrite FF, Ssum_rsum, RS.
    rewrite <- (facets_sum T (fun i => Iint (topo_of (ml_id (gs i)) (n - 1)) (ff n T Phi s (ag o M) (ah M) (nth i (faces T 1) FPt)))).
    2:{ intros f F1 F2. destruct (facet_data n g gs es Hn wf HS f F1 F2) as (_ & Hi & He & HEm & HI & HIn & HN). cbv zeta in *.
        rewrite HI. pose proof (fidx_nth T f F1) as Q. rewrite F2 in Q. now rewrite (nth_error_nth _ _ FPt Q). }
    rewrite <- rsum_minus. eapply Rle_trans; [apply rsum_abs|]. rewrite <- rsum_const_. apply rsum_le. intros i Hi.
    rewrite <- RS in Hi. pose proof (PRs i Hi) as PRi. pose proof (FS i Hi) as FSi.
    destruct (nth_face_ex T 1 i ltac:(lia)) as (f & E & F1 & F2 & Ei). rewrite (nth_error_nth _ _ _ E).
    destruct (facet_data n g gs es Hn wf HS f F1 F2) as (_ & _ & He & HEm & HI & HIn & HN). cbv zeta in *. rewrite Ei in *.
    destruct (plain_exact lapack e Hl _ _ _ _ _ PRi) as (EX & DG & EP & IN).
    assert (TD : tdim (ftype T f) = (n - 1)%nat) by (rewrite tdim_ftype, F2, HT by assumption; reflexivity).
    apply (quad_close _ (ru_points (xs i)) (Z.to_nat (ru_order (xs i))) _ p); auto.
    + rewrite tdim_topo, <- TD. apply (polyd_weaken _ (facet_degree n p 1) p (facet_size n p 1 A (3 ^ n * R0))); [now apply ff_polyd|unfold facet_degree; lia|lra].
    + intros q Iq _. destruct (FSi q Iq) as (u & nu & D & EU & MN & ED & ->).
      assert (Hy : insideT (ftype T f) (fst q) 1) by (apply HIn; apply inside_T; now apply IN).
      rewrite <- Ei in EU, MN, ED. now apply (facet_aff o M HA HM s jv' jm jk j1 j2 jm' jk' j1' j2'). }
  set (a := quad _ _) in *. set (b := Ssum _ _) in *. set (I := Iint _ _) in *. replace (a - b) with ((a - I) + - (b - I)) by ring.
  eapply Rle_trans; [apply Rabs_triang|]. rewrite Rabs_Ropp. lra.
Qed.
End Elements.
Print Assumptions C79_divergence.
Print Assumptions C79_closed.
Print Assumptions C79_affine.
Print Assumptions C79_defined.
Print Assumptions C79_element.

(** *** Where the points of the rules lie *)
Theorem C79_points : forall lapack e tol id dim deg r x, lapackOk e lapack -> 0 <= tol <= / 1024 -> lapackBelow tol lapack ->
  plain_rule lapack e id dim deg r x ->
  (forall q, In q (ru_points x) -> in_hull dim (referenceCorners id dim) (fst q)) /\
  (no_vertices r -> forall q, In q (ru_points x) ->
     (no_end_point r -> smooth tol (topo_of id dim) (fst q)) /\ (snd q <> 0 -> smooth 0 (topo_of id dim) (fst q))).
Proof.
  intros lapack e tol id dim deg r x Hl Ht Hb PR. split.
  - pose proof PR as (V & D & Ty & W & TE & Q & O). destruct (C43_all_rules lapack e r x Hl TE V Q) as (_ & H & _). rewrite D, Ty in H. exact H.
  - intros NV q Iq. split; [intro NE; now apply (plain_placed lapack e tol _ _ _ _ _ Ht Hb PR NV NE)|].
    now apply (plain_weighted lapack e tol _ _ _ _ _ Ht Hb PR NV).
Qed.
Print Assumptions C79_points.

(** the rules of order 3 on tetrahedra have the apex, where the map of a pyramid has no
    Jacobian, among their points of nonzero weight *)
Theorem C79_apex_refuted : exists r x q, plain_rule (fun _ _ => None) (tableErr 3 0) 0 3 3 r x /\ no_end_point r /\
  In q (ru_points x) /\ 0 < snd q /\ ~ smooth 0 (topo_of 0 3) (fst q).
Proof.
  set (r := mkReq 3 (GT2 0 3) 3 0).
  assert (E : quadRule (fun _ _ => None) r = Some (storeRule tetrahedron (M_Tab.run M_TabSimplex.tetrahedronInit) 8)).
  { unfold quadRule. cbn [rq_dim rq_t rq_p rq_qt r]. replace (inRange 3 (GT2 0 3) 3 0) with true by (symmetry; vm_compute; reflexivity).
    rewrite P_QuadAll.factory_SS, P_QuadFactory.choose_SS. replace (isSimplex (GT2 0 3) && _ && _) with true by (symmetry; vm_compute; reflexivity). cbn [simplexRule].
    replace (highestTetrahedron <? 3)%Z with false by reflexivity. reflexivity. }
  exists r, (storeRule tetrahedron (M_Tab.run M_TabSimplex.tetrahedronInit) 8). eexists. split; [|split; [split; discriminate|]].
  - split; [|split; [reflexivity|split; [reflexivity|split; [reflexivity|split; [apply Rle_refl|split; [exact E|]]]]]].
    + split; [cbn; lia|]. split; [reflexivity|]. split; [cbn; lia|]. split; [cbn; discriminate|].
      split; [cbn; unfold qtSize; lia|]. right. exists 59%Z. split; [vm_compute; reflexivity|cbn; lia].
    + vm_compute. discriminate.
  - split; [cbn [ru_points storeRule]; apply in_map_iff; exists 3%nat; split; [reflexivity|cbn; tauto]|]. cbn [fst snd].
    replace (M_Tab.st_W (M_Tab.run M_TabSimplex.tetrahedronInit) 8 3) with (250 # 60000)%Q by (vm_compute; reflexivity).
    split; [unfold Q2R; cbn; lra|].
    cbn. intros [H|[H _]]; [discriminate|]. replace (M_Tab.st_G (M_Tab.run M_TabSimplex.tetrahedronInit) 8 3 2) with (10 # 10)%Q in H by (vm_compute; reflexivity).
    unfold Q2R in H. cbn in H. replace (1 - 10 * / 10) with 0 in H by lra. rewrite Rabs_R0 in H. lra.
Qed.
Print Assumptions C79_apex_refuted.

(** A quadrilateral that is no parallelogram, a field of degree 2 and the rules of order 4 on
    the element and of order 5 on its facets. *)
Example C79_example : forall jm jk (lapack : Z -> nat -> option (list (R * R))), lapack = (fun _ _ => None) -> exists ref gs es (r : Req) x (rs : nat -> Req) xs,
  let g := skewquad ref in let Phi : nat -> MPoly := fun k => if Nat.eqb k 0 then [(1, fun j => if Nat.eqb j 0 then 2%nat else 0%nat)] else [(1, fun _ => 1%nat)] in
  ml_wf 2 g /\ (forall i, (i < re_size (ml_ref g) 1)%nat -> sub_geometry 2 g i 1 (gs i) /\ re_geometry (ml_id g) 2 1 i = Some (es i)) /\
  re_size (ml_ref g) 1 = 4%nat /\ in_box 2 2 g /\ poly_element 2 g 2 /\ regular_element 2 g jm jk /\ (forall o M, ~ corners_affine 2 2 g o M) /\
  field 2 2 1 Phi /\ lapackOk (5 / IZR (10 ^ 17)) lapack /\ lapackBelow (/ 1024) lapack /\
  plain_rule lapack (5 / IZR (10 ^ 17)) (ml_id g) 2 (elt_degree 2 2 2) r x /\ no_vertices r /\ no_end_point r /\ length (ru_points x) = 9%nat /\
  forall i, (i < 4)%nat -> plain_rule lapack (5 / IZR (10 ^ 17)) (ml_id (gs i)) 1 (facet_degree 2 2 2) (rs i) (xs i) /\
    no_vertices (rs i) /\ no_edges (rs i) /\ no_end_point (rs i) /\ length (ru_points (xs i)) = 3%nat.
Proof.
  intros jm jk lapack ->. destruct (C77_example jm jk) as [(ref & wf & HR & HA) _].
  assert (EX : forall i, (i < re_size (ml_ref (skewquad ref)) 1)%nat -> exists ge, sub_geometry 2 (skewquad ref) i 1 (fst ge) /\ re_geometry 3 2 1 i = Some (snd ge)).
  { intros i Hi. destruct (C73_sub_geometry_exists 2 _ i 1 wf ltac:(lia) Hi) as (g' & SG). pose proof wf as (W1 & W2 & _).
    destruct (sub_face 2 _ wf i 1 g' SG) as (f & F1 & F2 & F3 & F4 & _). exists (g', fpair (topo_of 3 2) f). split; [exact SG|exact F4]. }
  destruct (fin_choice (skewquad ref, (vzero, mzero)) _ _ EX) as (ge & Hge).
  assert (N4 : re_size (ml_ref (skewquad ref)) 1 = 4%nat).
  { pose proof wf as (W1 & W2 & _). rewrite (ok_re_size _ _ _ (re_infos_ok _ _ _ W1 W2)) by lia. reflexivity. }
  assert (LR : exists x, quadRule (fun _ _ => None) (mkReq 2 (GT2 3 2) 4 0) = Some x /\ ru_order x = 4%Z /\ length (ru_points x) = 9%nat).
  { assert (L : option_map (fun x => (ru_order x, length (ru_points x))) (quadRule (fun _ _ => None) (mkReq 2 (GT2 3 2) 4 0)) = Some (4%Z, 9%nat)) by (vm_compute; reflexivity).
    destruct (quadRule _ _) as [x|]; [|discriminate]. injection L as L1 L2. eauto. }
  assert (LF : forall id, (id < 2)%N -> exists x, quadRule (fun _ _ => None) (mkReq 1 (GT2 id 1) 5 0) = Some x /\ ru_order x = 5%Z /\ length (ru_points x) = 3%nat).
  { intros id Hid. assert (L : option_map (fun x => (ru_order x, length (ru_points x))) (quadRule (fun _ _ => None) (mkReq 1 (GT2 id 1) 5 0)) = Some (5%Z, 3%nat)).
    { assert (id = 0 \/ id = 1)%N as [->| ->] by lia; vm_compute; reflexivity. }
    destruct (quadRule (fun _ _ => None) (mkReq 1 (GT2 id 1) 5 0)) as [x|]; [|discriminate]. injection L as L1 L2. eauto. }
  assert (TE : forall p, (p <= 5)%Z -> tableErr p 0 <= 5 / IZR (10 ^ 17)).
  { intros p Hp. unfold tableErr. cbn [Nat.eqb orb]. rewrite (proj2 (Z.leb_le p 5) Hp). apply Rle_refl. }
  destruct LR as (x & Ex & Ox & Lx).
  assert (FX : forall i, (i < 4)%nat -> exists y, quadRule (fun _ _ => None) (mkReq 1 (GT2 (ml_id (fst (ge i))) 1) 5 0) = Some y /\ ru_order y = 5%Z /\ length (ru_points y) = 3%nat).
  { intros i Hi. rewrite <- N4 in Hi. destruct (Hge i Hi) as [SG _]. pose proof (sub_wf 2 _ i 1 _ SG) as (W & _). apply LF. exact W. }
  destruct (fin_choice x _ _ FX) as (xs & Hxs).
  exists ref, (fun i => fst (ge i)), (fun i => snd (ge i)), (mkReq 2 (GT2 3 2) 4 0), x, (fun i => mkReq 1 (GT2 (ml_id (fst (ge i))) 1) 5 0), xs. cbv zeta.
  split; [exact wf|]. split; [exact Hge|]. split; [exact N4|]. split.
  { intros c k Hc Hk. cbn in Hc. assert (k = 0 \/ k = 1)%nat as [->| ->] by lia; destruct Hc as [<-|[<-|[<-|[<-|[]]]]]; cbn; apply Rabs_le; lra. }
  split; [left; split; [cbn; auto|reflexivity]|]. split; [exact HR|]. split; [exact HA|]. split.
  { intros k Hk. assert (k = 0 \/ k = 1)%nat as [->| ->] by lia; cbn [Nat.eqb]; (split; [intros c ex [I|[]]; injection I as <- <-; cbn; lia|cbn [pnorm]; rewrite Rabs_R1; lra]). }
  split; [intros p a d H; discriminate|]. split; [intros p a d y w H; discriminate|]. split.
  { split; [|split; [reflexivity|split; [reflexivity|split; [reflexivity|split; [apply TE; cbn; lia|split; [exact Ex|rewrite Ox; cbn; lia]]]]]].
    split; [cbn; lia|]. split; [reflexivity|]. split; [cbn; lia|]. split; [cbn; discriminate|]. split; [cbn; unfold qtSize; lia|]. right. exists 61%Z. split; [vm_compute; reflexivity|cbn; lia]. }
  split; [left; discriminate|]. split; [split; discriminate|]. split; [exact Lx|].
  intros i Hi. destruct (Hxs i Hi) as (Ei & Oi & Li). split.
  { split; [|split; [reflexivity|split; [reflexivity|split; [reflexivity|split; [apply TE; cbn; lia|split; [exact Ei|rewrite Oi; cbn; lia]]]]]].
    pose proof Hi as Hi'. rewrite <- N4 in Hi'. destruct (Hge i Hi') as [SG _]. pose proof (sub_wf 2 _ i 1 _ SG) as (W & _).
    split; [cbn; lia|]. split; [reflexivity|]. split; [exact W|]. split; [cbn; discriminate|]. split; [cbn; unfold qtSize; lia|]. right. exists 61%Z. split; [|cbn; lia].
    cbn [rq_dim rq_t rq_qt]. assert (V : (ml_id (fst (ge i)) = 0 \/ ml_id (fst (ge i)) = 1)%N) by (cbn in W; lia). destruct V as [-> | ->]; vm_compute; reflexivity. }
  split; [right; right; cbn; lia|]. split; [left; discriminate|]. split; [split; discriminate|exact Li].
Qed.
