(** C74: outer normals of mapped elements. *)
From Coq Require Import NArith PeanoNat Bool List Lia Reals Lra FunctionalExtensionality.
From Verif Require Import M_Type M_RefTopo M_RefGeo P_Type P_Type2 S_Topo P_Topo P_RefTopo P_RefTopo2 P_RefTopo3 P_RSum P_RefGeo P_RefGeo2 P_RefGeo3 P_Det P_RefDet S_RefGeo P_RefVol P_RefGeo4 T_RefGeo M_Matrix M_MultiLinear S_Matrix S_MultiLinear P_MxBridge P_Matrix P_Matrix3 P_Matrix4 T_Matrix P_Volume P_ML1 P_ML2 P_ML3 P_ML5 T_RefTopo T_MultiLinear P_Trace S_Trace P_Trace2 T_Trace S_Normal P_Normal P_Normal2.
Import ListNotations.
Local Open Scope R_scope.

(** *** Nanson's formula: integration elements of element and facet *)
Theorem C74_integration_element :
  forall mydim cdim tol jm jk j1 j2 jm' jk' j1' j2' g i g' e y J n, 0 <= tol -> (1 <= mydim <= cdim)%nat ->
    ml_wf mydim g -> sub_geometry mydim g i 1 g' -> re_geometry (ml_id g) mydim 1 i = Some e ->
    let x := emb_global (mydim - 1) e y in
    smooth tol (topo_of (ml_id g) mydim) x ->
    mlg_jacobianTransposed mydim cdim tol jm jk g x = Some J -> row_independent mydim cdim J ->
    mapped_normal mydim cdim tol jm jk j1 j2 g i x n ->
    exists D, mlg_integrationElement mydim cdim tol jm jk j1 j2 g x = Some D /\ 0 < D /\ 0 < vlen cdim n /\
      mlg_integrationElement (mydim - 1) cdim tol jm' jk' j1' j2' g' y = Some (D * vlen cdim n).
Proof.
  intros mydim cdim tol jm jk j1 j2 jm' jk' j1' j2' g i g' e y J n Ht Hd wf SG He x Hs HJ HR (N & D & X & EN & EX & ->).
  destruct (sub_face mydim g wf i 1 g' SG) as (f & F1 & F2 & F3 & F4 & _).
  pose proof He as He'. rewrite F4 in He'. injection He' as <-.
  destruct (jt_trace mydim g wf i 1 g' SG cdim tol jm jk jm' jk' _ y Ht He Hs) as (_ & J0 & J' & EJ & EJ' & VJ').
  fold x in EJ. rewrite HJ in EJ. injection EJ as <-. cbn [snd fpair] in VJ'.
  rewrite referenceIntegrationOuterNormals_spec in EN by lia. rewrite nth_error_map in EN.
  pose proof (fidx_nth _ f F1) as F. rewrite F2, F3 in F. rewrite F in EN. injection EN as <-.
  pose proof (facet_core _ f F1 F2 cdim J jm j1 j2) as H. rewrite tdim_topo in H.
  destruct (H (proj2 Hd) HR) as (D' & X' & EX' & PD & DD & JN & PN & _ & Q).
  unfold mlg_jacobianInverseTransposed in EX. rewrite HJ in EX. cbn [obind] in EX. rewrite EX in EX'. injection EX' as <- <-.
  exists D. unfold mlg_integrationElement. rewrite HJ, EJ'. cbn [obind]. split.
  - destruct (C26_sqrtDetAAT mydim cdim J j1 j2 HR) as (s & ES & PS & QS). rewrite ES. f_equal.
    apply Rsqr_inj; [lra|lra|]. unfold Rsqr. now rewrite DD, QS.
  - split; [exact PD|]. split; [now apply sqrt_lt_R0|]. now apply (proj2 (Q J' VJ')).
Qed.
Print Assumptions C74_integration_element.

(** *** Direction: the product with an image vector is the product on the reference element, the
    normal is orthogonal to the image of the facet, tangential to the element, and outward *)
Theorem C74_direction :
  forall mydim cdim tol jm jk j1 j2 jm' jk' g i g' e y J J' n, 0 <= tol -> (1 <= mydim <= cdim)%nat ->
    ml_wf mydim g -> sub_geometry mydim g i 1 g' -> re_geometry (ml_id g) mydim 1 i = Some e ->
    let x := emb_global (mydim - 1) e y in
    smooth tol (topo_of (ml_id g) mydim) x ->
    mlg_jacobianTransposed mydim cdim tol jm jk g x = Some J -> row_independent mydim cdim J ->
    mlg_jacobianTransposed (mydim - 1) cdim tol jm' jk' g' y = Some J' ->
    mapped_normal mydim cdim tol jm jk j1 j2 g i x n ->
    (exists N, nth_error (referenceIntegrationOuterNormals (ml_id g) mydim) i = Some N /\
       forall v, vdot cdim n (mvec mydim (mtr J) v) = vdot mydim N v) /\
    (forall v, vdot cdim n (mvec (mydim - 1) (mtr J') v) = 0) /\
    (exists w, veq cdim n (mvec mydim (mtr J) w)) /\
    (forall p, inside_ref mydim g p -> vdot cdim n (mvec mydim (mtr J) (fun l => p l - x l)) <= 0) /\
    (forall p, re_position (ml_id g) mydim (ml_ref g) 0 0 = Some p -> vdot cdim n (mvec mydim (mtr J) (fun l => p l - x l)) < 0).
Proof.
  intros mydim cdim tol jm jk j1 j2 jm' jk' g i g' e y J J' n Ht Hd wf SG He x Hs HJ HR HJ' (N & D & X & EN & EX & ->).
  destruct (sub_face mydim g wf i 1 g' SG) as (f & F1 & F2 & F3 & F4 & F5 & F6 & F7 & F8 & _).
  pose proof He as He'. rewrite F4 in He'. injection He' as <-.
  destruct (jt_trace mydim g wf i 1 g' SG cdim tol jm jk jm' jk' _ y Ht He Hs) as (_ & J0 & J1 & EJ & EJ' & VJ').
  fold x in EJ. rewrite HJ in EJ. injection EJ as <-. cbn [snd fpair] in VJ'. rewrite HJ' in EJ'. injection EJ' as <-.
  pose proof EN as EN'. rewrite referenceIntegrationOuterNormals_spec in EN by lia. rewrite nth_error_map in EN.
  pose proof (fidx_nth _ f F1) as F. rewrite F2, F3 in F. rewrite F in EN. injection EN as <-.
  set (T := topo_of (ml_id g) mydim) in *.
  pose proof (facet_core _ f F1 F2 cdim J jm j1 j2) as H. unfold T in H. rewrite tdim_topo in H. fold T in H.
  destruct (H (proj2 Hd) HR) as (D' & X' & EX' & PD & DD & JN & PN & (w & Hw) & _).
  unfold mlg_jacobianInverseTransposed in EX. rewrite HJ in EX. cbn [obind] in EX. rewrite EX in EX'. injection EX' as <- <-.
  assert (A : forall v, vdot cdim (mvec mydim X (nrm T f)) (mvec mydim (mtr J) v) = vdot mydim (nrm T f) v).
  { intro v. unfold vdot. rewrite (rsum_ext mydim _ (fun l => rsum cdim (fun k => J l k * mvec mydim X (nrm T f) k * v l))).
    - rewrite rsum_swap. apply rsum_ext. intros k Hk. unfold mvec at 2, mtr. rewrite <- rsum_scal. apply rsum_ext. intros; ring.
    - intros l Hl. rewrite <- (JN l Hl) at 1. unfold mvec at 1. rewrite <- rsum_scal_r. apply rsum_ext. intros; ring. }
  assert (Hh : vdot mydim (nrm T f) x = hgt T f).
  { unfold x. rewrite F8. pose proof (nrm_face T f y F1 F2) as Q. unfold T in Q at 1. rewrite tdim_topo in Q. exact Q. }
  assert (Sub : forall p, vdot mydim (nrm T f) (fun l => p l - x l) = vdot mydim (nrm T f) p - hgt T f).
  { intro p. rewrite <- Hh. unfold vdot. rewrite <- rsum_minus. apply rsum_ext. intros; ring. }
  split; [|split; [|split; [|split]]].
  - exists (nrm T f). split; [exact EN'|exact A].
  - intro v.
    transitivity (vdot cdim (mvec mydim X (nrm T f)) (mvec mydim (mtr J) (Lin T f v))).
    + unfold vdot. apply rsum_ext. intros k Hk. f_equal. unfold mvec, mtr, Lin. rewrite F7.
      rewrite (rsum_ext (mydim - 1) _ (fun j => rsum mydim (fun l => J l k * (fjt T f j l * v j)))).
      * rewrite rsum_swap. apply rsum_ext. intros l Hl. rewrite rsum_scal. reflexivity.
      * intros j Hj. rewrite VJ' by assumption. unfold mmul. rewrite <- rsum_scal_r. apply rsum_ext. intros; ring.
    + rewrite A. pose proof (nrm_orthogonal T f v F1 F2) as Q. unfold T in Q at 1. rewrite tdim_topo in Q. exact Q.
  - exists w. exact Hw.
  - intros p Hp. rewrite A, Sub. pose proof (nrm_support_inside T f p 1 F1 F2) as Q.
    unfold T in Q at 2. rewrite tdim_topo in Q. apply inside_T in Hp. specialize (Q Hp). unfold vdot, dot in *. lra.
  - intros p Hp. destruct (center_spec mydim g wf) as (p' & EP & VP). rewrite EP in Hp. injection Hp as <-.
    rewrite A, Sub. pose proof (nrm_mean_strict T f F1 F2) as Q. unfold T in Q at 1. rewrite tdim_topo in Q.
    assert (vdot mydim (nrm T f) p' = dot mydim (nrm T f) (meanT T)); [|lra].
    apply dot_ext; [reflexivity|]. exact VP.
Qed.
Print Assumptions C74_direction.

(** *** Uniqueness: tangential to the element and orthogonal to the facet means a multiple *)
Theorem C74_unique :
  forall mydim cdim tol jm jk j1 j2 jm' jk' g i g' e y J J' n z, 0 <= tol -> (1 <= mydim <= cdim)%nat ->
    ml_wf mydim g -> sub_geometry mydim g i 1 g' -> re_geometry (ml_id g) mydim 1 i = Some e ->
    let x := emb_global (mydim - 1) e y in
    smooth tol (topo_of (ml_id g) mydim) x ->
    mlg_jacobianTransposed mydim cdim tol jm jk g x = Some J -> row_independent mydim cdim J ->
    mlg_jacobianTransposed (mydim - 1) cdim tol jm' jk' g' y = Some J' ->
    mapped_normal mydim cdim tol jm jk j1 j2 g i x n ->
    (exists w, veq cdim z (mvec mydim (mtr J) w)) -> (forall j, (j < mydim - 1)%nat -> vdot cdim z (J' j) = 0) ->
    exists c, forall k, (k < cdim)%nat -> z k = c * n k.
Proof.
  intros mydim cdim tol jm jk j1 j2 jm' jk' g i g' e y J J' n z Ht Hd wf SG He x Hs HJ HR HJ' (N & D & X & EN & EX & ->) (a & Ha) Ho.
  destruct (sub_face mydim g wf i 1 g' SG) as (f & F1 & F2 & F3 & F4 & F5 & F6 & F7 & F8 & _).
  pose proof He as He'. rewrite F4 in He'. injection He' as <-.
  destruct (jt_trace mydim g wf i 1 g' SG cdim tol jm jk jm' jk' _ y Ht He Hs) as (_ & J0 & J1 & EJ & EJ' & VJ').
  fold x in EJ. rewrite HJ in EJ. injection EJ as <-. cbn [snd fpair] in VJ'. rewrite HJ' in EJ'. injection EJ' as <-.
  rewrite referenceIntegrationOuterNormals_spec in EN by lia. rewrite nth_error_map in EN.
  pose proof (fidx_nth _ f F1) as F. rewrite F2, F3 in F. rewrite F in EN. injection EN as <-.
  set (T := topo_of (ml_id g) mydim) in *.
  pose proof (facet_core _ f F1 F2 cdim J jm j1 j2) as H. unfold T in H. rewrite tdim_topo in H. fold T in H.
  destruct (H (proj2 Hd) HR) as (D' & X' & EX' & PD & DD & JN & PN & (w & Hw) & _).
  unfold mlg_jacobianInverseTransposed in EX. rewrite HJ in EX. cbn [obind] in EX. rewrite EX in EX'. injection EX' as <- <-.
  set (n := mvec mydim X (nrm T f)) in *.
  destruct (facet_kernel T f F1 F2 (mvec cdim J z)) as (c & Hc).
  { intros j Hj. unfold T in Hj. rewrite tdim_topo in Hj. rewrite <- (Ho j Hj). unfold dot, vdot, mvec. unfold T at 1. rewrite tdim_topo.
    rewrite (rsum_ext mydim _ (fun l => rsum cdim (fun k => z k * (fjt T f j l * J l k)))).
    - rewrite rsum_swap. apply rsum_ext. intros k Hk. rewrite rsum_scal. f_equal. symmetry. now apply VJ'.
    - intros l Hl. rewrite <- rsum_scal. apply rsum_ext. intros; ring. }
  exists c. intros k Hk. unfold T in Hc at 1. rewrite tdim_topo in Hc.
  set (b := fun l => a l - c * w l).
  assert (Zb : forall k, (k < cdim)%nat -> z k - c * n k = mvec mydim (mtr J) b k).
  { intros q Hq. rewrite (Ha q Hq), (Hw q Hq). unfold mvec, b. rewrite <- rsum_scal, <- rsum_minus. apply rsum_ext. intros; ring. }
  assert (B0 : veq mydim b vzero).
  { apply (gram_inj mydim cdim J); [exact HR|]. intros l Hl. rewrite mvec_mmul.
    transitivity (mvec cdim J (fun q => z q - c * n q) l).
    - unfold mvec at 1 3. apply rsum_ext. intros q Hq. now rewrite Zb.
    - transitivity (mvec cdim J z l - c * mvec cdim J n l).
      + unfold mvec. rewrite <- rsum_scal, <- rsum_minus. apply rsum_ext. intros; ring.
      + rewrite (Hc l Hl), (JN l Hl). unfold mvec. rewrite rsum_0; [ring|]. intros; unfold vzero; ring. }
  specialize (Zb k Hk). assert (mvec mydim (mtr J) b k = 0); [|lra].
  unfold mvec. apply rsum_0. intros l Hl. rewrite (B0 l Hl). unfold vzero. ring.
Qed.
Print Assumptions C74_unique.

(** *** Affine geometries *)
Lemma facets_sum T (F : nat -> R) (G : Face -> R) : (forall f, is_face T f -> fcod T f = 1%nat -> F (fidx T f) = G f) ->
  rsum (tsize T 1) F = lsum G (faces T 1).
Proof.
  intro H. rewrite (lsum_nth _ (faces T 1) FPt). apply rsum_ext. intros i Hi.
  destruct (nth_face_ex _ _ _ Hi) as (f & E & Hf & Ec & Ei). rewrite (nth_error_nth _ _ _ E). rewrite <- Ei. now apply H.
Qed.

(** everything is defined and positive *)
Theorem C74_facets :
  forall mydim cdim tol jm jk j1 j2 jv jm' jk' j1' j2' g o M i g', (1 <= mydim <= cdim)%nat -> (mydim <= 14)%nat -> 0 <= tol < 1/2 ->
    ml_wf mydim g -> corners_affine mydim cdim g o M -> row_independent mydim cdim M -> sub_geometry mydim g i 1 g' ->
    exists x n v c, re_position (ml_id g) mydim (ml_ref g) i 1 = Some x /\ mapped_normal mydim cdim tol jm jk j1 j2 g i x n /\
      0 < vlen cdim n /\ mlg_volume (mydim - 1) cdim tol jm' jk' j1' j2' g' = Some v /\ 0 < v /\ mlg_center (mydim - 1) cdim tol jv g' = Some c.
Proof.
  intros mydim cdim tol jm jk j1 j2 jv jm' jk' j1' j2' g o M i g' Hd H14 Ht wf HA HM SG.
  destruct (rightInvA_spec mydim cdim M mzero mzero mzero (proj2 Hd) HM) as (D0 & X0 & _ & E0 & _).
  destruct (facet_data mydim cdim tol g Hd Ht wf i (proj1 (proj2 SG))) as (f & x & F1 & F2 & F3 & FN & FX & VX & FS).
  destruct (aff_jit mydim cdim tol g o M Hd Ht wf HA HM D0 X0 E0 jm jk j1 j2 x FS) as (X & EX & VEX).
  destruct (aff_facet mydim cdim tol g o M Hd Ht wf HA HM D0 X0 E0 i g' jv jm' jk' j1' j2' SG H14) as (f' & F1' & F2' & F3' & EV & c & EC & _).
  destruct (aff_core mydim cdim g M Hd HM D0 X0 E0 f F1 F2) as (PD & JN & PN & _).
  destruct (aff_core mydim cdim g M Hd HM D0 X0 E0 f' F1' F2') as (_ & _ & PN' & _).
  eexists x, (mvec mydim X _), _, c. split; [exact FX|]. split; [eexists; exists D0, X; split; [exact FN|]; split; [exact EX|reflexivity]|].
  split.
  - apply sqrt_lt_R0. erewrite (dot_ext cdim); [exact PN| |]; intros k Hk; unfold mvec; apply rsum_ext; intros j Hj; now rewrite VEX.
  - split; [exact EV|]. split; [|exact EC]. apply Rmult_lt_0_compat; [apply Rmult_lt_0_compat; [exact PD|now apply sqrt_lt_R0]|apply tvol_pos].
Qed.
Print Assumptions C74_facets.

Lemma vlen_ext n a b : veq n a b -> vlen n a = vlen n b.
Proof. intro H. unfold vlen, vdot. f_equal. apply rsum_ext. intros i Hi. now rewrite (H i Hi). Qed.

Section Family.
Variables (mydim cdim : nat) (tol : R) (jm jk j1 j2 : Mat) (jv : Vec) (jm' jk' j1' j2' : Mat) (g : MLGeo) (o : Vec) (M : Mat)
  (gs : nat -> MLGeo) (ns : nat -> Vec) (vol : nat -> R).
Hypothesis Hd : (1 <= mydim <= cdim)%nat.
Hypothesis H14 : (mydim <= 14)%nat.
Hypothesis Ht : 0 <= tol < 1/2.
Hypothesis wf : ml_wf mydim g.
Hypothesis HA : corners_affine mydim cdim g o M.
Hypothesis HM : row_independent mydim cdim M.
Hypothesis HS : forall i, (i < re_size (ml_ref g) 1)%nat -> sub_geometry mydim g i 1 (gs i).
Hypothesis HV : forall i, (i < re_size (ml_ref g) 1)%nat -> mlg_volume (mydim - 1) cdim tol jm' jk' j1' j2' (gs i) = Some (vol i).
Hypothesis HN : forall i, (i < re_size (ml_ref g) 1)%nat -> exists x, re_position (ml_id g) mydim (ml_ref g) i 1 = Some x /\ mapped_normal mydim cdim tol jm jk j1 j2 g i x (ns i).
Notation T := (topo_of (ml_id g) mydim).

Lemma family : exists D0 X0, rightInvA mydim cdim M mzero mzero mzero = Some (D0, X0) /\
  re_size (ml_ref g) 1 = tsize T 1 /\
  forall f, is_face T f -> fcod T f = 1%nat ->
    (fidx T f < re_size (ml_ref g) 1)%nat /\
    (forall k, (k < cdim)%nat -> vol (fidx T f) * (ns (fidx T f) k / vlen cdim (ns (fidx T f))) = D0 * tvol (ftype T f) * mvec mydim X0 (nrm T f) k) /\
    exists c, mlg_center (mydim - 1) cdim tol jv (gs (fidx T f)) = Some c /\
      forall k, (k < cdim)%nat -> c k = o k + rsum mydim (fun j => M j k * Emb T f (meanT (ftype T f)) j).
Proof.
  destruct (rightInvA_spec mydim cdim M mzero mzero mzero (proj2 Hd) HM) as (D0 & X0 & _ & E0 & _).
  exists D0, X0. split; [exact E0|].
  pose proof wf as (W1 & W2 & _). pose proof (re_infos_ok _ _ _ W1 W2) as OK.
  assert (RS : re_size (ml_ref g) 1 = tsize T 1) by (rewrite (ok_re_size _ _ _ OK) by lia; reflexivity).
  split; [exact RS|]. intros f F1 F2.
  assert (Hi : (fidx T f < re_size (ml_ref g) 1)%nat) by (rewrite RS, <- F2; now apply fidx_lt).
  split; [exact Hi|].
  destruct (aff_facet mydim cdim tol g o M Hd Ht wf HA HM D0 X0 E0 _ _ jv jm' jk' j1' j2' (HS _ Hi) H14) as (f' & F1' & F2' & F3' & EV & C).
  assert (f' = f) by (apply (fidx_inj T); auto; congruence). subst f'.
  split; [|exact C].
  rewrite (HV _ Hi) in EV. injection EV as EV.
  destruct (facet_data mydim cdim tol g Hd Ht wf _ Hi) as (f' & x & G1 & G2 & G3 & _ & EX & _ & Hs).
  destruct (HN _ Hi) as (x' & EX' & MN). rewrite EX in EX'. injection EX' as <-.
  pose proof (aff_normal mydim cdim tol g o M Hd Ht wf HA HM D0 X0 E0 jm jk j1 j2 f _ x _ F1 F2 eq_refl Hs MN) as VN.
  destruct (aff_core mydim cdim g M Hd HM D0 X0 E0 f F1 F2) as (PD & JN & PN & _).
  intros k Hk. rewrite EV, (vlen_ext _ _ _ VN), (VN k Hk). field. apply Rgt_not_eq. now apply sqrt_lt_R0.
Qed.

(** the areas of the facets times their unit outer normals add up to zero *)
Theorem C74_closed : forall k, (k < cdim)%nat -> Ssum (re_size (ml_ref g) 1) (fun i => vol i * (ns i k / vlen cdim (ns i))) = 0.
Proof.
  intros k Hk. destruct family as (D0 & X0 & E0 & RS & H). rewrite Ssum_rsum, RS.
  rewrite (facets_sum T _ (fun f => D0 * tvol (ftype T f) * mvec mydim X0 (nrm T f) k)).
  2:{ intros f F1 F2. now apply (H f F1 F2). }
  transitivity (D0 * rsum mydim (fun j => X0 k j * lsum (fun f => tvol (ftype T f) * nrm T f j) (faces T 1))).
  - rewrite (lsum_ext _ (fun f => D0 * (tvol (ftype T f) * mvec mydim X0 (nrm T f) k))) by (intros; ring).
    rewrite lsum_scal. f_equal. unfold mvec.
    rewrite (lsum_nth _ _ FPt).
    rewrite (rsum_ext mydim _ (fun j => rsum (length (faces T 1)) (fun i => X0 k j * (tvol (ftype T (nth i (faces T 1) FPt)) * nrm T (nth i (faces T 1) FPt) j)))).
    + rewrite <- rsum_swap. apply rsum_ext. intros i Hi. rewrite <- rsum_scal. apply rsum_ext. intros; ring.
    + intros j Hj. rewrite (lsum_nth _ _ FPt). now rewrite rsum_scal.
  - rewrite rsum_0; [ring|]. intros j Hj. rewrite nrm_close by (rewrite tdim_topo; lia). ring.
Qed.

(** the divergence theorem for the position vector, in the form of the polytope volume formula;
    q is an arbitrary point of the world *)
Theorem C74_volume_by_facets : forall (cs : nat -> Vec) (q : Vec) V, (mydim <= 13)%nat ->
  (forall i, (i < re_size (ml_ref g) 1)%nat -> mlg_center (mydim - 1) cdim tol jv (gs i) = Some (cs i)) ->
  mlg_volume mydim cdim tol jm jk j1 j2 g = Some V ->
  Ssum (re_size (ml_ref g) 1) (fun i => vol i * vdot cdim (fun k => cs i k - q k) (fun k => ns i k / vlen cdim (ns i))) = INR mydim * V.
Proof.
  intros cs q V H13 HC HVol. destruct family as (D0 & X0 & E0 & RS & H).
  set (S1 := Ssum (re_size (ml_ref g) 1) (fun i => vol i * vdot cdim (fun k => cs i k - o k) (fun k => ns i k / vlen cdim (ns i)))).
  transitivity S1.
  - unfold S1. rewrite !Ssum_rsum. apply Rminus_diag_uniq. rewrite <- rsum_minus.
    rewrite (rsum_ext _ _ (fun i => rsum cdim (fun k => (o k - q k) * (vol i * (ns i k / vlen cdim (ns i)))))).
    + rewrite rsum_swap. apply rsum_0. intros k Hk. rewrite rsum_scal. rewrite <- Ssum_rsum, C74_closed by assumption. ring.
    + intros i Hi. unfold vdot. rewrite <- !rsum_scal, <- rsum_minus. apply rsum_ext. intros; ring.
  - unfold S1. rewrite Ssum_rsum, RS.
    rewrite (facets_sum T _ (fun f => D0 * (hgt T f * tvol (ftype T f)))).
    + rewrite lsum_scal, hgt_vol, tdim_topo by (rewrite tdim_topo; lia).
      destruct (center_spec mydim g wf) as (p & EP & VP).
      assert (NP : nice mydim tol g p).
      { apply nice_smooth. apply (P_ML5.smooth_ext _ _ (meanT T)); [intros k Hk; symmetry; apply VP; now rewrite tdim_topo in Hk|]. apply meanT_smooth. lra. }
      destruct (affine_jt mydim cdim tol ltac:(lra) g wf jm jk o M p HA NP) as (J & EJ & VJ).
      unfold mlg_volume, mlg_integrationElement in HVol. rewrite EP in HVol. cbn [obind] in HVol. rewrite EJ in HVol. cbn [obind] in HVol.
      assert (VJ' : meq mydim cdim M J) by (intros a b Ha Hb; symmetry; now apply VJ).
      pose proof (rowind_meq _ _ _ _ VJ' HM) as HJ.
      destruct (C26_sqrtDetAAT mydim cdim J j1 j2 HJ) as (s & ES & PS & QS). rewrite ES in HVol. cbn [obind] in HVol.
      injection HVol as <-. rewrite C21_volume_small_dimension, volumeT_tvol by lia.
      assert (s = D0); [|subst; ring].
      destruct (rightInvA_spec mydim cdim M mzero mzero mzero (proj2 Hd) HM) as (D1 & X1 & G & E1 & P1 & Q1 & _).
      rewrite E0 in E1. injection E1 as <- <-. apply Rsqr_inj; [lra|lra|]. unfold Rsqr. rewrite QS, Q1. symmetry. apply detR_meq. now apply gram_meq.
    + intros f F1 F2. destruct (H f F1 F2) as (Hi & VN & c & EC & VC).
      rewrite (HC _ Hi) in EC. injection EC as EC.
      destruct (aff_core mydim cdim g M Hd HM D0 X0 E0 f F1 F2) as (PD & JN & PN & _).
      unfold vdot. rewrite <- rsum_scal.
      rewrite (rsum_ext cdim _ (fun k => rsum mydim (fun j => D0 * tvol (ftype T f) * Emb T f (meanT (ftype T f)) j * (M j k * mvec mydim X0 (nrm T f) k)))).
      * rewrite rsum_swap. pose proof (nrm_face T f (meanT (ftype T f)) F1 F2) as Q. unfold dot in Q. rewrite tdim_topo in Q. rewrite <- Q.
        rewrite <- rsum_scal_r, <- rsum_scal. apply rsum_ext. intros j Hj. rewrite rsum_scal.
        change (rsum cdim (fun k => M j k * mvec mydim X0 (nrm T f) k)) with (mvec cdim M (mvec mydim X0 (nrm T f)) j). rewrite (JN j Hj). ring.
      * intros k Hk. rewrite EC, (VC k Hk).
        replace (vol (fidx T f) * ((o k + rsum mydim (fun j => M j k * Emb T f (meanT (ftype T f)) j) - o k) * (ns (fidx T f) k / vlen cdim (ns (fidx T f)))))
          with (rsum mydim (fun j => M j k * Emb T f (meanT (ftype T f)) j) * (vol (fidx T f) * (ns (fidx T f) k / vlen cdim (ns (fidx T f))))) by ring.
        rewrite (VN k Hk), <- rsum_scal_r. apply rsum_ext. intros; ring.
Qed.
End Family.
Print Assumptions C74_closed.
Print Assumptions C74_volume_by_facets.

(** the image of an affine geometry lies on the inner side of every facet *)
Theorem C74_halfspace :
  forall mydim cdim tol jv jm jk j1 j2 g o M i x n a p u, (1 <= mydim <= cdim)%nat -> 0 <= tol < 1/2 ->
    ml_wf mydim g -> corners_affine mydim cdim g o M -> row_independent mydim cdim M -> (i < re_size (ml_ref g) 1)%nat ->
    re_position (ml_id g) mydim (ml_ref g) i 1 = Some x -> mapped_normal mydim cdim tol jm jk j1 j2 g i x n ->
    mlg_global mydim cdim tol jv g x = Some a ->
    inside_ref mydim g p -> regular tol (topo_of (ml_id g) mydim) p -> mlg_global mydim cdim tol jv g p = Some u ->
    vdot cdim n (fun k => u k - a k) <= 0 /\
    (vdot cdim n (fun k => u k - a k) = 0 <->
     exists N, nth_error (referenceIntegrationOuterNormals (ml_id g) mydim) i = Some N /\ vdot mydim N (fun l => p l - x l) = 0).
Proof.
  intros mydim cdim tol jv jm jk j1 j2 g o M i x n a p u Hd Ht wf HA HM Hi EX MN Ea Hp Rp Eu.
  set (T := topo_of (ml_id g) mydim) in *.
  destruct (facet_data mydim cdim tol g Hd Ht wf i Hi) as (f & x' & F1 & F2 & F3 & FN & EX' & VX & Hs). rewrite EX in EX'. injection EX' as <-.
  destruct (rightInvA_spec mydim cdim M mzero mzero mzero (proj2 Hd) HM) as (D0 & X0 & _ & E0 & _).
  pose proof (aff_normal mydim cdim tol g o M Hd Ht wf HA HM D0 X0 E0 jm jk j1 j2 f i x n F1 F2 F3 Hs MN) as VN.
  destruct (aff_core mydim cdim g M Hd HM D0 X0 E0 f F1 F2) as (PD & JN & PN & _). fold T in F1, F2, F3, FN, VX, Hs, VN, JN.
  destruct (affine_global mydim cdim tol ltac:(lra) g wf jv o M x HA (nice_smooth _ _ _ _ Hs)) as (a' & Ea' & Va).
  rewrite Ea in Ea'. injection Ea' as <-.
  destruct (affine_global mydim cdim tol ltac:(lra) g wf jv o M p HA (nice_inside mydim tol ltac:(lra) g p Rp Hp)) as (u' & Eu' & Vu).
  rewrite Eu in Eu'. injection Eu' as <-.
  assert (A : vdot cdim n (fun k => u k - a k) = vdot mydim (nrm T f) (fun l => p l - x l)).
  { unfold vdot. rewrite (rsum_ext cdim _ (fun k => rsum mydim (fun l => (p l - x l) * (M l k * mvec mydim X0 (nrm T f) k)))).
    - rewrite rsum_swap. apply rsum_ext. intros l Hl. rewrite rsum_scal. rewrite <- (JN l Hl) at 1. unfold mvec at 2. ring.
    - intros k Hk. rewrite (VN k Hk), (Vu k Hk), (Va k Hk). replace (o k + rsum mydim (fun j => M j k * p j) - (o k + rsum mydim (fun j => M j k * x j)))
        with (rsum mydim (fun j => M j k * p j) - rsum mydim (fun j => M j k * x j)) by ring.
      rewrite <- rsum_minus, <- rsum_scal. apply rsum_ext. intros; ring. }
  assert (B : vdot mydim (nrm T f) (fun l => p l - x l) = vdot mydim (nrm T f) p - hgt T f).
  { pose proof (nrm_face T f (meanT (ftype T f)) F1 F2) as Q. unfold T in Q at 1. rewrite tdim_topo in Q. rewrite <- Q. unfold vdot, dot. rewrite <- rsum_minus.
    apply rsum_ext. intros l Hl. rewrite VX. ring. }
  split.
  - rewrite A, B. pose proof (nrm_support_inside T f p 1 F1 F2) as Q.
    unfold T in Q at 2. rewrite tdim_topo in Q. apply inside_T in Hp. specialize (Q Hp). unfold vdot, dot in *. lra.
  - rewrite A. split.
    + intro E. exists (nrm T f). split; [exact FN|exact E].
    + intros (N & EN & E). rewrite FN in EN. injection EN as <-. exact E.
Qed.
Print Assumptions C74_halfspace.

(** the hypotenuse of the triangle (0,0), (2,0), (0,1): normal (1/2,1), integration element 2,
    and 2 * |(1/2,1)| = sqrt 5 is the length of the hypotenuse *)
Example C74_example :
  exists r n, let g := triangle (fun _ => 0) (fun k => if Nat.eqb k 0 then 2 else 0) (fun k => if Nat.eqb k 1 then 1 else 0) r in
    ml_wf 2 g /\ mapped_normal 2 2 0 mzero mzero mzero mzero g 2 (fun _ => 1/2) n /\ n 0%nat = 1/2 /\ n 1%nat = 1 /\
    mlg_integrationElement 2 2 0 mzero mzero mzero mzero g (fun _ => 1/2) = Some 2 /\ 2 * vlen 2 n = sqrt 5.
Proof.
  destruct (triangle_wf (fun _ => 0) (fun k => if Nat.eqb k 0 then 2 else 0) (fun k => if Nat.eqb k 1 then 1 else 0)) as (r & wf).
  exists r. cbv zeta. set (g := triangle _ _ _ r) in *.
  set (M := fun i j : nat => if Nat.eqb i j then (if Nat.eqb i 0 then 2 else 1) else 0).
  assert (HA : corners_affine 2 2 g vzero M).
  { intros i c p Hc Hp k Hk. destruct i as [|[|[|i]]]; cbn in Hc, Hp; try discriminate.
    4:{ destruct i; discriminate. }
    all: injection Hc as <-; injection Hp as <-; unfold vzero, M, upd; destruct k as [|[|k]]; cbn; try lia; lra. }
  destruct (affine_jt 2 2 0 ltac:(lra) g wf mzero mzero vzero M (fun _ => 1/2) HA) as (J & EJ & VJ).
  { apply nice_smooth. cbn. right. split; [rewrite Rabs_pos_eq; lra|]. left. reflexivity. }
  assert (V : J 0%nat 0%nat = 2 /\ J 0%nat 1%nat = 0 /\ J 1%nat 0%nat = 0 /\ J 1%nat 1%nat = 1) by (rewrite !VJ by lia; unfold M; cbn; lra).
  destruct V as (V1 & V2 & V3 & V4).
  destruct (facet_data 2 2 0 g ltac:(lia) ltac:(lra) wf 2) as (f & x & F1 & F2 & F3 & FN & _).
  { rewrite (ok_re_size _ _ _ (re_infos_ok _ _ _ (proj1 wf) (proj1 (proj2 wf)))) by lia. cbn. lia. }
  set (n := mvec 2 (snd (inv22 J mzero)) (nrm (topo_of (ml_id g) 2) f)).
  assert (NV : nrm (topo_of (ml_id g) 2) f 0%nat = 1 /\ nrm (topo_of (ml_id g) 2) f 1%nat = 1).
  { pose proof (fidx_nth _ f F1) as F. rewrite F2, F3 in F. cbn in F. injection F as <-. cbn. unfold upd, dot, vzero. cbn. unfold upd, vzero. cbn. split; lra. }
  destruct NV as (NV0 & NV1).
  assert (n0 : n 0%nat = 1/2).
  { unfold n, mvec, inv22, snd, rsum. rewrite !mupd_case, NV0, NV1, V1, V2, V3, V4. simpl. field. }
  assert (n1 : n 1%nat = 1).
  { unfold n, mvec, inv22, snd, rsum. rewrite !mupd_case, NV0, NV1, V1, V2, V3, V4. simpl. field. }
  exists n. split; [exact wf|]. split.
  - exists (nrm (topo_of (ml_id g) 2) f). eexists. exists (snd (inv22 J mzero)). split; [exact FN|]. split; [|reflexivity].
    unfold mlg_jacobianInverseTransposed. rewrite EJ. reflexivity.
  - split; [exact n0|]. split; [exact n1|]. split.
    + unfold mlg_integrationElement. rewrite EJ. cbn [obind]. rewrite sqrtDet_square by auto. f_equal.
      rewrite detR_2, V1, V2, V3, V4. rewrite Rabs_pos_eq; lra.
    + replace 5 with ((2 * 2) * (5 / 4)) by field. rewrite sqrt_mult by lra. rewrite sqrt_square by lra. f_equal.
      unfold vlen, vdot. cbn [rsum]. rewrite n0, n1. f_equal. field.
Qed.
