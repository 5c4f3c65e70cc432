(** Facets of affine geometries. *)
From Coq Require Import NArith PeanoNat Bool List Lia Reals Lra FunctionalExtensionality.
From Verif Require Import M_Type M_RefTopo M_RefGeo P_Type P_Type2 S_Topo P_Topo P_RefTopo P_RefTopo2 P_RefTopo3 P_RSum P_RefGeo P_RefGeo2 P_RefGeo3 P_Det P_RefDet S_RefGeo P_RefVol P_RefGeo4 T_RefGeo M_Matrix M_MultiLinear S_Matrix S_MultiLinear P_MxBridge P_Matrix3 P_Matrix4 T_Matrix P_ML1 P_ML2 P_ML3 P_ML5 T_RefTopo T_MultiLinear P_Trace S_Trace P_Trace2 S_Normal P_Normal.
Import ListNotations.
Local Open Scope R_scope.

Lemma Emb_ext T f y z k : (forall j, (j < tdim (ftype T f))%nat -> y j = z j) -> Emb T f y k = Emb T f z k.
Proof. intro H. rewrite !Emb_Lin. now rewrite (Lin_ext T f y z k H). Qed.

Lemma facet_mean_smooth tol T : tol < 1/2 -> forall f, is_face T f -> fcod T f = 1%nat -> smooth tol T (Emb T f (meanT (ftype T f))).
Proof.
  intro Ht. induction T as [|b IH|b IH]; intros f Hf Hc; destruct f; cbn [is_face] in Hf; try contradiction;
    cbn [fcod ftype smooth] in *; try discriminate.
  - apply (P_ML5.smooth_ext tol b (Emb b f (meanT (ftype b f)))); [|now apply IH].
    intros k Hk. rewrite Emb_Side. destruct (Nat.eqb_spec k (tdim b)); [lia|].
    apply Emb_ext. intros l Hl. symmetry. now apply meanT_Pri.
  - apply (P_ML5.smooth_ext tol b (meanT b)); [|now apply meanT_smooth].
    intros k Hk. rewrite Emb_Bot. rewrite (fcod_0_whole b f) by (auto; lia). rewrite (proj2 (proj2 (whole_face b))). symmetry. now apply Emb_whole.
  - apply (P_ML5.smooth_ext tol b (meanT b)); [|now apply meanT_smooth].
    intros k Hk. rewrite Emb_Top. destruct (Nat.eqb_spec k (tdim b)); [lia|].
    rewrite (fcod_0_whole b f) by (auto; lia). rewrite (proj2 (proj2 (whole_face b))). symmetry. now apply Emb_whole.
  - right. rewrite (fcod_0_whole b f) by (auto; lia). rewrite (proj2 (proj2 (whole_face b))). rewrite Emb_Base.
    assert (Z : Emb b (whole b) (meanT b) (tdim b) = 0).
    { rewrite Emb_Lin, forg_whole, Lin_support by lia. unfold vzero. lra. }
    rewrite Z, Rminus_0_r. split; [rewrite Rabs_R1; lra|].
    apply (P_ML5.smooth_ext tol b (meanT b)); [|now apply meanT_smooth].
    intros k Hk. rewrite Emb_whole by assumption. field.
  - right. rewrite Emb_Cone_last. set (z := meanT (Pyr (ftype b f)) (tdim (ftype b f))).
    assert (Zb : 0 < z <= 1/2).
    { unfold z. rewrite meanT_Pyr_last. assert (P := verts_length_pos (ftype b f)).
      assert (Q : 1 <= INR (length (verts (ftype b f)))) by (apply (le_INR 1); lia). split.
      - apply Rdiv_lt_0_compat; lra.
      - unfold Rdiv. rewrite !Rmult_1_l. apply Rinv_le_contravar; lra. }
    split; [rewrite Rabs_pos_eq; lra|].
    apply (P_ML5.smooth_ext tol b (Emb b f (meanT (ftype b f)))); [|now apply IH].
    intros k Hk. rewrite Emb_Cone by (fold z; lra). destruct (Nat.eqb_spec k (tdim b)); [lia|]. fold z.
    match goal with |- _ = (1 - z) * ?w / (1 - z) => replace ((1 - z) * w / (1 - z)) with w by (field; lra) end.
    apply Emb_ext. intros l Hl. symmetry. now apply meanT_Pyr.
  - left. destruct b; cbn [tdim] in Hc; [reflexivity|lia|lia].
Qed.

Lemma shiftr_tvol a b : N.shiftr a 1 = N.shiftr b 1 -> forall d, tvol (topo_of a d) = tvol (topo_of b d).
Proof.
  intro H. induction d as [|d IH]; [reflexivity|]. destruct d as [|d].
  - rewrite !topo_S. cbn [topo_of]. destruct (N.testbit a _), (N.testbit b _); try reflexivity;
      rewrite tvol_Pri, tvol_Pyr; cbn; lra.
  - rewrite !(topo_S _ (S d)). rewrite (shiftr_testbit a b d H). destruct (N.testbit b _).
    + now rewrite !tvol_Pri.
    + now rewrite !tvol_Pyr, IH, !tdim_topo.
Qed.

Lemma meanT_Pri_last b : meanT (Pri b) (tdim b) = 1 / 2.
Proof.
  assert (Q : 0 < INR (length (verts b))) by (apply lt_0_INR, verts_length_pos).
  unfold meanT; rewrite verts_Pri, lsum_app, !lsum_map, app_length, !map_length, plus_INR; cbn [forg].
  rewrite lsum_0 by (intros; apply forg_support; lia).
  rewrite (lsum_ext _ (fun _ => 1)) by (intros; apply upd_eq). rewrite lsum_const. field. lra.
Qed.
Lemma shiftr_mean a b : N.shiftr a 1 = N.shiftr b 1 -> forall d k, (k < d)%nat -> meanT (topo_of a d) k = meanT (topo_of b d) k.
Proof.
  intro H. induction d as [|d IH]; intros k Hk; [lia|]. destruct d as [|d].
  - assert (k = 0%nat) by lia. subst k. rewrite !topo_S. cbn [topo_of].
    pose proof (meanT_Pri_last Pt) as A. pose proof (meanT_Pyr_last Pt) as B. cbn [tdim] in A, B. cbn in B.
    destruct (N.testbit a _), (N.testbit b _); try reflexivity; rewrite A, B; lra.
  - rewrite !(topo_S _ (S d)). rewrite (shiftr_testbit a b d H).
    pose proof (tdim_topo a (S d)) as Ta. pose proof (tdim_topo b (S d)) as Tb.
    assert (NV : length (verts (topo_of a (S d))) = length (verts (topo_of b (S d)))) by (rewrite !nv_verts; now apply shiftr_nv).
    destruct (N.testbit b _); destruct (Nat.eq_dec k (S d)) as [E|E].
    + subst k. pose proof (meanT_Pri_last (topo_of a (S d))) as A. pose proof (meanT_Pri_last (topo_of b (S d))) as B. rewrite Ta in A. rewrite Tb in B. now rewrite A, B.
    + rewrite !meanT_Pri by lia. apply IH. lia.
    + subst k. pose proof (meanT_Pyr_last (topo_of a (S d))) as A. pose proof (meanT_Pyr_last (topo_of b (S d))) as B. rewrite Ta in A. rewrite Tb in B. now rewrite A, B, NV.
    + pose proof (meanT_Pyr (topo_of a (S d)) k ltac:(lia)) as A. pose proof (meanT_Pyr (topo_of b (S d)) k ltac:(lia)) as B.
      rewrite (IH k ltac:(lia)) in A. rewrite <- B in A. clear B.
      rewrite !meanT_Pyr_last, NV in A.
      assert (P := verts_length_pos (topo_of b (S d))). assert (Q : 1 <= INR (length (verts (topo_of b (S d))))) by (apply (le_INR 1); lia).
      set (n := INR (length (verts (topo_of b (S d))))) in *.
      assert (0 < 1 - 1 / (n + 1)).
      { assert (1 / (n + 1) <= 1 / 2) by (unfold Rdiv; rewrite !Rmult_1_l; apply Rinv_le_contravar; lra). lra. }
      unfold Rdiv at 1 3 in A. apply Rmult_eq_reg_r in A; [exact A|]. apply Rinv_neq_0_compat. lra.
Qed.

Section Aff.
Variables (mydim cdim : nat) (tol : R) (g : MLGeo) (o : Vec) (M : Mat).
Hypothesis Hd : (1 <= mydim <= cdim)%nat.
Hypothesis Ht : 0 <= tol < 1/2.
Hypothesis wf : ml_wf mydim g.
Hypothesis HA : corners_affine mydim cdim g o M.
Hypothesis HM : row_independent mydim cdim M.
Notation T := (topo_of (ml_id g) mydim).
Variables (D0 : R) (X0 : Mat).
Hypothesis E0 : rightInvA mydim cdim M mzero mzero mzero = Some (D0, X0).

Lemma facet_data i : (i < re_size (ml_ref g) 1)%nat -> exists f x, is_face T f /\ fcod T f = 1%nat /\ fidx T f = i
  /\ nth_error (referenceIntegrationOuterNormals (ml_id g) mydim) i = Some (nrm T f)
  /\ re_position (ml_id g) mydim (ml_ref g) i 1 = Some x
  /\ (forall k, x k = Emb T f (meanT (ftype T f)) k)
  /\ smooth tol T x.
Proof.
  intro Hi. pose proof wf as (W1 & W2 & W3). pose proof (re_infos_ok _ _ _ W1 W2) as OK.
  destruct (re_face _ _ _ i 1 OK ltac:(lia) Hi) as (f & F1 & F2 & F3 & _).
  destruct (re_position_spec _ _ _ f OK F1) as (x & EX & VX). rewrite F2, F3 in EX.
  exists f, x. split; [exact F1|]. split; [exact F2|]. split; [exact F3|]. split.
  - rewrite referenceIntegrationOuterNormals_spec by lia. rewrite nth_error_map.
    pose proof (fidx_nth T f F1) as F. rewrite F2, F3 in F. now rewrite F.
  - split; [exact EX|]. split; [exact VX|].
    apply (P_ML5.smooth_ext tol T (Emb T f (meanT (ftype T f)))); [intros; symmetry; apply VX|]. apply facet_mean_smooth; auto; lra.
Qed.

(** jacobianInverseTransposed does not depend on the point *)
Lemma aff_jit jm jk j1 j2 x : smooth tol T x ->
  exists X, mlg_jacobianInverseTransposed mydim cdim tol jm jk j1 j2 g x = Some (D0, X) /\ meq cdim mydim X X0.
Proof.
  intro Hs. destruct (affine_jt mydim cdim tol ltac:(lra) g wf jm jk o M x HA (nice_smooth _ _ _ _ Hs)) as (J & EJ & VJ).
  unfold mlg_jacobianInverseTransposed. rewrite EJ. cbn [obind].
  destruct (rightInv_meq mydim cdim M J mzero jm mzero mzero j1 j2 (proj2 Hd)) as (d & X & X' & A & B & C).
  - intros a b Ha Hb. symmetry. now apply VJ.
  - exact HM.
  - rewrite E0 in A. injection A as <- <-. exists X'. split; [exact B|]. intros a b Ha Hb. symmetry. now apply C.
Qed.

Lemma aff_normal jm jk j1 j2 f i x n : is_face T f -> fcod T f = 1%nat -> fidx T f = i -> smooth tol T x ->
  mapped_normal mydim cdim tol jm jk j1 j2 g i x n -> veq cdim n (mvec mydim X0 (nrm T f)).
Proof.
  intros F1 F2 F3 Hs (N & D & X & EN & EX & ->). destruct (aff_jit jm jk j1 j2 x Hs) as (X' & EX' & VX).
  rewrite EX' in EX. injection EX as <- <-.
  rewrite referenceIntegrationOuterNormals_spec in EN by lia. rewrite nth_error_map in EN.
  pose proof (fidx_nth T f F1) as F. rewrite F2, F3 in F. rewrite F in EN. injection EN as <-.
  intros k Hk. unfold mvec. apply rsum_ext. intros j Hj. now rewrite VX.
Qed.

Lemma aff_core f : is_face T f -> fcod T f = 1%nat ->
  0 < D0 /\ (forall l, (l < mydim)%nat -> mvec cdim M (mvec mydim X0 (nrm T f)) l = nrm T f l)
  /\ 0 < vdot cdim (mvec mydim X0 (nrm T f)) (mvec mydim X0 (nrm T f))
  /\ forall J', meq (mydim - 1) cdim J' (mmul mydim (fjt T f) M) ->
       forall j1 j2, sqrtDetAAT (mydim - 1) cdim J' j1 j2 = Some (D0 * vlen cdim (mvec mydim X0 (nrm T f))).
Proof.
  intros F1 F2. pose proof (facet_core T f F1 F2 cdim M mzero mzero mzero) as H. rewrite tdim_topo in H.
  destruct (H (proj2 Hd) HM) as (D & X & EX & PD & DD & JN & PN & _ & Q). rewrite E0 in EX. injection EX as <- <-.
  split; [exact PD|]. split; [exact JN|]. split; [exact PN|]. intros J' HJ' j1 j2. now apply Q.
Qed.

Lemma aff_facet i g' jv jm jk j1 j2 : sub_geometry mydim g i 1 g' -> (mydim <= 14)%nat ->
  exists f, is_face T f /\ fcod T f = 1%nat /\ fidx T f = i /\
    mlg_volume (mydim - 1) cdim tol jm jk j1 j2 g' = Some (D0 * vlen cdim (mvec mydim X0 (nrm T f)) * tvol (ftype T f)) /\
    exists c, mlg_center (mydim - 1) cdim tol jv g' = Some c /\
      forall k, (k < cdim)%nat -> c k = o k + rsum mydim (fun j => M j k * Emb T f (meanT (ftype T f)) j).
Proof.
  intros SG H14. destruct (sub_face mydim g wf i 1 g' SG) as (f & F1 & F2 & F3 & F4 & F5 & F6 & F7 & F8 & F9 & F10).
  exists f. split; [exact F1|]. split; [exact F2|]. split; [exact F3|].
  pose proof (sub_wf mydim g i 1 g' SG) as wf'.
  destruct (center_spec (mydim - 1) g' wf') as (p & EP & VP).
  assert (VP' : forall k, (k < mydim - 1)%nat -> p k = meanT (ftype T f) k).
  { intros k Hk. rewrite VP by assumption. rewrite <- F6. now apply shiftr_mean. }
  assert (EE : forall k, Emb T f p k = Emb T f (meanT (ftype T f)) k).
  { intro k. apply Emb_ext. rewrite F7. exact VP'. }
  assert (Hs : smooth tol T (emb_global (mydim - 1) (fpair T f) p)).
  { rewrite F8. apply (P_ML5.smooth_ext tol T (Emb T f (meanT (ftype T f)))); [intros; symmetry; apply EE|]. apply facet_mean_smooth; auto; lra. }
  split.
  - destruct (jt_trace mydim g wf i 1 g' SG cdim tol jm jk jm jk _ p (proj1 Ht) F4 Hs) as (_ & J & J' & EJ & EJ' & VJ').
    destruct (affine_jt mydim cdim tol ltac:(lra) g wf jm jk o M _ HA (nice_smooth _ _ _ _ Hs)) as (J1 & EJ1 & VJ1).
    rewrite EJ in EJ1. injection EJ1 as <-.
    unfold mlg_volume. rewrite EP. cbn [obind]. unfold mlg_integrationElement. rewrite EJ'. cbn [obind].
    destruct (aff_core f F1 F2) as (_ & _ & _ & Q). rewrite Q.
    + cbn [obind]. f_equal. f_equal. rewrite C21_volume_small_dimension by lia. rewrite volumeT_tvol. rewrite <- F6. now apply shiftr_tvol.
    + eapply meq_trans; [exact VJ'|]. cbn [snd fpair]. now apply meq_mulR.
  - unfold mlg_center. rewrite EP. cbn [obind].
    destruct (global_trace mydim g wf i 1 g' SG cdim tol jv jv _ p (proj1 Ht) F4 (smooth_regular _ _ _ Hs)) as (u & v & EU & EV & UV).
    exists v. split; [exact EV|]. intros k Hk. rewrite <- UV by assumption.
    destruct (affine_global mydim cdim tol ltac:(lra) g wf jv o M _ HA (nice_smooth _ _ _ _ Hs)) as (u' & EU' & VU).
    rewrite EU in EU'. injection EU' as <-. rewrite VU by assumption. f_equal. apply rsum_ext. intros j Hj. rewrite F8, EE. reflexivity.
Qed.
End Aff.
