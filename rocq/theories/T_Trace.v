(** Property theorems C73: traces of multilinear geometries on subentities. *)
From Coq Require Import NArith PeanoNat Bool List Lia Reals Lra FunctionalExtensionality.
From Coquelicot Require Import Coquelicot.
From Verif Require Import M_Type M_RefTopo M_RefGeo P_Type P_Type2 S_Topo P_Topo P_RefTopo P_RefTopo2 P_RefTopo3 P_RSum P_RefGeo P_RefGeo2 P_RefGeo3 S_RefGeo P_RefGeo4 M_Matrix M_MultiLinear S_Matrix S_MultiLinear P_ML1 P_ML2 P_ML3 T_RefTopo T_RefGeo T_MultiLinear P_Trace S_Trace P_Trace2.
Import ListNotations.
Local Open Scope R_scope.

(** type(i,c) and subEntities(i,c,dim) always make a geometry for the subentity *)
Theorem C73_sub_geometry_exists :
  forall mydim g i c, ml_wf mydim g -> (c <= mydim)%nat -> (i < re_size (ml_ref g) c)%nat ->
    exists g', sub_geometry mydim g i c g'.
Proof.
  intros mydim g i c wf Hc Hi. pose proof wf as (W1 & W2 & W3). pose proof (re_infos_ok _ _ _ W1 W2) as OK.
  destruct (re_face _ _ _ i c OK Hc Hi) as (f & F1 & F2 & F3 & s & Es & I).
  assert (ET : re_type (ml_ref g) i c = Some (type_ s)) by (unfold re_type; now rewrite Es).
  destruct (re_type_face _ _ _ _ _ _ W1 W2 Hc Hi ET) as (f' & _ & _ & _ & F4 & _ & F6).
  destruct (re_infos_spec _ _ F6) as (r & ER & _).
  pose proof (re_subEntities_face _ _ _ _ f mydim OK eq_refl F1 ltac:(lia)) as EV. rewrite F2, F3 in EV.
  eexists {| ml_id := subTopologyId (ml_id g) mydim c i; ml_ref := r; ml_corners := _ |}.
  split; [assumption|]. split; [assumption|]. split; [|exists (type_ s); eexists; split; [exact ET|split; [|split; [exact EV|reflexivity]]]].
  - split; [exact F6|]. split; [exact ER|]. cbn [ml_corners ml_id]. rewrite map_length.
    pose proof EV as EV'. rewrite <- F2, <- F3 in EV'. destruct (sub_corners mydim g wf f _ F1 EV') as (L & _). rewrite L.
    rewrite size_tsize by (assumption || lia). rewrite <- (tdim_topo (subTopologyId (ml_id g) mydim c i) (mydim - c)) at 2. rewrite tsize_nv.
    destruct (subTopologyId_spec mydim (ml_id g) f W1 F1) as [Q _]. rewrite F2, F3 in Q. now rewrite Q.
  - cbn [ml_id]. rewrite F4. unfold gt_eqb. cbn. now rewrite Nat.eqb_refl, N.eqb_refl.
Qed.
Print Assumptions C73_sub_geometry_exists.

(** the map of the element, restricted to a subentity through geometry<c>(i), is the map of the
    subentity's own geometry *)
Theorem C73_trace :
  forall mydim cdim tol jv jv' g i c g' e y, 0 <= tol -> ml_wf mydim g -> sub_geometry mydim g i c g' ->
    re_geometry (ml_id g) mydim c i = Some e ->
    regular tol (topo_of (ml_id g) mydim) (emb_global (mydim - c) e y) ->
    exists u v, mlg_global mydim cdim tol jv g (emb_global (mydim - c) e y) = Some u /\
      mlg_global (mydim - c) cdim tol jv' g' y = Some v /\ veq cdim u v.
Proof. intros mydim cdim tol jv jv' g i c g' e y Ht wf SG. now apply global_trace. Qed.
Print Assumptions C73_trace.

(** without the tolerance this holds at every point *)
Corollary C73_trace_exact :
  forall mydim cdim jv jv' g i c g' e y, ml_wf mydim g -> sub_geometry mydim g i c g' ->
    re_geometry (ml_id g) mydim c i = Some e ->
    exists u v, mlg_global mydim cdim 0 jv g (emb_global (mydim - c) e y) = Some u /\
      mlg_global (mydim - c) cdim 0 jv' g' y = Some v /\ veq cdim u v.
Proof. intros. apply (C73_trace mydim cdim 0 jv jv' g i c g' e y); auto; [lra|apply regular_0]. Qed.
Print Assumptions C73_trace_exact.

(** with it, the two differ by no more than twice the tolerance times the largest coordinate *)
Theorem C73_trace_bound :
  forall mydim cdim tol jv jv' g i c g' e y B, 0 <= tol -> ml_wf mydim g -> sub_geometry mydim g i c g' ->
    re_geometry (ml_id g) mydim c i = Some e -> inside_ref (mydim - c) g' y ->
    (forall p k, In p (ml_corners g) -> (k < cdim)%nat -> Rabs (p k) <= B) ->
    exists u v, mlg_global mydim cdim tol jv g (emb_global (mydim - c) e y) = Some u /\
      mlg_global (mydim - c) cdim tol jv' g' y = Some v /\ forall k, (k < cdim)%nat -> Rabs (u k - v k) <= 2 * (tol * B).
Proof.
  intros mydim cdim tol jv jv' g i c g' e y B Ht wf SG He HI HB.
  destruct (sub_face mydim g wf i c g' SG) as (f & F1 & F2 & F3 & F4 & F5 & F6 & F7 & F8 & F9 & F10).
  pose proof He as He'. rewrite F4 in He'. injection He' as <-.
  assert (HI2 : inside_ref mydim g (emb_global (mydim - c) (fpair (topo_of (ml_id g) mydim) f) y)).
  { rewrite F8. apply inside_T. apply hull_insideT. apply Emb_hull; [assumption|]. apply insideT_hull; [lra|].
    rewrite <- F6. apply insideT_lt. rewrite <- (shiftr_lt _ _ F5). apply (proj1 (insideT_lt _ _ _ _)). now apply inside_T. }
  assert (HB' : forall p k, In p (ml_corners g') -> (k < cdim)%nat -> Rabs (p k) <= B).
  { intros p k Hp Hk. destruct (In_nth _ _ vzero Hp) as (j & Hj & <-). pose proof (ml_wf_nv _ _ (sub_wf mydim g i c g' SG)) as LN.
    rewrite LN, F9 in Hj. rewrite F10 by assumption. apply HB; [|assumption]. apply nth_In. rewrite (ml_wf_nv _ _ wf). now apply vmap_lt. }
  destruct (C30_near_apex_bound mydim cdim tol jv g _ B Ht wf HI2 HB) as (u & u0 & EU & _ & EU0 & DU).
  destruct (C30_near_apex_bound (mydim - c) cdim tol jv' g' y B Ht (sub_wf mydim g i c g' SG) HI HB') as (v & v0 & EV & _ & EV0 & DV).
  destruct (C73_trace_exact mydim cdim jv jv' g i c g' _ y wf SG He) as (u1 & v1 & EU1 & EV1 & E).
  rewrite EU0 in EU1. injection EU1 as <-. rewrite EV0 in EV1. injection EV1 as <-.
  exists u, v. split; [assumption|]. split; [assumption|]. intros k Hk. specialize (DU k Hk). specialize (DV k Hk). rewrite <- (E k Hk) in DV.
  replace (u k - v k) with ((u k - u0 k) - (v k - u0 k)) by ring. eapply Rle_trans; [apply Rabs_triang|]. rewrite Rabs_Ropp. lra.
Qed.
Print Assumptions C73_trace_bound.

(** near an apex they do differ: on the edge of a triangle that ends in the last corner the
    triangle falls short of the straight line *)
Theorem C73_near_apex_refuted :
  forall tol jv jv', 0 < tol < 1 -> exists mydim cdim g i c g' e y u v, ml_wf mydim g /\ sub_geometry mydim g i c g' /\
    re_geometry (ml_id g) mydim c i = Some e /\ inside_ref (mydim - c) g' y /\ (0 < cdim)%nat /\
    mlg_global mydim cdim tol jv g (emb_global (mydim - c) e y) = Some u /\
    mlg_global (mydim - c) cdim tol jv' g' y = Some v /\ u 0%nat <> v 0%nat.
Proof.
  intros tol jv jv' Ht. destruct (triangle_wf (fun _ => 1) (fun _ => 1) (fun _ => 1)) as (r & wf).
  set (g := triangle (fun _ => 1) (fun _ => 1) (fun _ => 1) r) in *.
  assert (RS : re_size (ml_ref g) 1 = 3%nat) by (rewrite (ok_re_size _ _ _ (re_infos_ok _ _ _ (proj1 wf) (proj1 (proj2 wf)))) by lia; reflexivity).
  destruct (C73_sub_geometry_exists 2 g 1 1 wf ltac:(lia) ltac:(lia)) as (g' & SG).
  destruct (sub_face 2 g wf 1 1 g' SG) as (f & F1 & F2 & F3 & F4 & F5 & F6 & F7 & F8 & F9 & F10).
  set (y := fun _ : nat => 1 - tol / 2).
  assert (E2 : emb_global 1 (fpair (topo_of (ml_id g) 2) f) y 1%nat = 1 - tol / 2).
  { pose proof (fidx_nth _ _ F1) as A. rewrite F2, F3 in A. cbn in A. injection A as <-. unfold emb_global, y. cbn. unfold mupd, upd, vzero. cbn. lra. }
  assert (W' := sub_wf 2 g 1 1 g' SG). change (2 - 1)%nat with 1%nat in *.
  destruct (global_regular 1 1 tol ltac:(lra) g' W' jv' y) as (v & EV & VV).
  { rewrite topo_S. destruct (N.testbit _ _); cbn; auto. }
  exists 2%nat, 1%nat, g, 1%nat, 1%nat, g', (fpair (topo_of (ml_id g) 2) f), y. eexists. exists v. change (2 - 1)%nat with 1%nat.
  split; [exact wf|]. split; [exact SG|]. split; [exact F4|]. split.
  { apply inside_T. rewrite topo_S. unfold y. destruct (N.testbit _ _); cbn; lra. }
  split; [lia|]. split; [apply global_spec; exact wf|]. split; [exact EV|].
  assert (V1 : v 0%nat = 1).
  { rewrite VV by lia. rewrite F9. rewrite (rsum_ext _ _ (fun i => shape (topo_of (ml_id g') 1) y i * 1)).
    - rewrite <- F9. apply shape_sum.
    - intros j Hj. rewrite F10 by assumption. f_equal. pose proof (vmap_lt _ f j F1 Hj) as L. revert L.
      change (nv (topo_of (ml_id g) 2)) with 3%nat. generalize (vmap (topo_of (ml_id g) 2) f j). intros [|[|[|l]]] L; [reflexivity..|lia]. }
  rewrite V1. revert E2. generalize (emb_global 1 (fpair (topo_of (ml_id g) 2) f) y). intros x E2. unfold vset, comb. cbn. rewrite E2.
  assert (A : away tol (1 - (1 - tol / 2)) = false).
  { destruct (away tol (1 - (1 - tol / 2))) eqn:E; [|reflexivity]. apply away_true in E; [|lra].
    rewrite Rabs_pos_eq in E by lra. lra. }
  rewrite A. lra.
Qed.
Print Assumptions C73_near_apex_refuted.

(** two elements of any types and dimensions that share a subentity agree on it *)
Theorem C73_conforming :
  forall d mydim1 mydim2 cdim tol jv1 jv2 g1 g2 i1 i2 c1 c2 e1 e2 t1 t2 vs1 vs2 y, 0 <= tol ->
    ml_wf mydim1 g1 -> ml_wf mydim2 g2 -> (mydim1 = d + c1)%nat -> (mydim2 = d + c2)%nat ->
    (i1 < re_size (ml_ref g1) c1)%nat -> (i2 < re_size (ml_ref g2) c2)%nat ->
    re_type (ml_ref g1) i1 c1 = Some t1 -> re_type (ml_ref g2) i2 c2 = Some t2 -> gt_eqb t1 t2 = true ->
    re_subEntities (ml_ref g1) i1 c1 mydim1 = Some vs1 -> re_subEntities (ml_ref g2) i2 c2 mydim2 = Some vs2 ->
    (forall j v1 v2, nth_error vs1 j = Some v1 -> nth_error vs2 j = Some v2 ->
       veq cdim (nth v1 (ml_corners g1) vzero) (nth v2 (ml_corners g2) vzero)) ->
    re_geometry (ml_id g1) mydim1 c1 i1 = Some e1 -> re_geometry (ml_id g2) mydim2 c2 i2 = Some e2 ->
    regular tol (topo_of (ml_id g1) mydim1) (emb_global d e1 y) -> regular tol (topo_of (ml_id g2) mydim2) (emb_global d e2 y) ->
    exists u1 u2, mlg_global mydim1 cdim tol jv1 g1 (emb_global d e1 y) = Some u1 /\
      mlg_global mydim2 cdim tol jv2 g2 (emb_global d e2 y) = Some u2 /\ veq cdim u1 u2.
Proof.
  intros d mydim1 mydim2 cdim tol jv1 jv2 g1 g2 i1 i2 c1 c2 e1 e2 t1 t2 vs1 vs2 y Ht wf1 wf2 D1 D2 H1 H2 T1 T2 TE S1 S2 HC E1 E2 R1 R2.
  destruct (C73_sub_geometry_exists mydim1 g1 i1 c1 wf1 ltac:(lia) H1) as (h1 & SG1).
  destruct (C73_sub_geometry_exists mydim2 g2 i2 c2 wf2 ltac:(lia) H2) as (h2 & SG2).
  assert (M1 : (mydim1 - c1 = d)%nat) by lia. assert (M2 : (mydim2 - c2 = d)%nat) by lia.
  destruct (C73_trace mydim1 cdim tol jv1 jv1 g1 i1 c1 h1 e1 y Ht wf1 SG1 E1) as (u1 & w1 & EU1 & EW1 & Q1); [now rewrite M1|].
  destruct (C73_trace mydim2 cdim tol jv2 jv2 g2 i2 c2 h2 e2 y Ht wf2 SG2 E2) as (u2 & w2 & EU2 & EW2 & Q2); [now rewrite M2|].
  rewrite M1 in EU1, EW1. rewrite M2 in EU2, EW2.
  exists u1, u2. split; [assumption|]. split; [assumption|].
  assert (WH1 := sub_wf _ _ _ _ _ SG1). assert (WH2 := sub_wf _ _ _ _ _ SG2). rewrite M1 in WH1. rewrite M2 in WH2.
  destruct SG1 as (_ & _ & _ & t1' & vs1' & T1' & TE1 & S1' & C1). destruct SG2 as (_ & _ & _ & t2' & vs2' & T2' & TE2 & S2' & C2).
  rewrite T1 in T1'. injection T1' as <-. rewrite S1 in S1'. injection S1' as <-.
  rewrite T2 in T2'. injection T2' as <-. rewrite S2 in S2'. injection S2' as <-.
  assert (B : N.shiftr (ml_id h1) 1 = N.shiftr (ml_id h2) 1).
  { revert TE TE1 TE2. unfold gt_eqb. rewrite !andb_true_iff. cbn [GT2 gt_none Bool.eqb gt_id gt_dim orb].
    intros [A1 A2] [B1 B2] [B3 B4]. apply andb_true_iff in B2, B4. destruct B2 as [_ B2]. destruct B4 as [_ B4]. apply N.eqb_eq in B2, B4.
    destruct (gt_none t1); [discriminate|]. cbn [orb] in A2. apply andb_true_iff in A2. destruct A2 as [_ A2]. apply N.eqb_eq in A2. congruence. }
  intros k Hk. rewrite (Q1 k Hk), (Q2 k Hk). rewrite (global_spec d cdim tol h1 WH1) in EW1. rewrite (global_spec d cdim tol h2 WH2) in EW2.
  injection EW1 as <-. injection EW2 as <-. unfold vset. rewrite (proj2 (Nat.ltb_lt k cdim)) by assumption.
  unfold comb. rewrite (shiftr_lt _ _ B), (shiftr_nv _ _ B). apply rsum_ext. intros j Hj. f_equal.
  assert (L1 := ml_wf_nv _ _ WH1). assert (L2 := ml_wf_nv _ _ WH2). rewrite (shiftr_nv _ _ B) in L1. rewrite C1 in L1 |- *. rewrite C2 in L2 |- *. rewrite map_length in L1, L2.
  rewrite (nth_indep _ vzero (nth 0 (ml_corners g1) vzero)), (nth_indep (map _ vs2) vzero (nth 0 (ml_corners g2) vzero)) by (rewrite map_length; lia).
  rewrite (map_nth (fun v => nth v (ml_corners g1) vzero)), (map_nth (fun v => nth v (ml_corners g2) vzero)).
  apply (HC j); [|  |assumption]; apply nth_error_nth'; lia.
Qed.
Print Assumptions C73_conforming.

(** every edge of every element is mapped to the straight segment between its two corners *)
Theorem C73_straight_edges :
  forall c cdim tol jv g i e y, 0 <= tol -> ml_wf (S c) g -> (i < re_size (ml_ref g) c)%nat ->
    re_geometry (ml_id g) (S c) c i = Some e -> regular tol (topo_of (ml_id g) (S c)) (emb_global 1 e y) ->
    exists a b u, re_subEntities (ml_ref g) i c (S c) = Some [a; b] /\
      mlg_global (S c) cdim tol jv g (emb_global 1 e y) = Some u /\
      forall k, (k < cdim)%nat -> u k = (1 - y 0%nat) * nth a (ml_corners g) vzero k + y 0%nat * nth b (ml_corners g) vzero k.
Proof.
  intros c cdim tol jv g i e y Ht wf Hi He Hr.
  destruct (C73_sub_geometry_exists (S c) g i c wf ltac:(lia) Hi) as (h & SG).
  assert (M : (S c - c = 1)%nat) by lia.
  destruct (C73_trace (S c) cdim tol jv jv g i c h e y Ht wf SG He) as (u & v & EU & EV & Q); [now rewrite M|].
  rewrite M in EU, EV. assert (WH := sub_wf _ _ _ _ _ SG). rewrite M in WH.
  destruct SG as (_ & _ & _ & t & vs & _ & _ & S & C). assert (L := ml_wf_nv _ _ WH).
  assert (NV : nv (topo_of (ml_id h) 1) = 2%nat) by (rewrite topo_S; now destruct (N.testbit _ _)).
  rewrite NV, C, map_length in L. destruct vs as [|a [|b [|]]]; try discriminate.
  exists a, b, u. split; [exact S|]. split; [exact EU|]. intros k Hk. rewrite (Q k Hk).
  destruct (global_regular 1 cdim tol Ht h WH jv y) as (v' & EV' & VV); [rewrite topo_S; destruct (N.testbit _ _); cbn; auto|].
  rewrite EV in EV'. injection EV' as <-. rewrite VV by assumption. rewrite NV, C. cbn [rsum nth map].
  rewrite <- !shape_lt. rewrite !lt_S, orb_true_r. cbn. ring.
Qed.
Print Assumptions C73_straight_edges.

(** the image of a simplicial subentity is the convex hull of its corners, in whatever element
    it lies and however its corners are numbered *)
Theorem C73_simplex_image :
  forall mydim cdim jv g i c e t vs, ml_wf mydim g -> (c <= mydim)%nat -> (i < re_size (ml_ref g) c)%nat ->
    re_type (ml_ref g) i c = Some t -> isSimplex t = true -> re_subEntities (ml_ref g) i c mydim = Some vs ->
    re_geometry (ml_id g) mydim c i = Some e ->
    forall p, in_hull cdim (map (fun v => nth v (ml_corners g) vzero) vs) p <->
      exists y u, in_hull (mydim - c) (referenceCorners (gt_id t) (mydim - c)) y /\
        mlg_global mydim cdim 0 jv g (emb_global (mydim - c) e y) = Some u /\ veq cdim u p.
Proof.
  intros mydim cdim jv g i c e t vs wf Hc Hi Ht HS Hvs He p.
  destruct (C73_sub_geometry_exists mydim g i c wf Hc Hi) as (h & SG).
  assert (WH := sub_wf _ _ _ _ _ SG). pose proof SG as (_ & _ & _ & t' & vs' & T' & TE & V' & C).
  rewrite Ht in T'. injection T' as <-. rewrite Hvs in V'. injection V' as <-.
  destruct wf as (W1 & W2 & W3). destruct (re_type_face _ _ _ _ _ _ W1 W2 Hc Hi Ht) as (f & F1 & F2 & F3 & F4 & F5 & F6).
  assert (wf : ml_wf mydim g) by (repeat split; assumption). rewrite F4 in TE, HS |- *. apply gt_eqb_shiftr in TE. cbn [GT2 gt_id].
  assert (SH : isSimplex (GT2 (ml_id h) (mydim - c)) = true).
  { revert HS. unfold isSimplex, GT2. cbn [gt_none gt_id]. now rewrite (shiftr_lor _ _ TE). }
  assert (IN : forall y, in_hull (mydim - c) (referenceCorners (subTopologyId (ml_id g) mydim c i) (mydim - c)) y <-> inside_ref (mydim - c) h y).
  { intro y. rewrite inside_T, corners_verts. rewrite <- (tdim_topo (subTopologyId (ml_id g) mydim c i) (mydim - c)) at 1.
    rewrite in_hull_insideT, insideT_lt, (insideT_lt (ml_id h)). now rewrite (shiftr_lt _ _ TE). }
  rewrite <- C. split.
  - intros (w & W0 & Ws & Wp). assert (L := ml_wf_nv _ _ WH).
    assert (NV : nv (topo_of (ml_id h) (mydim - c)) = S (mydim - c)).
    { pose proof (simT_verts_length _ (proj1 (isSimplex_simT _ _ (proj1 WH)) SH)) as Q. now rewrite nv_verts, tdim_topo in Q. }
    assert (LC : @length (nat -> R) (ml_corners h) = S (mydim - c)) by (rewrite <- NV; exact L).
    rewrite LC in W0, Ws, Wp. set (y := fun l => w (S l)).
    assert (SY : Ssum (mydim - c) y = 1 - w 0%nat).
    { rewrite Ssum_rsum in *. rewrite rsum_shift in Ws. unfold y. lra. }
    assert (IY : inside_ref (mydim - c) h y).
    { exists w. rewrite <- nv_size, NV. split; [assumption|]. split; [assumption|]. intros k Hk. rewrite Ssum_rsum, rsum_shift.
      rewrite (rsum_ext (mydim - c) _ (fun l => if Nat.eqb l k then w (S l) else 0)).
      - rewrite rsum_delta by assumption. unfold y.
        destruct (nth_error (referenceCorners (ml_id h) (mydim - c)) 0) as [q|] eqn:Eq; [|apply nth_error_None in Eq; rewrite <- nv_size, NV in Eq; lia].
        rewrite (nth_error_nth _ _ _ Eq). rewrite (C16_simplex_corners (ml_id h) (mydim - c) 0 q ltac:(rewrite <- bit_pow; apply WH) SH Eq). cbn. ring.
      - intros l Hl. destruct (nth_error (referenceCorners (ml_id h) (mydim - c)) (S l)) as [q|] eqn:Eq; [|apply nth_error_None in Eq; rewrite <- nv_size, NV in Eq; lia].
        rewrite (nth_error_nth _ _ _ Eq). rewrite (C16_simplex_corners (ml_id h) (mydim - c) (S l) q ltac:(rewrite <- bit_pow; apply WH) SH Eq).
        cbn [Nat.eqb]. rewrite (Nat.eqb_sym l k). destruct (Nat.eqb k l); ring. }
    destruct (C73_trace_exact mydim cdim jv jv g i c h e y wf SG He) as (u & v & EU & EV & Q).
    exists y, u. split; [now apply IN|]. split; [assumption|]. intros k Hk. rewrite (Q k Hk).
    destruct (C30_simplex_formula (mydim - c) cdim 0 jv h y (Rle_refl 0) WH SH) as (v' & EV' & VV); [right; split; [apply regular_0|assumption]|].
    rewrite EV in EV'. injection EV' as <-. rewrite VV, SY by assumption. rewrite (Wp k Hk), !Ssum_rsum, rsum_shift. unfold y. replace (1 - (1 - w 0%nat)) with (w 0%nat) by ring. reflexivity.
  - intros (y & u & IY & EU & Q). destruct (C73_trace_exact mydim cdim jv jv g i c h e y wf SG He) as (u' & v & EU' & EV & Q').
    rewrite EU in EU'. injection EU' as <-. apply IN in IY.
    destruct (C30_in_hull (mydim - c) cdim 0 jv h y v (Rle_refl 0) WH IY (regular_0 _ _) EV) as (w & W0 & Ws & Wp).
    exists w. split; [assumption|]. split; [assumption|]. intros k Hk. rewrite <- (Q k Hk), (Q' k Hk). now apply Wp.
Qed.
Print Assumptions C73_simplex_image.

(** chain rule: the transposed Jacobian of the subentity's geometry is the transposed Jacobian
    of the embedding times the transposed Jacobian of the element *)
Theorem C73_jacobian_trace :
  forall mydim cdim tol jm jk jm' jk' g i c g' e y, 0 <= tol -> ml_wf mydim g -> sub_geometry mydim g i c g' ->
    re_geometry (ml_id g) mydim c i = Some e ->
    smooth tol (topo_of (ml_id g) mydim) (emb_global (mydim - c) e y) ->
    exists J J', mlg_jacobianTransposed mydim cdim tol jm jk g (emb_global (mydim - c) e y) = Some J /\
      mlg_jacobianTransposed (mydim - c) cdim tol jm' jk' g' y = Some J' /\
      meq (mydim - c) cdim J' (mmul mydim (snd e) J).
Proof.
  intros mydim cdim tol jm jk jm' jk' g i c g' e y Ht wf SG He Hs.
  apply (jt_trace mydim g wf i c g' SG cdim tol jm jk jm' jk' e y Ht He Hs).
Qed.
Print Assumptions C73_jacobian_trace.

(** the right edge of the quadrilateral (0,0), (1,0), (0,1), (2,3) runs from (1,0) to (2,3) *)
Example C73_example :
  exists r e, let g := quad (fun _ => 0) (fun k => if Nat.eqb k 0 then 1 else 0) (fun k => if Nat.eqb k 1 then 1 else 0) (fun k => if Nat.eqb k 0 then 2 else 3) r in
    ml_wf 2 g /\ re_geometry 3 2 1 1 = Some e /\ re_subEntities r 1 1 2 = Some [1%nat; 3%nat] /\
    emb_global 1 e (fun _ => 1/3) 0%nat = 1 /\ emb_global 1 e (fun _ => 1/3) 1%nat = 1/3 /\
    exists u, mlg_global 2 2 (1/1000) (fun _ => 0) g (emb_global 1 e (fun _ => 1/3)) = Some u /\ u 0%nat = 4/3 /\ u 1%nat = 1.
Proof.
  destruct (quad_wf (fun _ => 0) (fun k => if Nat.eqb k 0 then 1 else 0) (fun k => if Nat.eqb k 1 then 1 else 0) (fun k => if Nat.eqb k 0 then 2 else 3)) as (r & wf).
  exists r. eexists. cbv zeta. split; [exact wf|]. split; [reflexivity|].
  pose proof wf as (W1 & W2 & _). cbn [ml_id ml_ref quad] in W1, W2.
  split; [vm_compute in W2; injection W2 as <-; vm_compute; reflexivity|].
  match goal with |- context [emb_global 1 ?e ?y] => set (x := emb_global 1 e y);
    assert (X0 : x 0%nat = 1) by (unfold x, emb_global, upd, vzero, mupd, midentity; cbn; lra);
    assert (X1 : x 1%nat = 1/3) by (unfold x, emb_global, upd, vzero, mupd, midentity; cbn; lra) end.
  clearbody x. split; [exact X0|]. split; [exact X1|].
  eexists. split; [apply global_spec; exact wf|]. split; unfold vset, comb; cbn; rewrite X0, X1; lra.
Qed.
