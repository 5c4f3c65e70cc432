(** Traces: the shape functions of a topology restricted to one of its faces are the shape
    functions of that face. *)
From Coq Require Import NArith PeanoNat Bool List Lia Reals Lra FunctionalExtensionality.
From Verif Require Import M_Type M_RefTopo M_RefGeo P_Type P_Type2 S_Topo P_Topo P_RefTopo P_RefTopo2 P_RefTopo3 P_RSum P_RefGeo P_RefGeo2 P_RefGeo3 S_RefGeo P_RefGeo4 M_Matrix M_MultiLinear S_Matrix S_MultiLinear P_ML1 P_ML2 P_ML3.
Import ListNotations.
Local Open Scope R_scope.

(** number in [T] of corner [j] of the face [f] *)
Fixpoint vmap (T : Topo) (f : Face) (j : nat) : nat :=
  match T, f with
  | Pri b, FSide f => if Nat.ltb j (nv (ftype b f)) then vmap b f j else nv b + vmap b f (j - nv (ftype b f))
  | Pri b, FBot f => vmap b f j
  | Pri b, FTop f => nv b + vmap b f j
  | Pyr b, FBase f => vmap b f j
  | Pyr b, FCone f => if Nat.ltb j (nv (ftype b f)) then vmap b f j else nv b
  | Pyr b, FApex => nv b
  | _, _ => 0
  end.

Lemma tsize_nv T : tsize T (tdim T) = nv T.
Proof. rewrite <- nv_verts. reflexivity. Qed.

Lemma tsize_big T : tsize T (S (tdim T)) = 0%nat.
Proof. unfold tsize. now rewrite faces_big by lia. Qed.

Lemma vmap_fidx T : forall f j, is_face T f -> (j < nv (ftype T f))%nat ->
  vmap T f j = fidx T (emb f (nth j (verts (ftype T f)) FPt)).
Proof.
  induction T as [|b IH|b IH]; intros f j Hf Hj; destruct f; cbn [is_face] in Hf; try contradiction;
    cbn [ftype vmap] in *.
  - reflexivity.
  - assert (V : forall l, (l < nv (ftype b f))%nat -> vertexF b (emb f (nth l (verts (ftype b f)) FPt))).
    { intros l Hl. apply emb_vertex; [assumption|]. apply in_verts, nth_In. now rewrite nv_verts. }
    rewrite verts_Pri. cbn [nv] in Hj. destruct (Nat.ltb_spec j (nv (ftype b f))).
    + rewrite app_nth1 by (rewrite map_length, nv_verts; lia).
      rewrite (nth_indep _ FPt (FBot FPt)) by (rewrite map_length, nv_verts; lia). rewrite map_nth.
      cbn [emb fidx]. destruct (V j H) as [_ ->]. rewrite tsize_big, IH by assumption. reflexivity.
    + rewrite app_nth2 by (rewrite map_length, nv_verts; lia). rewrite map_length, nv_verts.
      rewrite (nth_indep _ FPt (FTop FPt)) by (rewrite map_length, nv_verts; lia). rewrite map_nth.
      cbn [emb fidx]. destruct (V (j - nv (ftype b f))%nat) as [_ ->]; [lia|]. rewrite tsize_big, tsize_nv, IH by (assumption || lia). reflexivity.
  - assert (V : vertexF b (emb f (nth j (verts (ftype b f)) FPt))).
    { apply emb_vertex; [assumption|]. apply in_verts, nth_In. now rewrite nv_verts. }
    cbn [emb fidx]. destruct V as [_ ->]. rewrite tsize_big, IH by assumption. reflexivity.
  - assert (V : vertexF b (emb f (nth j (verts (ftype b f)) FPt))).
    { apply emb_vertex; [assumption|]. apply in_verts, nth_In. now rewrite nv_verts. }
    cbn [emb fidx]. destruct V as [_ ->]. rewrite tsize_big, tsize_nv, IH by assumption. reflexivity.
  - cbn [emb fidx]. now apply IH.
  - rewrite verts_Pyr. cbn [nv] in Hj. destruct (Nat.ltb_spec j (nv (ftype b f))).
    + rewrite app_nth1 by (rewrite map_length, nv_verts; lia).
      rewrite (nth_indep _ FPt (FBase FPt)) by (rewrite map_length, nv_verts; lia). rewrite map_nth.
      cbn [emb fidx]. now apply IH.
    + rewrite app_nth2 by (rewrite map_length, nv_verts; lia). rewrite map_length, nv_verts.
      replace (j - nv (ftype b f))%nat with 0%nat by lia. cbn [nth emb fidx]. now rewrite tsize_nv.
  - cbn [emb fidx]. now rewrite tsize_nv.
Qed.

Lemma vmap_lt T : forall f j, is_face T f -> (j < nv (ftype T f))%nat -> (vmap T f j < nv T)%nat.
Proof.
  induction T as [|b IH|b IH]; intros f j Hf Hj; destruct f; cbn [is_face] in Hf; try contradiction;
    cbn [ftype vmap nv] in *; try (specialize (IH f)).
  - lia.
  - destruct (Nat.ltb_spec j (nv (ftype b f))); [specialize (IH j Hf ltac:(lia)); lia|].
    specialize (IH (j - nv (ftype b f))%nat Hf ltac:(lia)). lia.
  - specialize (IH j Hf ltac:(lia)). lia.
  - specialize (IH j Hf ltac:(lia)). lia.
  - specialize (IH j Hf ltac:(lia)). lia.
  - destruct (Nat.ltb_spec j (nv (ftype b f))); [specialize (IH j Hf ltac:(lia)); lia|lia].
  - lia.
Qed.

(** ** the embedding, coordinate by coordinate *)
Lemma Emb_Side b f y k : Emb (Pri b) (FSide f) y k = if (k =? tdim b)%nat then y (tdim (ftype b f)) else Emb b f y k.
Proof.
  rewrite !Emb_Lin, Lin_Side. cbn [forg]. destruct (Nat.eqb_spec k (tdim b)) as [->|]; [|reflexivity].
  rewrite forg_support by lia. lra.
Qed.
Lemma Emb_Bot b f y : Emb (Pri b) (FBot f) y = Emb b f y. Proof. reflexivity. Qed.
Lemma Emb_Base b f y : Emb (Pyr b) (FBase f) y = Emb b f y. Proof. reflexivity. Qed.
Lemma Emb_Top b f y k : Emb (Pri b) (FTop f) y k = if (k =? tdim b)%nat then 1 else Emb b f y k.
Proof.
  rewrite !Emb_Lin, Lin_Top. cbn [forg]. destruct (Nat.eqb_spec k (tdim b)) as [->|]; [|now rewrite upd_ne].
  rewrite upd_eq, Lin_support by lia. lra.
Qed.
Lemma Emb_Apex b y k : Emb (Pyr b) FApex y k = if (k =? tdim b)%nat then 1 else 0.
Proof.
  rewrite Emb_Lin. unfold Lin. cbn [forg ftype tdim rsum]. destruct (Nat.eqb_spec k (tdim b)) as [->|]; [rewrite upd_eq; lra|].
  rewrite upd_ne by assumption. unfold vzero. lra.
Qed.
Lemma Emb_Cone b f y k : y (tdim (ftype b f)) <> 1 ->
  Emb (Pyr b) (FCone f) y k =
  if (k =? tdim b)%nat then y (tdim (ftype b f))
  else (1 - y (tdim (ftype b f))) * Emb b f (fun l => y l / (1 - y (tdim (ftype b f)))) k.
Proof.
  intro N. rewrite !Emb_Lin, Lin_Cone. cbn [forg]. destruct (Nat.eqb_spec k (tdim b)) as [->|].
  - rewrite forg_support by lia. lra.
  - rewrite (Lin_ext b f _ (vscale (1 - y (tdim (ftype b f))) (fun l => y l / (1 - y (tdim (ftype b f)))))).
    + rewrite Lin_scale. lra.
    + intros j _. unfold vscale. field. lra.
Qed.
Lemma Emb_Cone_last b f y : Emb (Pyr b) (FCone f) y (tdim b) = y (tdim (ftype b f)).
Proof. rewrite !Emb_Lin, Lin_Cone, Nat.eqb_refl. cbn [forg]. rewrite forg_support by lia. lra. Qed.

(** ** shape functions *)
Lemma rsum_shape_ext T x y (c : nat -> R) : (forall k, (k < tdim T)%nat -> x k = y k) ->
  rsum (nv T) (fun i => shape T x i * c i) = rsum (nv T) (fun i => shape T y i * c i).
Proof. intro H. apply rsum_ext. intros i _. now rewrite (shape_ext T x y). Qed.

Lemma shape_trace T : forall f y (c : nat -> R), is_face T f ->
  rsum (nv T) (fun i => shape T (Emb T f y) i * c i) =
  rsum (nv (ftype T f)) (fun j => shape (ftype T f) y j * c (vmap T f j)).
Proof.
  induction T as [|b IH|b IH]; intros f y c Hf; destruct f; cbn [is_face] in Hf; try contradiction; cbn [ftype].
  - reflexivity.
  - rewrite !sum_Pri, Emb_Side, Nat.eqb_refl.
    rewrite !(rsum_shape_ext b (Emb (Pri b) (FSide f) y) (Emb b f y)) by (intros k Hk; rewrite Emb_Side, (proj2 (Nat.eqb_neq _ _)) by lia; reflexivity).
    rewrite (IH f y c Hf), (IH f y (fun i => c (nv b + i)%nat) Hf). f_equal; f_equal; apply rsum_ext; intros j Hj; cbn [vmap].
    + now rewrite (proj2 (Nat.ltb_lt _ _) Hj).
    + rewrite (proj2 (Nat.ltb_ge _ _)) by lia. now replace (nv (ftype b f) + j - nv (ftype b f))%nat with j by lia.
  - rewrite sum_Pri, Emb_Bot, Emb_support by lia. rewrite (IH f y c Hf). cbn [vmap]. lra.
  - rewrite sum_Pri, Emb_Top, Nat.eqb_refl.
    rewrite !(rsum_shape_ext b (Emb (Pri b) (FTop f) y) (Emb b f y)) by (intros k Hk; rewrite Emb_Top, (proj2 (Nat.eqb_neq _ _)) by lia; reflexivity).
    rewrite (IH f y (fun i => c (nv b + i)%nat) Hf). cbn [vmap]. lra.
  - rewrite sum_Pyr, Emb_Base, Emb_support by lia.
    rewrite (rsum_shape_ext b (fun k => Emb b f y k / (1 - 0)) (Emb b f y)) by (intros k Hk; field).
    rewrite (IH f y c Hf). cbn [vmap]. lra.
  - rewrite !sum_Pyr, Emb_Cone_last. destruct (Req_dec (y (tdim (ftype b f))) 1) as [E|E].
    + rewrite E. cbn [vmap]. rewrite Nat.ltb_irrefl. lra.
    + rewrite (rsum_shape_ext b _ (Emb b f (fun l => y l / (1 - y (tdim (ftype b f)))))).
      2:{ intros k Hk. rewrite Emb_Cone, (proj2 (Nat.eqb_neq _ _)) by (assumption || lia). field. lra. }
      rewrite (IH f _ c Hf). f_equal; [f_equal; apply rsum_ext; intros j Hj|]; cbn [vmap].
      * now rewrite (proj2 (Nat.ltb_lt _ _) Hj).
      * now rewrite Nat.ltb_irrefl.
  - rewrite sum_Pyr, Emb_Apex, Nat.eqb_refl. cbn [vmap nv shape rsum]. lra.
Qed.

Lemma regular_ext tol T : forall x y, (forall k, (k < tdim T)%nat -> x k = y k) -> regular tol T x -> regular tol T y.
Proof.
  induction T as [|b IH|b IH]; intros x y E H; cbn [regular tdim] in *; [exact I| |].
  - apply (IH x); auto.
  - rewrite <- !(E (tdim b)) by lia. destruct H as [H|[H|[H1 H2]]]; auto. right. right. split; [assumption|].
    apply (IH (fun k => x k / (1 - x (tdim b)))); [|assumption]. intros k Hk. now rewrite <- !E by lia.
Qed.
Lemma smooth_ext tol T : forall x y, (forall k, (k < tdim T)%nat -> x k = y k) -> smooth tol T x -> smooth tol T y.
Proof.
  induction T as [|b IH|b IH]; intros x y E H; cbn [smooth tdim] in *; [exact I| |].
  - apply (IH x); auto.
  - rewrite <- !(E (tdim b)) by lia. destruct H as [H|[H1 H2]]; auto. right. split; [assumption|].
    apply (IH (fun k => x k / (1 - x (tdim b)))); [|assumption]. intros k Hk. now rewrite <- !E by lia.
Qed.

Lemma ftype_Pt f : is_face Pt f -> ftype Pt f = Pt.
Proof. now destruct f. Qed.

Lemma regular_trace tol T : forall f y, is_face T f ->
  regular tol T (Emb T f y) -> regular tol (ftype T f) y.
Proof.
  induction T as [|b IH|b IH]; intros f y Hf H; destruct f; cbn [is_face] in Hf; try contradiction; cbn [ftype regular] in *; auto.
  - apply (IH f y Hf). apply (regular_ext tol b _ _ (fun k Hk => eq_trans (Emb_Side b f y k) ltac:(rewrite (proj2 (Nat.eqb_neq _ _)) by lia; reflexivity)) H).
  - apply (IH f y Hf). apply (regular_ext tol b _ _ (fun k Hk => eq_trans (Emb_Top b f y k) ltac:(rewrite (proj2 (Nat.eqb_neq _ _)) by lia; reflexivity)) H).
  - rewrite Emb_Base, Emb_support in H by lia. destruct H as [->|[H|[_ H]]].
    + now rewrite ftype_Pt.
    + lra.
    + apply (IH f y Hf). revert H. apply regular_ext. intros k _. field.
  - rewrite Emb_Cone_last in H. destruct H as [->|[H|[H1 H2]]]; [left; now apply ftype_Pt|auto|].
    destruct (Req_dec (y (tdim (ftype b f))) 1) as [E|E]; [auto|]. right. right. split; [assumption|].
    apply (IH f _ Hf). revert H2. apply regular_ext. intros k Hk.
    rewrite Emb_Cone, (proj2 (Nat.eqb_neq _ _)) by (assumption || lia). field. lra.
Qed.

Lemma smooth_trace tol T : forall f y, 0 <= tol -> is_face T f ->
  smooth tol T (Emb T f y) -> smooth tol (ftype T f) y.
Proof.
  induction T as [|b IH|b IH]; intros f y Ht Hf H; destruct f; cbn [is_face] in Hf; try contradiction; cbn [ftype smooth] in *; auto.
  - apply (IH f y Ht Hf). apply (smooth_ext tol b _ _ (fun k Hk => eq_trans (Emb_Side b f y k) ltac:(rewrite (proj2 (Nat.eqb_neq _ _)) by lia; reflexivity)) H).
  - apply (IH f y Ht Hf). apply (smooth_ext tol b _ _ (fun k Hk => eq_trans (Emb_Top b f y k) ltac:(rewrite (proj2 (Nat.eqb_neq _ _)) by lia; reflexivity)) H).
  - rewrite Emb_Base, Emb_support in H by lia. destruct H as [->|[_ H]].
    + now rewrite ftype_Pt.
    + apply (IH f y Ht Hf). revert H. apply smooth_ext. intros k _. field.
  - rewrite Emb_Cone_last in H. destruct H as [->|[H1 H2]]; [left; now apply ftype_Pt|].
    destruct (Req_dec (y (tdim (ftype b f))) 1) as [E|E].
    { exfalso. rewrite E, Rminus_diag_eq, Rabs_R0 in H1 by reflexivity. lra. }
    right. split; [assumption|].
    apply (IH f _ Ht Hf). revert H2. apply smooth_ext. intros k Hk.
    rewrite Emb_Cone, (proj2 (Nat.eqb_neq _ _)) by (assumption || lia). field. lra.
Qed.

(** at smooth points the tolerance does not matter *)
Lemma shapeC_tol tol T : 0 <= tol -> forall x, smoothC tol T x ->
  forall i, shapeC tol T x i = shapeC 0 T x i.
Proof.
  intro Ht. induction T as [|b IH|b IH]; intros x H i; cbn [smoothC shapeC] in *; [reflexivity| |].
  - now rewrite !IH.
  - destruct H as [H1 H2]. assert (A : away tol (1 - x (tdim b)) = true) by (apply away_true; assumption).
    assert (A0 : away 0 (1 - x (tdim b)) = true) by (apply away_true; lra). rewrite A, A0. now rewrite IH.
Qed.
Lemma dshapeC_tol tol T : 0 <= tol -> forall x, smoothC tol T x ->
  forall j i, dshapeC tol T x j i = dshapeC 0 T x j i.
Proof.
  intro Ht. induction T as [|b IH|b IH]; intros x H j i; cbn [smoothC] in *; [reflexivity| |].
  - cbn [dshapeC]. destruct (Nat.ltb j (tdim b)), (Nat.ltb i (nv b)); rewrite ?(IH x H), ?(shapeC_tol tol b Ht x H); reflexivity.
  - destruct H as [H1 H2]. assert (A : away tol (1 - x (tdim b)) = true) by (apply away_true; assumption).
    assert (A0 : away 0 (1 - x (tdim b)) = true) by (apply away_true; lra).
    assert (P : proj tol (x (tdim b)) x = fun k => x k / (1 - x (tdim b))) by (unfold proj; now rewrite A).
    assert (P0 : proj 0 (x (tdim b)) x = fun k => x k / (1 - x (tdim b))) by (unfold proj; now rewrite A0).
    cbn [dshapeC]. rewrite P, P0. destruct (Nat.ltb j (tdim b)), (Nat.ltb i (nv b)); auto.
    rewrite shapeC_tol by assumption. f_equal. apply rsum_ext. intros l _. now rewrite IH.
Qed.
Lemma smooth_0 tol T : 0 <= tol -> forall x, smooth tol T x -> smooth 0 T x.
Proof.
  intro Ht. induction T as [|b IH|b IH]; intros x H; cbn [smooth] in *; auto.
  destruct H as [H|[H1 H2]]; auto. right. split; [lra|]. auto.
Qed.

(** ** index level *)
Section Sub.
Context (mydim : nat) (g : MLGeo) (wf : ml_wf mydim g).

Lemma sub_corners f vs : is_face (topo_of (ml_id g) mydim) f ->
  re_subEntities (ml_ref g) (fidx (topo_of (ml_id g) mydim) f) (fcod (topo_of (ml_id g) mydim) f) mydim = Some vs ->
  length vs = nv (ftype (topo_of (ml_id g) mydim) f) /\
  forall j, (j < nv (ftype (topo_of (ml_id g) mydim) f))%nat -> nth j vs 0%nat = vmap (topo_of (ml_id g) mydim) f j.
Proof.
  intros Hf E. destruct wf as (W1 & W2 & W3). pose proof (re_infos_ok _ _ _ W1 W2) as OK.
  rewrite (re_subEntities_face _ _ _ _ f mydim OK eq_refl Hf) in E by lia. injection E as <-.
  pose proof (want_vertices _ f Hf) as W. rewrite tdim_topo in W. rewrite W. split.
  - now rewrite map_length, nv_verts.
  - intros j Hj. rewrite (nth_indep _ _ (fidx (topo_of (ml_id g) mydim) (emb f FPt))) by (rewrite map_length, nv_verts; assumption).
    rewrite (map_nth (fun g0 => fidx (topo_of (ml_id g) mydim) (emb f g0))). symmetry. now apply vmap_fidx.
Qed.
End Sub.
