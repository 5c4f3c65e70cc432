(** Reference element geometry on the abstract face lattice; the code of M_RefGeo
    computes exactly these objects. *)
From Coq Require Import NArith PeanoNat Bool List Lia Reals Lra FunctionalExtensionality.
From Verif Require Import M_Type M_RefTopo M_RefGeo P_Type P_Type2 S_Topo P_Topo P_RefTopo P_RefTopo2 P_RSum.
Import ListNotations.
Local Open Scope R_scope.

Fixpoint forg (T : Topo) (f : Face) : Vec :=
  match T, f with
  | Pri b, FSide f => forg b f
  | Pri b, FBot f => forg b f
  | Pri b, FTop f => upd (forg b f) (tdim b) 1
  | Pyr b, FBase f => forg b f
  | Pyr b, FCone f => forg b f
  | Pyr b, FApex => upd vzero (tdim b) 1
  | _, _ => vzero
  end.

Fixpoint fjt (T : Topo) (f : Face) : Mat :=
  match T, f with
  | Pri b, FSide f => mupd (fjt b f) (tdim (ftype b f)) (tdim b) 1
  | Pri b, FBot f => fjt b f
  | Pri b, FTop f => fjt b f
  | Pyr b, FBase f => fjt b f
  | Pyr b, FCone f =>
      mupd (neg_row (tdim b) (tdim (ftype b f)) (forg b f) (fjt b f)) (tdim (ftype b f)) (tdim b) 1
  | _, _ => mzero
  end.

Lemma neg_row_row n row o jt : forall k,
  neg_row n row o jt row k = if (k <? n)%nat then - o k else jt row k.
Proof.
  induction n as [|n IH]; intros k; [reflexivity|]. cbn [neg_row]. rewrite mupd_row.
  destruct (Nat.eq_dec k n) as [->|E].
  - rewrite upd_eq. destruct (Nat.ltb_spec n (S n)); [reflexivity|lia].
  - rewrite upd_ne, IH by assumption.
    destruct (Nat.ltb_spec k n), (Nat.ltb_spec k (S n)); auto; lia.
Qed.
Lemma neg_row_ne n row o jt i : i <> row -> neg_row n row o jt i = jt i.
Proof.
  intros H. induction n as [|n IH]; [reflexivity|]. cbn [neg_row]. now rewrite mupd_ne.
Qed.

Lemma tdim_ftype' b f : is_face b f -> tdim (ftype b f) = (tdim b - fcod b f)%nat.
Proof. apply tdim_ftype. Qed.

Lemma forg_whole T : forg T (whole T) = vzero.
Proof. induction T; simpl; auto. Qed.

Lemma tdim_ftype_whole T : tdim (ftype T (whole T)) = tdim T.
Proof. now rewrite (proj2 (proj2 (whole_face T))). Qed.

Lemma fjt_whole T : fjt T (whole T) = midentity (tdim T).
Proof.
  induction T as [|b IH|b IH]; apply functional_extensionality; intros i;
    apply functional_extensionality; intros k.
  - unfold midentity. simpl. now rewrite andb_false_r.
  - cbn [whole fjt]. rewrite tdim_ftype_whole. cbn [tdim].
    destruct (Nat.eq_dec i (tdim b)) as [->|Ei].
    + rewrite mupd_row, IH. unfold midentity. destruct (Nat.eq_dec k (tdim b)) as [->|Ek].
      * rewrite upd_eq, Nat.eqb_refl. destruct (Nat.ltb_spec (tdim b) (S (tdim b))); [reflexivity|lia].
      * rewrite upd_ne by assumption. destruct (Nat.eqb_spec (tdim b) k); [lia|reflexivity].
    + rewrite mupd_ne, IH by assumption. unfold midentity.
      destruct (Nat.eqb_spec i k); [|reflexivity]. subst k.
      destruct (Nat.ltb_spec i (tdim b)), (Nat.ltb_spec i (S (tdim b))); auto; lia.
  - cbn [whole fjt]. rewrite tdim_ftype_whole, forg_whole. cbn [tdim].
    destruct (Nat.eq_dec i (tdim b)) as [->|Ei].
    + rewrite mupd_row. unfold midentity. destruct (Nat.eq_dec k (tdim b)) as [->|Ek].
      * rewrite upd_eq, Nat.eqb_refl. destruct (Nat.ltb_spec (tdim b) (S (tdim b))); [reflexivity|lia].
      * rewrite upd_ne, neg_row_row, IH by assumption.
        destruct (Nat.eqb_spec (tdim b) k); [lia|]. unfold vzero, midentity.
        destruct (Nat.eqb_spec (tdim b) k); [lia|].
        destruct (k <? tdim b)%nat; simpl; [apply Ropp_0|reflexivity].
    + rewrite mupd_ne, neg_row_ne, IH by assumption. unfold midentity.
      destruct (Nat.eqb_spec i k); [|reflexivity]. subst k.
      destruct (Nat.ltb_spec i (tdim b)), (Nat.ltb_spec i (S (tdim b))); auto; lia.
Qed.

Definition fpair (T : Topo) (f : Face) : Vec * Mat := (forg T f, fjt T f).

Lemma faces_big T c : (tdim T < c)%nat -> faces T c = [].
Proof. intros H. apply length_zero_iff_nil. now apply tsize_big. Qed.

(** ** The code computes them *)

Lemma referenceEmbeddings_spec dim : forall id c, (c <= dim)%nat ->
  referenceEmbeddings id dim c = map (fpair (topo_of id dim)) (faces (topo_of id dim) c).
Proof.
  induction dim as [|d IH]; intros id c Hc.
  - replace c with O by lia. cbn [referenceEmbeddings topo_of faces map]. unfold fpair. cbn [forg fjt].
    do 2 f_equal. exact (eq_sym (fjt_whole Pt)).
  - destruct c as [|c].
    { cbn [referenceEmbeddings]. rewrite faces_0. cbn [map]. unfold fpair.
      now rewrite forg_whole, fjt_whole, tdim_topo_of. }
    cbn [referenceEmbeddings].
    rewrite (IH _ c), topo_of_base by lia.
    assert (N : (if Nat.ltb (S c) (S d) then referenceEmbeddings (baseTopologyId id (S d) 1) d (S c) else [])
                = map (fpair (topo_of id d)) (faces (topo_of id d) (S c))).
    { destruct (Nat.ltb_spec (S c) (S d)).
      - now rewrite IH, topo_of_base by lia.
      - now rewrite faces_big by (rewrite tdim_topo_of; lia). }
    rewrite N.
    assert (TD : forall f, In f (faces (topo_of id d) (S c)) -> tdim (ftype (topo_of id d) f) = (S d - S c - 1)%nat).
    { intros f Hf. apply in_faces in Hf. destruct Hf as [F1 F2].
      rewrite tdim_ftype, tdim_topo_of, F2 by assumption. lia. }
    destruct (topo_cases id d) as [[-> ->]|[[-> ->]|(-> & -> & ->)]].
    + cbn [faces]. rewrite !map_app, !map_map. f_equal.
      * apply map_ext_in. intros f Hf. unfold fpair. cbn [forg fjt].
        now rewrite TD, tdim_topo_of by assumption.
      * f_equal. apply map_ext. intros f. unfold fpair. cbn [forg fjt]. now rewrite tdim_topo_of.
    + cbn [faces]. rewrite !map_app, !map_map, tdim_topo_of.
      destruct (Nat.eqb_spec (S c) (S d)).
      * rewrite (faces_big _ (S c)) by (rewrite tdim_topo_of; lia). cbn [map app]. unfold fpair. cbn [forg fjt].
        now rewrite tdim_topo_of.
      * rewrite (IH _ (S c)), topo_of_base by lia. rewrite map_map. cbn [map]. rewrite app_nil_r. f_equal.
        apply map_ext_in. intros f Hf. unfold fpair. cbn [forg fjt].
        now rewrite TD, tdim_topo_of by assumption.
    + replace c with O by lia. reflexivity.
Qed.

Lemma referenceOrigins_spec dim : forall id c, (c <= dim)%nat ->
  referenceOrigins id dim c = map (forg (topo_of id dim)) (faces (topo_of id dim) c).
Proof.
  induction dim as [|d IH]; intros id c Hc.
  - replace c with O by lia. reflexivity.
  - destruct c as [|c].
    { cbn [referenceOrigins]. rewrite faces_0. cbn [map]. now rewrite forg_whole. }
    cbn [referenceOrigins].
    rewrite (IH _ c), topo_of_base by lia.
    assert (N : (if Nat.ltb (S c) (S d) then referenceOrigins (baseTopologyId id (S d) 1) d (S c) else [])
                = map (forg (topo_of id d)) (faces (topo_of id d) (S c))).
    { destruct (Nat.ltb_spec (S c) (S d)).
      - now rewrite IH, topo_of_base by lia.
      - now rewrite faces_big by (rewrite tdim_topo_of; lia). }
    rewrite N.
    destruct (topo_cases id d) as [[-> ->]|[[-> ->]|(-> & -> & ->)]].
    + cbn [faces]. rewrite !map_app, !map_map. f_equal. f_equal.
      apply map_ext. intros f. cbn [forg]. now rewrite tdim_topo_of.
    + cbn [faces]. rewrite !map_app, !map_map, tdim_topo_of.
      destruct (Nat.eqb_spec (S c) (S d)).
      * rewrite (faces_big _ (S c)) by (rewrite tdim_topo_of; lia). cbn [map app forg].
        now rewrite tdim_topo_of.
      * rewrite (IH _ (S c)), topo_of_base by lia. cbn [map]. now rewrite app_nil_r.
    + replace c with O by lia. reflexivity.
Qed.

Lemma referenceCorners_spec dim : forall id,
  referenceCorners id dim = map (forg (topo_of id dim)) (faces (topo_of id dim) dim).
Proof.
  induction dim as [|d IH]; intros id; [reflexivity|].
  cbn [referenceCorners]. rewrite IH, topo_of_base.
  destruct (topo_cases id d) as [[-> ->]|[[-> ->]|(-> & -> & ->)]].
  - cbn [faces]. rewrite (faces_big _ (S d)) by (rewrite tdim_topo_of; lia). cbn [map app].
    rewrite !map_app, !map_map. f_equal. apply map_ext. intros f. cbn [forg]. now rewrite tdim_topo_of.
  - cbn [faces]. rewrite (faces_big _ (S d)) by (rewrite tdim_topo_of; lia).
    rewrite tdim_topo_of, Nat.eqb_refl. cbn [map app]. rewrite !map_app, !map_map.
    cbn [map forg]. now rewrite tdim_topo_of.
  - reflexivity.
Qed.

(** ** Supports *)

Lemma forg_support T : forall f k, (tdim T <= k)%nat -> forg T f k = 0.
Proof.
  induction T as [|b IH|b IH]; intros f k Hk; destruct f; cbn [forg tdim] in *; try reflexivity;
    try (apply IH; lia); rewrite upd_ne by lia; [apply IH; lia|reflexivity].
Qed.

Lemma fjt_support T : forall f i k, (tdim T <= k \/ tdim (ftype T f) <= i)%nat -> fjt T f i k = 0.
Proof.
  induction T as [|b IH|b IH]; intros f i k Hk; destruct f; cbn [fjt tdim ftype] in *; try reflexivity;
    try (apply IH; lia).
  - destruct (Nat.eq_dec i (tdim (ftype b f))) as [->|E].
    + rewrite mupd_row, upd_ne by lia. apply IH. lia.
    + rewrite mupd_ne by assumption. apply IH. lia.
  - destruct (Nat.eq_dec i (tdim (ftype b f))) as [->|E].
    + rewrite mupd_row, upd_ne, neg_row_row by lia. destruct (Nat.ltb_spec k (tdim b)); [lia|].
      apply IH. lia.
    + rewrite mupd_ne, neg_row_ne by assumption. apply IH. lia.
Qed.

(** ** The embedding as a map *)

Definition Emb (T : Topo) (f : Face) (y : Vec) : Vec := emb_global (tdim (ftype T f)) (fpair T f) y.
(** its linear part *)
Definition Lin (T : Topo) (f : Face) (y : Vec) : Vec :=
  fun k => rsum (tdim (ftype T f)) (fun j => fjt T f j k * y j).

Lemma Emb_Lin T f y k : Emb T f y k = forg T f k + Lin T f y k.
Proof. reflexivity. Qed.

Lemma Emb_support T f y k : (tdim T <= k)%nat -> Emb T f y k = 0.
Proof.
  intros H. rewrite Emb_Lin, forg_support by assumption. unfold Lin. rewrite rsum_0; [lra|].
  intros j _. rewrite fjt_support by auto. lra.
Qed.
Lemma Lin_support T f y k : (tdim T <= k)%nat -> Lin T f y k = 0.
Proof.
  intros H. unfold Lin. apply rsum_0. intros j _. rewrite fjt_support by auto. lra.
Qed.

Lemma Lin_ext T f y z k : (forall j, (j < tdim (ftype T f))%nat -> y j = z j) -> Lin T f y k = Lin T f z k.
Proof. intros H. apply rsum_ext. intros j Hj. now rewrite H. Qed.
Lemma Lin_add T f y z k : Lin T f (vadd y z) k = Lin T f y k + Lin T f z k.
Proof. unfold Lin. rewrite <- rsum_plus. apply rsum_ext. intros. unfold vadd. lra. Qed.
Lemma Lin_scale T f a y k : Lin T f (vscale a y) k = a * Lin T f y k.
Proof. unfold Lin. rewrite <- rsum_scal. apply rsum_ext. intros. unfold vscale. lra. Qed.
Lemma Lin_0 T f k : Lin T f vzero k = 0.
Proof. unfold Lin. apply rsum_0. intros. unfold vzero. lra. Qed.

Lemma Lin_Side b f y k :
  Lin (Pri b) (FSide f) y k = if (k =? tdim b)%nat then y (tdim (ftype b f)) else Lin b f y k.
Proof.
  unfold Lin. cbn [ftype tdim fjt rsum]. rewrite mupd_row.
  rewrite (rsum_ext _ _ (fun j => fjt b f j k * y j)) by (intros j Hj; rewrite mupd_ne by lia; reflexivity).
  destruct (Nat.eqb_spec k (tdim b)) as [->|E].
  - rewrite upd_eq, rsum_0; [lra|]. intros j Hj. rewrite fjt_support by lia. lra.
  - rewrite upd_ne, fjt_support by lia. lra.
Qed.
Lemma Lin_Bot b f y : Lin (Pri b) (FBot f) y = Lin b f y. Proof. reflexivity. Qed.
Lemma Lin_Top b f y : Lin (Pri b) (FTop f) y = Lin b f y. Proof. reflexivity. Qed.
Lemma Lin_Base b f y : Lin (Pyr b) (FBase f) y = Lin b f y. Proof. reflexivity. Qed.
Lemma Lin_Cone b f y k :
  Lin (Pyr b) (FCone f) y k
  = if (k =? tdim b)%nat then y (tdim (ftype b f)) else Lin b f y k - y (tdim (ftype b f)) * forg b f k.
Proof.
  unfold Lin. cbn [ftype tdim fjt rsum]. rewrite mupd_row.
  rewrite (rsum_ext _ _ (fun j => fjt b f j k * y j))
    by (intros j Hj; rewrite mupd_ne, neg_row_ne by lia; reflexivity).
  destruct (Nat.eqb_spec k (tdim b)) as [->|E].
  - rewrite upd_eq, rsum_0; [lra|]. intros j Hj. rewrite fjt_support by lia. lra.
  - rewrite upd_ne, neg_row_row by lia. destruct (Nat.ltb_spec k (tdim b)); [lra|].
    rewrite forg_support, (fjt_support b f (tdim (ftype b f))) by lia. lra.
Qed.

Lemma forg_emb b : forall f g k, is_face b f -> is_face (ftype b f) g ->
  forg b (emb f g) k = forg b f k + Lin b f (forg (ftype b f) g) k.
Proof.
  induction b as [|b IH|b IH]; intros f g k Hf Hg; destruct f; cbn [is_face] in Hf; try contradiction;
    cbn [ftype] in Hg |- *.
  - destruct g; try contradiction. cbn. unfold vzero, Lin. simpl. lra.
  - destruct g; cbn [is_face] in Hg; try contradiction; cbn [emb forg].
    + rewrite Lin_Side. destruct (Nat.eqb_spec k (tdim b)) as [->|E].
      * rewrite !forg_support by lia. lra.
      * now apply IH.
    + rewrite Lin_Side. destruct (Nat.eqb_spec k (tdim b)) as [->|E].
      * rewrite !forg_support by lia. lra.
      * now apply IH.
    + rewrite Lin_Side. destruct (Nat.eqb_spec k (tdim b)) as [->|E].
      * rewrite !upd_eq, forg_support by lia. lra.
      * rewrite upd_ne by assumption. rewrite IH by assumption. f_equal.
        apply Lin_ext. intros j Hj. rewrite upd_ne by lia. reflexivity.
  - cbn [emb forg]. rewrite Lin_Bot. now apply IH.
  - cbn [emb forg]. rewrite Lin_Top. destruct (Nat.eq_dec k (tdim b)) as [->|E].
    + rewrite !upd_eq, Lin_support by lia. lra.
    + rewrite !upd_ne by assumption. now apply IH.
  - cbn [emb forg]. rewrite Lin_Base. now apply IH.
  - destruct g; cbn [is_face] in Hg; try contradiction; cbn [emb forg].
    + rewrite Lin_Cone. destruct (Nat.eqb_spec k (tdim b)) as [->|E].
      * rewrite !forg_support by lia. lra.
      * rewrite (forg_support (ftype b f)) by lia. rewrite IH by assumption. lra.
    + rewrite Lin_Cone. destruct (Nat.eqb_spec k (tdim b)) as [->|E].
      * rewrite !forg_support by lia. lra.
      * rewrite (forg_support (ftype b f)) by lia. rewrite IH by assumption. lra.
    + rewrite Lin_Cone. destruct (Nat.eqb_spec k (tdim b)) as [->|E].
      * rewrite !upd_eq, forg_support by lia. lra.
      * rewrite upd_eq, upd_ne by assumption. unfold vzero at 1.
        rewrite (Lin_ext b f _ vzero), Lin_0; [lra|]. intros j Hj. rewrite upd_ne by lia. reflexivity.
  - destruct g; try contradiction. cbn [emb forg]. unfold Lin. simpl. lra. 
Qed.

(** embeddings compose *)
Lemma Lin_emb T : forall f g y k, is_face T f -> is_face (ftype T f) g ->
  Lin T f (Lin (ftype T f) g y) k = Lin T (emb f g) y k.
Proof.
  induction T as [|b IH|b IH]; intros f g y k Hf Hg; destruct f; cbn [is_face] in Hf; try contradiction;
    cbn [ftype] in Hg |- *.
  - destruct g; try contradiction. reflexivity.
  - destruct g; cbn [is_face] in Hg; try contradiction; cbn [emb].
    + rewrite !Lin_Side. destruct (Nat.eqb_spec k (tdim b)) as [->|E].
      * rewrite Nat.eqb_refl. destruct (emb_face b f g Hf Hg) as (_ & _ & ->). reflexivity.
      * rewrite <- (IH f g) by assumption. apply Lin_ext. intros j Hj. rewrite Lin_Side.
        destruct (Nat.eqb_spec j (tdim (ftype b f))); [lia|reflexivity].
    + rewrite Lin_Side, !Lin_Bot. destruct (Nat.eqb_spec k (tdim b)) as [->|E].
      * rewrite !Lin_support by lia. reflexivity.
      * now apply IH.
    + rewrite Lin_Side, !Lin_Top. destruct (Nat.eqb_spec k (tdim b)) as [->|E].
      * rewrite !Lin_support by lia. reflexivity.
      * now apply IH.
  - cbn [emb]. rewrite !Lin_Bot. now apply IH.
  - cbn [emb]. rewrite !Lin_Top. now apply IH.
  - cbn [emb]. rewrite !Lin_Base. now apply IH.
  - destruct g; cbn [is_face] in Hg; try contradiction; cbn [emb].
    + rewrite Lin_Cone, !Lin_Base. destruct (Nat.eqb_spec k (tdim b)) as [->|E].
      * rewrite !Lin_support by lia. reflexivity.
      * rewrite (Lin_support (ftype b f)) by lia. rewrite IH by assumption. lra.
    + rewrite !Lin_Cone. destruct (emb_face b f g Hf Hg) as (_ & _ & EF). rewrite EF.
      destruct (Nat.eqb_spec k (tdim b)) as [->|E].
      * now rewrite Nat.eqb_refl.
      * rewrite Nat.eqb_refl. rewrite <- (IH f g) by assumption.
        set (h := y (tdim (ftype (ftype b f) g))).
        rewrite (Lin_ext b f _ (vadd (Lin (ftype b f) g y) (vscale (- h) (forg (ftype b f) g)))).
        2:{ intros j Hj. rewrite Lin_Cone. destruct (Nat.eqb_spec j (tdim (ftype b f))); [lia|].
            unfold vadd, vscale. fold h. lra. }
        rewrite Lin_add, Lin_scale.
        rewrite (forg_emb b f g) by assumption. lra.
    + rewrite Lin_Cone. destruct (Nat.eqb_spec k (tdim b)) as [->|E].
      * unfold Lin. reflexivity.
      * rewrite (Lin_ext b f _ vzero), Lin_0; [|intros j Hj; reflexivity]. unfold Lin at 1. cbn [ftype tdim rsum].
        unfold Lin. cbn. lra.
  - destruct g; try contradiction. reflexivity.
Qed.
