(** The divergence theorem for functions that are smooth in collapsed coordinates. *)
From Coq Require Import NArith PeanoNat Bool List Lia Reals Lra FunctionalExtensionality.
From Coquelicot Require Import Coquelicot.
From Verif Require Import M_Type M_RefTopo M_RefGeo P_Type P_Type2 S_Topo P_Topo P_RefTopo P_RefTopo2 P_RefTopo3 P_RSum P_RefGeo P_RefGeo2 P_RefGeo3 S_RefGeo P_RefVol P_Trace P_Normal2 P_Col1.
Import ListNotations.
Local Open Scope R_scope.

(** the integral over a face *)
Definition fval (T : Topo) (f : Face) (G : Vec -> R) : R := Iint (ftype T f) (fun y => G (Emb T f y)).
Lemma ii_self T F v : ii T F v -> ii T F (Iint T F).
Proof. intro H. now rewrite (ii_Iint _ _ _ H). Qed.

Lemma Emb_pri_side b f t y : Emb (Pri b) (FSide f) (pri (ftype b f) t y) = pri b t (Emb b f y).
Proof.
  apply functional_extensionality. intro k. unfold pri at 2. rewrite Emb_Side. unfold pri at 1. rewrite Nat.eqb_refl.
  destruct (Nat.eqb_spec k (tdim b)); [reflexivity|]. apply Emb_ext. intros j Hj. unfold pri. destruct (Nat.eqb_spec j (tdim (ftype b f))); [lia|reflexivity].
Qed.
Lemma Emb_pri_bot b f y : Emb (Pri b) (FBot f) y = pri b 0 (Emb b f y).
Proof.
  apply functional_extensionality. intro k. rewrite Emb_Bot. unfold pri. destruct (Nat.eqb_spec k (tdim b)) as [->|]; [|reflexivity]. now apply Emb_support.
Qed.
Lemma Emb_pri_top b f y : Emb (Pri b) (FTop f) y = pri b 1 (Emb b f y).
Proof. apply functional_extensionality. intro k. rewrite Emb_Top. reflexivity. Qed.
Lemma Emb_pyr_cone b f t y : t <> 1 -> Emb (Pyr b) (FCone f) (pyr (ftype b f) t y) = pyr b t (Emb b f y).
Proof.
  intro Ht. apply functional_extensionality. intro k.
  assert (Z : pyr (ftype b f) t y (tdim (ftype b f)) = t) by (unfold pyr; now rewrite Nat.eqb_refl).
  rewrite Emb_Cone, Z by (now rewrite Z). change (pyr b t (Emb b f y) k) with (if Nat.eqb k (tdim b) then t else (1 - t) * Emb b f y k).
  destruct (Nat.eqb_spec k (tdim b)); [reflexivity|]. f_equal.
  apply Emb_ext. intros j Hj. unfold pyr. destruct (Nat.eqb_spec j (tdim (ftype b f))); [lia|]. field. lra.
Qed.
Lemma Emb_pyr_base b f y : Emb (Pyr b) (FBase f) y = pyr b 0 (Emb b f y).
Proof.
  apply functional_extensionality. intro k. rewrite Emb_Base. unfold pyr. destruct (Nat.eqb_spec k (tdim b)) as [->|]; [now apply Emb_support|]. ring.
Qed.
Lemma Emb_pyr_apex b y z : Emb (Pyr b) FApex y = pyr b 1 z.
Proof. apply functional_extensionality. intro k. rewrite Emb_Apex. unfold pyr. destruct (Nat.eqb_spec k (tdim b)); [reflexivity|ring]. Qed.

(** *** Values over the faces of a prism and a pyramid *)
Section Dec.
Variables (b : Topo) (l : list Term) (G : Vec -> R) (f : Face).
Hypothesis HC : forall e, In e l -> C1 (tp e) (tq e).
Hypothesis HF : forall e, In e l -> ii (ftype b f) (fun y => tg e (Emb b f y)) (fval b f (tg e)).

Lemma dec_ii t : ii (ftype b f) (fun y => lsum (fun e => tg e (Emb b f y) * tp e t) l) (lsum (fun e => tp e t * fval b f (tg e)) l).
Proof.
  apply (ii_lsum (ftype b f) (fun e y => tg e (Emb b f y) * tp e t)). intros e He.
  apply (ii_ext _ (fun y => tp e t * tg e (Emb b f y)) _ (tp e t * fval b f (tg e))); [intro; ring|reflexivity|]. apply ii_scal. now apply HF.
Qed.
Lemma pri_side : (forall t y, G (pri b t y) = lsum (fun e => tg e y * tp e t) l) ->
  ii (Pri (ftype b f)) (fun y => G (Emb (Pri b) (FSide f) y)) (lsum (fun e => fval b f (tg e) * RInt (tp e) 0 1) l).
Proof.
  intro HG. cbn [ii]. exists (fun t => lsum (fun e => tp e t * fval b f (tg e)) l). split.
  - intros t _. apply (ii_ext _ _ _ _ _ (fun y => eq_sym (eq_trans (f_equal G (Emb_pri_side b f t y)) (HG t (Emb b f y)))) eq_refl). apply dec_ii.
  - apply (is_RInt_lsum (fun e t => tp e t * fval b f (tg e))). intros e He.
    apply (is_RInt_ext (fun t => fval b f (tg e) * tp e t)); [intros; toR; ring|]. apply is_RInt_sc, is_RInt_cont. intro t. eapply C1_cont. now apply HC.
Qed.
Lemma pri_end t F : (forall t y, G (pri b t y) = lsum (fun e => tg e y * tp e t) l) -> (forall y, F y = pri b t (Emb b f y)) ->
  ii (ftype b f) (fun y => G (F y)) (lsum (fun e => fval b f (tg e) * tp e t) l).
Proof.
  intros HG HE. apply (ii_ext _ _ _ _ _ (fun y => eq_sym (eq_trans (f_equal G (HE y)) (HG t (Emb b f y)))) eq_refl).
  apply (ii_ext _ _ _ (lsum (fun e => tp e t * fval b f (tg e)) l) _ (fun _ => eq_refl)); [apply lsum_ext; intros; ring|]. apply dec_ii.
Qed.
Lemma pyr_cone : (forall t y, t <> 1 -> G (pyr b t y) = lsum (fun e => tg e y * tp e t) l) ->
  ii (Pyr (ftype b f)) (fun y => G (Emb (Pyr b) (FCone f) y)) (lsum (fun e => fval b f (tg e) * RInt (fun t => (1 - t) ^ tdim (ftype b f) * tp e t) 0 1) l).
Proof.
  intro HG. cbn [ii]. exists (fun t => lsum (fun e => tp e t * fval b f (tg e)) l). split.
  - intros t Ht. assert (N : t <> 1) by lra. apply (ii_ext _ _ _ _ _ (fun y => eq_sym (eq_trans (f_equal G (Emb_pyr_cone b f t y N)) (HG t (Emb b f y) N))) eq_refl). apply dec_ii.
  - apply (is_RInt_ext (fun t => lsum (fun e => (1 - t) ^ tdim (ftype b f) * (tp e t * fval b f (tg e))) l)); [intros; toR; apply lsum_scal|].
    apply (is_RInt_lsum (fun e t => (1 - t) ^ tdim (ftype b f) * (tp e t * fval b f (tg e)))). intros e He.
    apply (is_RInt_ext (fun t => fval b f (tg e) * ((1 - t) ^ tdim (ftype b f) * tp e t))); [intros; toR; ring|]. apply is_RInt_sc, is_RInt_cont. intro t.
    apply (continuous_mult (K := R_AbsRing)); [apply cont_pow|]. eapply C1_cont. now apply HC.
Qed.
Lemma pyr_base : (forall t y, t <> 1 -> G (pyr b t y) = lsum (fun e => tg e y * tp e t) l) ->
  ii (ftype b f) (fun y => G (Emb (Pyr b) (FBase f) y)) (lsum (fun e => fval b f (tg e) * tp e 0) l).
Proof.
  intros HG. assert (N : 0 <> 1) by lra. apply (ii_ext _ _ _ _ _ (fun y => eq_sym (eq_trans (f_equal G (Emb_pyr_base b f y)) (HG 0 (Emb b f y) N))) eq_refl).
  apply (ii_ext _ _ _ (lsum (fun e => tp e 0 * fval b f (tg e)) l) _ (fun _ => eq_refl)); [apply lsum_ext; intros; ring|]. apply dec_ii.
Qed.
End Dec.

Lemma face_ii T : forall f G D, is_face T f -> KD T G D -> ii (ftype T f) (fun y => G (Emb T f y)) (fval T f G).
Proof.
  induction T as [|b IH|b IH]; intros f G D Hf H; destruct f; cbn [is_face] in Hf; try contradiction; cbn [KD] in H; try (destruct H as (l & H1 & H2));
    try reflexivity; unfold fval; cbn [ftype].
  all: assert (HF : forall e, In e l -> ii (ftype b f) (fun y => tg e (Emb b f y)) (fval b f (tg e))) by (intros e He; now apply (IH f (tg e) (td e) Hf), (H1 e He)).
  all: assert (HC : forall e, In e l -> C1 (tp e) (tq e)) by (intros e He; now apply (H1 e He)).
  - exact (ii_self _ _ _ (pri_side b l G f HC HF (fun t y => proj1 (H2 t y)))).
  - exact (ii_self _ _ _ (pri_end b l G f HF 0 _ (fun t y => proj1 (H2 t y)) (Emb_pri_bot b f))).
  - exact (ii_self _ _ _ (pri_end b l G f HF 1 _ (fun t y => proj1 (H2 t y)) (Emb_pri_top b f))).
  - exact (ii_self _ _ _ (pyr_base b l G f HF (fun t y Ht => proj1 (H2 t y (or_intror Ht))))).
  - exact (ii_self _ _ _ (pyr_cone b l G f HC HF (fun t y Ht => proj1 (H2 t y (or_intror Ht))))).
Qed.

Lemma KD_ii T : forall G D, KD T G D -> ii T G (fval T (whole T) G).
Proof.
  induction T as [|b IH|b IH]; intros G D H; cbn [KD] in H.
  - cbn. apply H.
  - destruct H as (l & H1 & H2). destruct (whole_face b) as (W1 & W2 & W3).
    assert (HF : forall e, In e l -> ii (ftype b (whole b)) (fun y => tg e (Emb b (whole b) y)) (fval b (whole b) (tg e)))
      by (intros e He; eapply face_ii; [exact W1|apply (H1 e He)]).
    pose proof (pri_side b l G (whole b) (fun e He => proj2 (H1 e He)) HF (fun t y => proj1 (H2 t y))) as Q.
    apply ii_Iint in Q. change (fval (Pri b) (whole (Pri b)) G = lsum (fun e => fval b (whole b) (tg e) * RInt (tp e) 0 1) l) in Q. rewrite Q. exists (fun t => lsum (fun e => tp e t * fval b (whole b) (tg e)) l). split.
    + intros t _. apply (ii_ext _ (fun y => lsum (fun e => tp e t * tg e y) l) _ (lsum (fun e => tp e t * fval b (whole b) (tg e)) l)); [|reflexivity|].
      * intro y. rewrite (proj1 (H2 t y)). apply lsum_ext. intros; ring.
      * apply (ii_lsum b (fun e y => tp e t * tg e y)). intros e He. apply ii_scal. apply (IH _ (td e)), H1, He.
    + apply (is_RInt_lsum (fun e t => tp e t * fval b (whole b) (tg e))). intros e He.
      apply (is_RInt_ext (fun t => fval b (whole b) (tg e) * tp e t)); [intros; toR; ring|]. apply is_RInt_sc, is_RInt_cont. intro t. eapply C1_cont. now apply H1.
  - destruct H as (l & H1 & H2). destruct (whole_face b) as (W1 & W2 & W3).
    assert (HF : forall e, In e l -> ii (ftype b (whole b)) (fun y => tg e (Emb b (whole b) y)) (fval b (whole b) (tg e)))
      by (intros e He; eapply face_ii; [exact W1|apply (H1 e He)]).
    pose proof (pyr_cone b l G (whole b) (fun e He => proj2 (H1 e He)) HF (fun t y N => proj1 (H2 t y (or_intror N)))) as Q.
    apply ii_Iint in Q. change (fval (Pyr b) (whole (Pyr b)) G = lsum (fun e => fval b (whole b) (tg e) * RInt (fun t => (1 - t) ^ tdim (ftype b (whole b)) * tp e t) 0 1) l) in Q. rewrite Q. rewrite W3. exists (fun t => lsum (fun e => tp e t * fval b (whole b) (tg e)) l). split.
    + intros t Ht. assert (N : t <> 1) by lra.
      apply (ii_ext _ (fun y => lsum (fun e => tp e t * tg e y) l) _ (lsum (fun e => tp e t * fval b (whole b) (tg e)) l)); [|reflexivity|].
      * intro y. rewrite (proj1 (H2 t y (or_intror N))). apply lsum_ext. intros; ring.
      * apply (ii_lsum b (fun e y => tp e t * tg e y)). intros e He. apply ii_scal. apply (IH _ (td e)), H1, He.
    + apply (is_RInt_ext (fun t => lsum (fun e => (1 - t) ^ tdim b * (tp e t * fval b (whole b) (tg e))) l)); [intros; toR; apply lsum_scal|].
      apply (is_RInt_lsum (fun e t => (1 - t) ^ tdim b * (tp e t * fval b (whole b) (tg e)))). intros e He.
      apply (is_RInt_ext (fun t => fval b (whole b) (tg e) * ((1 - t) ^ tdim b * tp e t))); [intros; toR; ring|]. apply is_RInt_sc, is_RInt_cont. intro t.
      apply (continuous_mult (K := R_AbsRing)); [apply cont_pow|]. eapply C1_cont. now apply H1.
Qed.

(** *** The theorem *)
Lemma lsum_lsum {A B} (F : A -> B -> R) l m : lsum (fun a => lsum (F a) m) l = lsum (fun x => lsum (fun a => F a x) l) m.
Proof.
  induction l as [|a l IH]; [cbn; symmetry; now apply lsum_0|]. rewrite lsum_cons, IH, <- lsum_plus. apply lsum_ext. intros x _. now rewrite lsum_cons.
Qed.

Lemma euler T (IH : forall G D k, KD T G D -> (k < tdim T)%nat -> ii T (D k) (lsum (fun f => nrm T f k * fval T f G) (faces T 1))) G D : KD T G D ->
  ii T (fun y => rsum (tdim T) (fun j => y j * D j y)) (lsum (fun f => hgt T f * fval T f G) (faces T 1) - INR (tdim T) * fval T (whole T) G).
Proof.
  intro H.
  assert (A : forall j, (j < tdim T)%nat -> ii T (fun x => G x + x j * D j x) (lsum (fun f => nrm T f j * fval T f (fun x => x j * G x)) (faces T 1))).
  { intros j Hj. pose proof (KD_mult T _ _ _ _ (KD_coord T j Hj) H) as Q. apply (IH _ _ j) in Q; [|assumption].
    revert Q. apply ii_ext; [|reflexivity]. intro x. rewrite Nat.eqb_refl. ring. }
  pose proof (ii_rsum T (tdim T) _ _ A) as B.
  pose proof (ii_plus T _ _ _ _ B (ii_scal T (- INR (tdim T)) _ _ (KD_ii T G D H))) as C.
  revert C. apply ii_ext.
  - intro x. rewrite rsum_plus, rsum_const. ring.
  - rewrite <- lsum_rsum_swap. transitivity (lsum (fun f => hgt T f * fval T f G) (faces T 1) + - INR (tdim T) * fval T (whole T) G); [|ring]. f_equal.
    apply lsum_ext. intros f Hf. apply in_faces in Hf. destruct Hf as [F1 F2].
    assert (K : ii (ftype T f) (fun y => rsum (tdim T) (fun j => nrm T f j * (Emb T f y j * G (Emb T f y)))) (rsum (tdim T) (fun j => nrm T f j * fval T f (fun x => x j * G x)))).
    { apply ii_rsum. intros j Hj. apply ii_scal. apply (face_ii T f (fun x => x j * G x) _ F1 (KD_mult T _ _ _ _ (KD_coord T j Hj) H)). }
    apply ii_Iint in K. rewrite <- K. clear K.
    pose proof (ii_scal _ (hgt T f) _ _ (face_ii T f G D F1 H)) as K. apply ii_Iint in K. rewrite <- K.
    f_equal. apply functional_extensionality. intro y. rewrite <- (nrm_face T f y F1 F2). unfold dot. rewrite <- rsum_scal_r. apply rsum_ext. intros; ring.
Qed.

Lemma C1_pow n : C1 (fun t => (1 - t) ^ n) (fun t => - (INR n * (1 - t) ^ pred n)).
Proof.
  split; intro t.
  - auto_derive; [exact I|]. toR. unfold Rminus. set (u := (1 + - t) ^ pred n). ring.
  - apply (ex_derive_continuous (K := R_AbsRing) (V := R_NormedModule)). auto_derive. exact I.
Qed.

Lemma gauss T : forall G D k, KD T G D -> (k < tdim T)%nat -> ii T (D k) (lsum (fun f => nrm T f k * fval T f G) (faces T 1)).
Proof.
  induction T as [|b IH|b IH]; cbn [tdim]; intros G D k H Hk; [lia| |]; cbn [KD] in H; destruct H as (l & H1 & H2).
  - assert (HF : forall f, is_face b f -> forall e, In e l -> ii (ftype b f) (fun y => tg e (Emb b f y)) (fval b f (tg e)))
      by (intros f Hf e He; eapply face_ii; [exact Hf|apply (H1 e He)]).
    pose proof (fun f Hf => ii_Iint _ _ _ (pri_side b l G f (fun e He => proj2 (H1 e He)) (HF f Hf) (fun t y => proj1 (H2 t y)))) as SV.
    destruct (whole_face b) as (W1 & W2 & W3).
    pose proof (ii_Iint _ _ _ (pri_end b l G (whole b) (HF _ W1) 0 _ (fun t y => proj1 (H2 t y)) (Emb_pri_bot b (whole b)))) as BV.
    pose proof (ii_Iint _ _ _ (pri_end b l G (whole b) (HF _ W1) 1 _ (fun t y => proj1 (H2 t y)) (Emb_pri_top b (whole b)))) as TV.
    cbn [faces]. rewrite faces_0. cbn [map app]. rewrite lsum_app, lsum_map. cbn [lsum fold_right nrm]. 
    change (fval (Pri b) (FBot (whole b)) G = lsum (fun e => fval b (whole b) (tg e) * tp e 0) l) in BV.
    change (fval (Pri b) (FTop (whole b)) G = lsum (fun e => fval b (whole b) (tg e) * tp e 1) l) in TV. rewrite BV, TV.
    fold (lsum (fun f => nrm b f k * fval (Pri b) (FSide f) G) (faces b 1)).
    rewrite (lsum_ext _ (fun f => nrm b f k * lsum (fun e => fval b f (tg e) * RInt (tp e) 0 1) l)).
    2:{ intros f Hf. apply in_faces in Hf. f_equal. now apply SV. }
    destruct (Nat.eq_dec k (tdim b)) as [->|N].
    + rewrite lsum_0 by (intros; rewrite nrm_support by lia; ring). rewrite !upd_eq.
      cbn [ii]. exists (fun t => lsum (fun e => tq e t * fval b (whole b) (tg e)) l). split.
      * intros t _. apply (ii_ext _ (fun y => lsum (fun e => tq e t * tg e y) l) _ (lsum (fun e => tq e t * fval b (whole b) (tg e)) l)); [|reflexivity|].
        -- intro y. rewrite (proj2 (proj2 (H2 t y))). apply lsum_ext. intros; ring.
        -- apply (ii_lsum b (fun e y => tq e t * tg e y)). intros e He. apply ii_scal. apply (KD_ii b _ (td e)), H1, He.
      * assert (E : 0 + (-1 * lsum (fun e => fval b (whole b) (tg e) * tp e 0) l + (1 * lsum (fun e => fval b (whole b) (tg e) * tp e 1) l + 0)) = lsum (fun e => fval b (whole b) (tg e) * (tp e 1 - tp e 0)) l).
        { rewrite (lsum_ext (fun e => fval b (whole b) (tg e) * (tp e 1 - tp e 0)) (fun e => fval b (whole b) (tg e) * tp e 1 + -1 * (fval b (whole b) (tg e) * tp e 0))) by (intros; ring).
          rewrite lsum_plus, lsum_scal. ring. }
        rewrite E. clear E. apply (is_RInt_lsum (fun e t => tq e t * fval b (whole b) (tg e))). intros e He.
        apply (is_RInt_ext (fun t => fval b (whole b) (tg e) * tq e t)); [intros; toR; ring|]. apply is_RInt_sc, is_RInt_C1. now apply H1.
    + rewrite !upd_ne by assumption. unfold vzero. cbn [ii].
      exists (fun t => lsum (fun e => tp e t * lsum (fun f => nrm b f k * fval b f (tg e)) (faces b 1)) l). split.
      * intros t _. apply (ii_ext _ (fun y => lsum (fun e => tp e t * td e k y) l) _ (lsum (fun e => tp e t * lsum (fun f => nrm b f k * fval b f (tg e)) (faces b 1)) l)); [|reflexivity|].
        -- intro y. rewrite (proj1 (proj2 (H2 t y)) k) by lia. apply lsum_ext. intros; ring.
        -- apply (ii_lsum b (fun e y => tp e t * td e k y)). intros e He. apply ii_scal. apply IH; [apply H1, He|lia].
      * assert (E : lsum (fun f => nrm b f k * lsum (fun e => fval b f (tg e) * RInt (tp e) 0 1) l) (faces b 1) + (0 * lsum (fun e => fval b (whole b) (tg e) * tp e 0) l + (0 * lsum (fun e => fval b (whole b) (tg e) * tp e 1) l + 0))
          = lsum (fun e => lsum (fun f => nrm b f k * fval b f (tg e)) (faces b 1) * RInt (tp e) 0 1) l).
        { transitivity (lsum (fun f => lsum (fun e => nrm b f k * (fval b f (tg e) * RInt (tp e) 0 1)) l) (faces b 1)).
          - rewrite !Rmult_0_l, !Rplus_0_r. apply lsum_ext. intros; symmetry; apply lsum_scal.
          - rewrite lsum_lsum. apply lsum_ext. intros e _. rewrite Rmult_comm, <- lsum_scal. apply lsum_ext. intros; ring. }
        rewrite E. clear E. apply (is_RInt_lsum (fun e t => tp e t * lsum (fun f => nrm b f k * fval b f (tg e)) (faces b 1))). intros e He.
        apply (is_RInt_ext (fun t => lsum (fun f => nrm b f k * fval b f (tg e)) (faces b 1) * tp e t)); [intros; toR; ring|].
        apply is_RInt_sc, is_RInt_cont. intro t. eapply C1_cont. now apply H1.
  - assert (HF : forall f, is_face b f -> forall e, In e l -> ii (ftype b f) (fun y => tg e (Emb b f y)) (fval b f (tg e)))
      by (intros f Hf e He; eapply face_ii; [exact Hf|apply (H1 e He)]).
    pose proof (fun f Hf => ii_Iint _ _ _ (pyr_cone b l G f (fun e He => proj2 (H1 e He)) (HF f Hf) (fun t y Ht => proj1 (H2 t y (or_intror Ht))))) as SV.
    destruct (whole_face b) as (W1 & W2 & W3).
    pose proof (ii_Iint _ _ _ (pyr_base b l G (whole b) (HF _ W1) (fun t y Ht => proj1 (H2 t y (or_intror Ht))))) as BV.
    cbn [faces]. rewrite faces_0. cbn [map app]. rewrite lsum_cons, lsum_app, lsum_map. cbn [nrm].
    change (fval (Pyr b) (FBase (whole b)) G = lsum (fun e => fval b (whole b) (tg e) * tp e 0) l) in BV. rewrite BV.
    rewrite (lsum_ext (fun a => _ * fval (Pyr b) (FCone a) G) (fun f => upd (nrm b f) (tdim b) (dot (tdim b) (nrm b f) (forg b f)) k * lsum (fun e => fval b f (tg e) * RInt (fun t => (1 - t) ^ (tdim b - 1) * tp e t) 0 1) l)).
    2:{ intros f Hf. apply in_faces in Hf. destruct Hf as [F1 F2]. f_equal. etransitivity; [now apply SV|]. now rewrite tdim_ftype, F2 by assumption. }
    destruct (Nat.eq_dec k (tdim b)) as [->|N].
    + rewrite upd_eq. 
      destruct (Nat.eq_dec (tdim b) 0) as [E|E].
      * rewrite faces_big by lia. rewrite E. cbn [Nat.eqb lsum fold_right nrm]. rewrite ?E, ?upd_eq.
        assert (b = Pt) as -> by (destruct b; cbn in E; try lia; reflexivity). cbn [tdim] in *.
        exists (fun t => lsum (fun e => tq e t * tg e vzero) l). split.
        -- intros t Ht. cbn [ii]. assert (N : t <> 1) by lra. pose proof (proj2 (proj2 (H2 t vzero (or_intror N)))) as Q. cbn [tdim rsum] in Q.
           apply (Rmult_eq_reg_l (1 - t)); [|lra]. unfold vzero in Q. rewrite Q. rewrite <- lsum_scal. apply lsum_ext. intros; unfold vzero; ring.
        -- assert (V : fval (Pyr Pt) FApex G = lsum (fun e => tg e vzero * tp e 1) l).
           { unfold fval. cbn [ftype Iint]. rewrite (Emb_pyr_apex Pt _ vzero). apply H2. now left. }
           assert (V0 : forall e, In e l -> fval Pt (whole Pt) (tg e) = tg e vzero) by (intros e He; destruct (H1 e He) as [K _]; apply K).
           rewrite V. rewrite (lsum_ext (fun e => fval Pt (whole Pt) (tg e) * tp e 0) (fun e => tg e vzero * tp e 0)) by (intros e He; now rewrite V0).
           apply (is_RInt_ext (fun t => lsum (fun e => tg e vzero * tq e t) l)).
           { intros t _. toR. cbn [pow]. rewrite Rmult_1_l. apply lsum_ext. intros; ring. }
           match goal with |- is_RInt _ _ _ ?v => replace v with (lsum (fun e => tg e vzero * (tp e 1 - tp e 0)) l) end.
           { apply (is_RInt_lsum (fun e t => tg e vzero * tq e t)). intros e He. apply is_RInt_sc, is_RInt_C1. now apply H1. }
           rewrite (lsum_ext (fun e => tg e vzero * (tp e 1 - tp e 0)) (fun e => tg e vzero * tp e 1 + -1 * (tg e vzero * tp e 0))) by (intros; ring).
           rewrite lsum_plus, lsum_scal. ring.
      * destruct (Nat.eqb_spec 1 (S (tdim b))) as [?|_]; [lia|]. cbn [lsum fold_right]. rewrite Rplus_0_r.
        fold (lsum (fun f => upd (nrm b f) (tdim b) (dot (tdim b) (nrm b f) (forg b f)) (tdim b) * lsum (fun e => fval b f (tg e) * RInt (fun t => (1 - t) ^ (tdim b - 1) * tp e t) 0 1) l) (faces b 1)).
        fold (lsum (fun e => fval b (whole b) (tg e) * tp e 0) l).
        set (V := fun e => fval b (whole b) (tg e)). set (S := fun e => lsum (fun f => hgt b f * fval b f (tg e)) (faces b 1)).
        set (n := tdim b) in *.
      assert (PW : forall t, (1 - t) ^ n = (1 - t) * (1 - t) ^ (n - 1)) by (intro t; replace n with (Datatypes.S (n - 1)) at 1 by lia; reflexivity).
        exists (fun t => lsum (fun e => tq e t * V e + tp e t / (1 - t) * (S e - INR n * V e)) l). split.
        -- intros t Ht. apply (ii_ext _ (fun y => lsum (fun e => tq e t * tg e y + tp e t / (1 - t) * rsum n (fun j => y j * td e j y)) l) _ (lsum (fun e => tq e t * V e + tp e t / (1 - t) * (S e - INR n * V e)) l)); [|reflexivity|].
           ++ intro y. assert (Nt : t <> 1) by lra. pose proof (proj2 (proj2 (H2 t y (or_intror Nt)))) as Q. fold n in Q.
              apply (Rmult_eq_reg_l (1 - t)); [|lra]. rewrite Q, <- lsum_scal. apply lsum_ext. intros; field; lra.
           ++ apply (ii_lsum b (fun e y => tq e t * tg e y + tp e t / (1 - t) * rsum n (fun j => y j * td e j y))). intros e He. apply ii_plus.
              ** apply ii_scal. apply (KD_ii b _ (td e)), H1, He.
              ** apply ii_scal. apply (euler b IH), H1, He.
        -- apply (is_RInt_ext (fun t => lsum (fun e => V e * (- (INR n * (1 - t) ^ pred n) * tp e t + (1 - t) ^ n * tq e t) + S e * ((1 - t) ^ (n - 1) * tp e t)) l)).
           { intros t Ht. rewrite Rmin_left, Rmax_right in Ht by lra. toR. rewrite <- lsum_scal. apply lsum_ext. intros e _.
             replace (pred n) with (n - 1)%nat by lia. fold n. rewrite !(PW t). set (u := (1 - t) ^ (n - 1)). field. lra. }
           match goal with |- is_RInt _ _ _ ?v => replace v with (lsum (fun e => V e * (- tp e 0) + S e * RInt (fun t => (1 - t) ^ (n - 1) * tp e t) 0 1) l) end.
           { apply (is_RInt_lsum (fun e t => V e * (- (INR n * (1 - t) ^ pred n) * tp e t + (1 - t) ^ n * tq e t) + S e * ((1 - t) ^ (n - 1) * tp e t))). intros e He.
             apply (is_RInt_plus (V := R_NormedModule) (fun t => V e * (- (INR n * (1 - t) ^ pred n) * tp e t + (1 - t) ^ n * tq e t)) (fun t => S e * ((1 - t) ^ (n - 1) * tp e t))).
             - apply is_RInt_sc. pose proof (is_RInt_C1 _ _ (C1_mult _ _ _ _ (C1_pow n) (proj2 (H1 e He)))) as Q. cbv beta in Q.
               replace (- tp e 0) with ((1 - 1) ^ n * tp e 1 - (1 - 0) ^ n * tp e 0); [exact Q|]. replace (1 - 1) with 0 by ring. replace (1 - 0) with 1 by ring. rewrite pow_i, pow1 by lia. ring.
             - apply is_RInt_sc, is_RInt_cont. intro t. apply (continuous_mult (K := R_AbsRing)); [apply cont_pow|]. eapply C1_cont. now apply H1. }
           rewrite (lsum_ext (fun e => V e * - tp e 0 + _) (fun e => -1 * (V e * tp e 0) + S e * RInt (fun t => (1 - t) ^ (n - 1) * tp e t) 0 1)) by (intros; ring).
           rewrite lsum_plus, lsum_scal. f_equal.
           transitivity (lsum (fun e => lsum (fun f => hgt b f * (fval b f (tg e) * RInt (fun t => (1 - t) ^ (n - 1) * tp e t) 0 1)) (faces b 1)) l).
           ++ apply lsum_ext. intros e _. unfold S. rewrite Rmult_comm, <- lsum_scal. apply lsum_ext. intros; ring.
           ++ rewrite lsum_lsum. apply lsum_ext. intros f _. rewrite upd_eq, lsum_scal. reflexivity.
    + assert (F0 : (1 =? S (tdim b))%nat = false) by (apply Nat.eqb_neq; lia). rewrite F0. cbn [lsum fold_right]. rewrite upd_ne by assumption. unfold vzero. rewrite Rmult_0_l, Rplus_0_l, Rplus_0_r.
      fold (lsum (fun f => upd (nrm b f) (tdim b) (dot (tdim b) (nrm b f) (forg b f)) k * lsum (fun e => fval b f (tg e) * RInt (fun t => (1 - t) ^ (tdim b - 1) * tp e t) 0 1) l) (faces b 1)).
      set (S := fun e => lsum (fun f => nrm b f k * fval b f (tg e)) (faces b 1)). set (n := tdim b) in *.
      assert (PW : forall t, (1 - t) ^ n = (1 - t) * (1 - t) ^ (n - 1)) by (intro t; replace n with (Datatypes.S (n - 1)) at 1 by lia; reflexivity).
      exists (fun t => lsum (fun e => tp e t / (1 - t) * S e) l). split.
      * intros t Ht. apply (ii_ext _ (fun y => lsum (fun e => tp e t / (1 - t) * td e k y) l) _ (lsum (fun e => tp e t / (1 - t) * S e) l)); [|reflexivity|].
        -- intro y. assert (Nt : t <> 1) by lra. pose proof (proj1 (proj2 (H2 t y (or_intror Nt))) k) as Q. fold n in Q.
           apply (Rmult_eq_reg_l (1 - t)); [|lra]. rewrite Q by lia. rewrite <- lsum_scal. apply lsum_ext. intros; field; lra.
        -- apply (ii_lsum b (fun e y => tp e t / (1 - t) * td e k y)). intros e He. apply ii_scal. apply IH; [apply H1, He|fold n; lia].
      * apply (is_RInt_ext (fun t => lsum (fun e => S e * ((1 - t) ^ (n - 1) * tp e t)) l)).
        { intros t Ht. rewrite Rmin_left, Rmax_right in Ht by lra. toR. rewrite <- lsum_scal. apply lsum_ext. intros e _.
          fold n. rewrite !(PW t). set (u := (1 - t) ^ (n - 1)). field. lra. }
        match goal with |- is_RInt _ _ _ ?v => replace v with (lsum (fun e => S e * RInt (fun t => (1 - t) ^ (n - 1) * tp e t) 0 1) l) end.
        { apply (is_RInt_lsum (fun e t => S e * ((1 - t) ^ (n - 1) * tp e t))). intros e He.
          apply is_RInt_sc, is_RInt_cont. intro t. apply (continuous_mult (K := R_AbsRing)); [apply cont_pow|]. eapply C1_cont. now apply H1. }
        transitivity (lsum (fun e => lsum (fun f => nrm b f k * (fval b f (tg e) * RInt (fun t => (1 - t) ^ (n - 1) * tp e t) 0 1)) (faces b 1)) l).
        -- apply lsum_ext. intros e _. unfold S. rewrite Rmult_comm, <- lsum_scal. apply lsum_ext. intros; ring.
        -- rewrite lsum_lsum. apply lsum_ext. intros f _. rewrite upd_ne by assumption. now rewrite lsum_scal.
Qed.
