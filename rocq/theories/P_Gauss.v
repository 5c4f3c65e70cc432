(** The divergence theorem on the reference elements, for polynomials: face moments. *)
From Coq Require Import NArith PeanoNat Bool List Lia Reals Lra FunctionalExtensionality Factorial.
From Coquelicot Require Import Coquelicot.
From Verif Require Import M_Type M_RefTopo M_RefGeo P_Type P_Type2 S_Topo P_Topo P_RefTopo P_RefTopo2 P_RefTopo3 P_RSum P_RefGeo P_RefGeo2 P_RefGeo3 S_RefGeo P_RefVol M_Quadrature S_Quad1D S_QuadND P_QuadProd P_Trace P_Normal2.
Import ListNotations.
Local Open Scope R_scope.

(** ** Integrals over the faces *)

(** the moment over the face [f] of the restriction of the monomial [e] *)
Fixpoint fmom (T : Topo) (f : Face) (e : nat -> nat) : R :=
  match T, f with
  | Pri b, FSide f => fmom b f e * Beta 0 (e (tdim b))
  | Pri b, FBot f => fmom b f e * 0 ^ e (tdim b)
  | Pri b, FTop f => fmom b f e
  | Pyr b, FBase f => fmom b f e * 0 ^ e (tdim b)
  | Pyr b, FCone f => fmom b f e * Beta (tdim (ftype b f) + degree (tdim b) e) (e (tdim b))
  | Pyr b, FApex => 0 ^ degree (tdim b) e
  | _, _ => 1
  end.

Lemma is_RInt_Beta a b : is_RInt (fun t => (1 - t) ^ a * t ^ b) 0 1 (Beta a b).
Proof. apply (RInt_correct (V := R_CompleteNormedModule)). apply ex_Beta. Qed.

Lemma monomial_zero n e x : (forall k, (k < n)%nat -> x k = 0) -> monomial n e x = 0 ^ degree n e.
Proof.
  induction n as [|n IH]; intro H; cbn [monomial degree]; [reflexivity|].
  rewrite IH by (intros; apply H; lia). rewrite H by lia. now rewrite pow_add.
Qed.

Lemma peval_ext n P x y : (forall k, (k < n)%nat -> x k = y k) -> peval n P x = peval n P y.
Proof. intro H. induction P as [|[c e] P IH]; cbn [peval]; [reflexivity|]. now rewrite IH, (monomial_ext n e x y H). Qed.

Lemma pmom_ext m m' P : (forall e, m e = m' e) -> pmom m P = pmom m' P.
Proof. intro H. induction P as [|[c e] P IH]; cbn [pmom]; [reflexivity|]. now rewrite IH, H. Qed.

Lemma face_peval T : forall f P, is_face T f ->
  Iint (ftype T f) (fun y => peval (tdim T) P (Emb T f y)) = pmom (fmom T f) P.
Proof.
  induction T as [|b IH|b IH]; intros f P Hf; destruct f; cbn [is_face] in Hf; try contradiction; cbn [ftype tdim].
  - cbn [Iint]. induction P as [|[c e] P IHP]; cbn [peval pmom monomial fmom]; [reflexivity|]. rewrite IHP. reflexivity.
  - cbn [Iint]. rewrite (RInt_ext _ (fun t => pmom (fmom b f) (map (fun ce => (fst ce * ((1 - t) ^ 0 * t ^ snd ce (tdim b)), snd ce)) P))).
    + change (pmom (fmom (Pri b) (FSide f)) P) with (pmom (fun e => fmom b f e * Beta 0 (e (tdim b))) P).
      apply is_RInt_unique. apply (RInt_pmom P (fmom b f) (fun t e => (1 - t) ^ 0 * t ^ e (tdim b))).
      intros e. apply is_RInt_Beta.
    + intros t _. rewrite (Iint_ext _ _ (fun y => peval (tdim b) (sliceP (tdim b) t P) (Emb b f y))).
      * rewrite IH by assumption. unfold sliceP. toR. f_equal. apply map_ext. intros [c e]. cbn [fst snd]. f_equal. simpl. ring.
      * intro y. rewrite <- peval_sliceP. apply peval_ext. intros k Hk. rewrite Emb_Side, Nat.eqb_refl.
        destruct (Nat.eqb_spec k (tdim b)); [reflexivity|]. apply Emb_ext. intros j Hj. destruct (Nat.eqb_spec j (tdim (ftype b f))); [lia|reflexivity].
  - rewrite (Iint_ext _ _ (fun y => peval (tdim b) (sliceP (tdim b) 0 P) (Emb b f y))).
    + rewrite IH by assumption. cbn [fmom]. unfold sliceP. induction P as [|[c e] P IHP]; cbn [map pmom fst snd fmom]; [reflexivity|]. rewrite IHP. ring.
    + intro y. rewrite <- peval_sliceP. apply peval_ext. intros k Hk. rewrite Emb_Bot.
      destruct (Nat.eqb_spec k (tdim b)) as [->|]; [|reflexivity]. rewrite Emb_Lin, forg_support, Lin_support by lia. lra.
  - rewrite (Iint_ext _ _ (fun y => peval (tdim b) (sliceP (tdim b) 1 P) (Emb b f y))).
    + rewrite IH by assumption. cbn [fmom]. unfold sliceP. induction P as [|[c e] P IHP]; cbn [map pmom fst snd fmom]; [reflexivity|]. rewrite IHP, pow1. ring.
    + intro y. rewrite <- peval_sliceP. apply peval_ext. intros k Hk. now rewrite Emb_Top.
  - rewrite (Iint_ext _ _ (fun y => peval (tdim b) (sliceP (tdim b) 0 P) (Emb b f y))).
    + rewrite IH by assumption. cbn [fmom]. unfold sliceP. induction P as [|[c e] P IHP]; cbn [map pmom fst snd fmom]; [reflexivity|]. rewrite IHP. ring.
    + intro y. rewrite <- peval_sliceP. apply peval_ext. intros k Hk. rewrite Emb_Base.
      destruct (Nat.eqb_spec k (tdim b)) as [->|]; [|reflexivity]. rewrite Emb_Lin, forg_support, Lin_support by lia. lra.
  - cbn [Iint]. rewrite (RInt_ext _ (fun t => pmom (fmom b f) (map (fun ce => (fst ce * ((1 - t) ^ (tdim (ftype b f) + degree (tdim b) (snd ce)) * t ^ snd ce (tdim b)), snd ce)) P))).
    + change (pmom (fmom (Pyr b) (FCone f)) P) with (pmom (fun e => fmom b f e * Beta (tdim (ftype b f) + degree (tdim b) e) (e (tdim b))) P).
      apply is_RInt_unique. apply (RInt_pmom P (fmom b f) (fun t e => (1 - t) ^ (tdim (ftype b f) + degree (tdim b) e) * t ^ e (tdim b))).
      intros e. apply is_RInt_Beta.
    + intros t Ht. rewrite Rmin_left, Rmax_right in Ht by lra. rewrite (Iint_ext _ _ (fun y => peval (tdim b) (sliceC (tdim b) t P) (Emb b f y))).
      * rewrite IH by assumption. unfold sliceC. rewrite pmom_scal, map_map. toR. f_equal. apply map_ext. intros [c e]. cbn [fst snd]. f_equal. rewrite pow_add. ring.
      * intro y. rewrite <- peval_sliceC. apply peval_ext. intros k Hk. rewrite Emb_Cone by (rewrite Nat.eqb_refl; lra). rewrite Nat.eqb_refl.
        destruct (Nat.eqb_spec k (tdim b)); [reflexivity|]. f_equal. apply Emb_ext. intros j Hj. destruct (Nat.eqb_spec j (tdim (ftype b f))); [lia|]. field. lra.
  - cbn [Iint]. induction P as [|[c e] P IHP]; cbn [peval pmom monomial fmom]; [reflexivity|]. rewrite IHP. f_equal. f_equal.
    rewrite Emb_Apex, Nat.eqb_refl, pow1, Rmult_1_r. apply monomial_zero. intros k Hk. rewrite Emb_Apex. destruct (Nat.eqb_spec k (tdim b)); [lia|reflexivity].
Qed.

Lemma mom_peval T P : Iint T (peval (tdim T) P) = pmom (mom T) P.
Proof.
  rewrite <- IintW_Iint, IintW_peval. apply pmom_ext. clear P.
  induction T as [|b IH|b IH]; intro e; cbn [momW mom]; [reflexivity| |]; rewrite IH, bmom_Beta; cbn [pow]; rewrite Nat.add_0_r, ?degree_degsum; ring.
Qed.

Lemma fmom_whole T e : fmom T (whole T) e = mom T e.
Proof.
  revert e. induction T as [|b IH|b IH]; intro e; cbn [whole fmom mom]; [reflexivity| |]; rewrite IH; [reflexivity|].
  now rewrite (proj2 (proj2 (whole_face b))), degree_degsum.
Qed.

(** ** Euler's identity and the divergence theorem for monomials *)

Lemma Beta_euler a m : INR (S a) * Beta a m = INR (S (S a + m)) * Beta (S a) m.
Proof.
  rewrite !Beta_val. rewrite (fact_simpl a), !mult_INR. replace (S (S a + m)) with (S (S (a + m))) by lia.
  replace (S (a + m)) with (S a + m)%nat by lia. rewrite (fact_simpl (S a + m)), mult_INR.
  field. split; [apply INR_fact_neq_0|apply not_0_INR; lia].
Qed.
Lemma Beta_0r a : Beta a 0 = / INR (S a).
Proof.
  rewrite Beta_val, Nat.add_0_r, fact_simpl, mult_INR. change (INR (fact 0)) with 1. field. split; [apply (not_0_INR (S a)); lia|apply INR_fact_neq_0].
Qed.
Lemma Beta_0l b : Beta 0 b = / INR (S b).
Proof. rewrite Beta_val. cbn [Nat.add]. rewrite fact_simpl, mult_INR. change (INR (fact 0)) with 1. field. split; [apply (not_0_INR (S b)); lia|apply INR_fact_neq_0]. Qed.

Lemma euler_fmom T : (1 <= tdim T)%nat -> forall e,
  lsum (fun f => hgt T f * fmom T f e) (faces T 1) = INR (tdim T + degree (tdim T) e) * mom T e.
Proof.
  induction T as [|b IH|b IH]; cbn [tdim]; intros H e; [lia| |].
  - cbn [faces]. rewrite faces_0. cbn [map app]. rewrite lsum_app, lsum_map.
    cbn [lsum fold_right fmom mom degree]. rewrite hgt_Bot, hgt_Top, fmom_whole.
    rewrite (lsum_ext _ (fun f => Beta 0 (e (tdim b)) * (hgt b f * fmom b f e))) by (intros; rewrite hgt_Side; ring).
    rewrite lsum_scal, Beta_0l. set (m := e (tdim b)).
    assert (Q : INR (S m) <> 0) by (apply not_0_INR; lia).
    destruct (Nat.eq_dec (tdim b) 0) as [E|E].
    + rewrite faces_big by lia. rewrite E. cbn [lsum fold_right degree Nat.add].
      assert (b = Pt) as -> by (destruct b; cbn in E; try lia; reflexivity). cbn [mom]. field. assumption.
    + rewrite IH by lia. replace (S (tdim b) + (degree (tdim b) e + m))%nat with ((tdim b + degree (tdim b) e) + S m)%nat by lia.
      rewrite (plus_INR (tdim b + degree (tdim b) e) (S m)). field. assumption.
  - cbn [faces]. rewrite faces_0. cbn [map app]. rewrite lsum_cons, lsum_app, lsum_map, hgt_Base. cbn [degree mom]. set (m := e (tdim b)).
    destruct (Nat.eq_dec (tdim b) 0) as [E|E].
    + rewrite faces_big by lia. rewrite E. cbn [Nat.eqb lsum fold_right degree Nat.add]. rewrite hgt_Apex.
      assert (b = Pt) as -> by (destruct b; cbn in E; try lia; reflexivity).
      cbn [fmom mom tdim degree degsum pow]. rewrite Beta_0l. assert (Q : INR (S m) <> 0) by (apply not_0_INR; lia). field. assumption.
    + destruct (Nat.eqb_spec 1 (S (tdim b))); [lia|]. cbn [lsum fold_right]. fold (lsum (fun f => hgt (Pyr b) (FCone f) * fmom (Pyr b) (FCone f) e) (faces b 1)).
      assert (D : exists a, (tdim b + degree (tdim b) e)%nat = S a) by (exists (tdim b + degree (tdim b) e - 1)%nat; lia). destruct D as [a D].
      rewrite (lsum_ext _ (fun f => Beta a m * (hgt b f * fmom b f e))).
      2:{ intros f Hf. apply in_faces in Hf. destruct Hf as [F1 F2]. rewrite hgt_Cone. cbn [fmom]. rewrite tdim_ftype, F2 by assumption.
          replace (tdim b - 1 + degree (tdim b) e)%nat with a by lia. fold m. ring. }
      rewrite lsum_scal, IH by lia. rewrite <- (degree_degsum (tdim b) e), D. replace (S (tdim b) + (degree (tdim b) e + m))%nat with (S (S a + m)) by lia.
      transitivity (mom b e * (INR (S a) * Beta a m)); [ring|]. rewrite Beta_euler. ring.
Qed.

Lemma degree_ext n e e' : (forall k, (k < n)%nat -> e k = e' k) -> degree n e = degree n e'.
Proof. induction n as [|n IH]; intro H; cbn [degree]; [reflexivity|]. rewrite IH, H by (intros; auto with arith). reflexivity. Qed.

(** the exponents of the derivative in direction [k] *)
Definition pd (e : nat -> nat) (k : nat) : nat -> nat := fun j => if (j =? k)%nat then Nat.pred (e j) else e j.

Lemma degree_pd n e k : (k < n)%nat -> (1 <= e k)%nat -> S (degree n (pd e k)) = degree n e.
Proof.
  induction n as [|n IH]; intros Hk He; [lia|]. cbn [degree]. unfold pd at 2. destruct (Nat.eqb_spec n k) as [->|N].
  - assert (E : degree k (pd e k) = degree k e).
    { apply degree_ext. intros j Hj. unfold pd. destruct (Nat.eqb_spec j k); [lia|reflexivity]. }
    rewrite E. lia.
  - rewrite <- (IH ltac:(lia) He). lia.
Qed.
Lemma pd_ne e k j : j <> k -> pd e k j = e j. Proof. unfold pd. now destruct (Nat.eqb_spec j k). Qed.
Lemma pd_eq e k : pd e k k = Nat.pred (e k). Proof. unfold pd. now rewrite Nat.eqb_refl. Qed.

Lemma gauss_fmom T : forall e k, (k < tdim T)%nat ->
  lsum (fun f => nrm T f k * fmom T f e) (faces T 1) = INR (e k) * mom T (pd e k).
Proof.
  induction T as [|b IH|b IH]; cbn [tdim]; intros e k H; [lia| |].
  - cbn [faces]. rewrite faces_0. cbn [map app]. rewrite lsum_app, lsum_map.
    cbn [lsum fold_right fmom mom nrm]. rewrite fmom_whole.
    destruct (Nat.eq_dec k (tdim b)) as [->|N].
    + rewrite pd_eq. rewrite (mom_ext b (pd e (tdim b)) e) by (intros j Hj; apply pd_ne; lia).
      rewrite !upd_eq. fold (lsum (fun f => nrm b f (tdim b) * (fmom b f e * Beta 0 (e (tdim b)))) (faces b 1)).
      rewrite lsum_0 by (intros; rewrite nrm_support by lia; ring).
      destruct (e (tdim b)) as [|m]; cbn [Nat.pred]; [cbn [pow INR]; ring|].
      rewrite Beta_0l, pow_i by lia. field. apply not_0_INR; lia.
    + rewrite !upd_ne by assumption. fold (lsum (fun f => nrm b f k * (fmom b f e * Beta 0 (e (tdim b)))) (faces b 1)).
      rewrite (lsum_ext _ (fun f => Beta 0 (e (tdim b)) * (nrm b f k * fmom b f e))) by (intros; ring).
      rewrite lsum_scal, IH by lia. rewrite pd_ne by lia. unfold vzero. ring.
  - cbn [faces]. rewrite faces_0. cbn [map app]. rewrite lsum_cons, lsum_app, lsum_map. cbn [mom fmom nrm]. rewrite fmom_whole.
    assert (C : forall f, In f (faces b 1) -> fcod b f = 1%nat /\ tdim (ftype b f) = (tdim b - 1)%nat).
    { intros f Hf. apply in_faces in Hf. destruct Hf as [F1 F2]. split; [assumption|]. rewrite tdim_ftype, F2 by assumption. reflexivity. }
    destruct (Nat.eq_dec k (tdim b)) as [->|N].
    + rewrite pd_eq. rewrite (mom_ext b (pd e (tdim b)) e) by (intros j Hj; apply pd_ne; lia).
      replace (degsum (tdim b) (pd e (tdim b))) with (degree (tdim b) e).
      2:{ rewrite degree_degsum. symmetry. rewrite <- !degree_degsum. apply degree_ext. intros j Hj. apply pd_ne. lia. }
      rewrite upd_eq. set (m := e (tdim b)).
      destruct (Nat.eq_dec (tdim b) 0) as [E|E].
      * rewrite faces_big by lia. rewrite E. cbn [Nat.eqb lsum fold_right nrm fmom]. rewrite ?E, ?upd_eq. cbn [degree Nat.add pow].
        assert (b = Pt) as -> by (destruct b; cbn in E; try lia; reflexivity). cbn [mom].
        destruct m as [|m]; cbn [Nat.pred]; [cbn [pow INR]; ring|]. rewrite Beta_0l, pow_i by lia. field. apply not_0_INR; lia.
      * destruct (Nat.eqb_spec 1 (S (tdim b))); [lia|]. cbn [lsum fold_right].
        assert (D : exists a, (tdim b + degree (tdim b) e)%nat = S a) by (exists (tdim b + degree (tdim b) e - 1)%nat; lia). destruct D as [a D].
        rewrite (lsum_ext _ (fun f => Beta a m * (hgt b f * fmom b f e))).
        2:{ intros f Hf. destruct (C f Hf) as [_ F]. rewrite F, upd_eq. replace (tdim b - 1 + degree (tdim b) e)%nat with a by lia. fold (hgt b f). ring. }
        rewrite lsum_scal, euler_fmom by lia. rewrite D.
        destruct m as [|m]; cbn [Nat.pred].
        -- rewrite Beta_0r. cbn [pow INR]. field. apply (not_0_INR (S a)). lia.
        -- rewrite pow_i by lia. transitivity (mom b e * (INR (S a) * Beta a (S m))); [ring|]. rewrite Beta_step. ring.
    + rewrite upd_ne by assumption. rewrite pd_ne by lia.
      assert (F0 : (1 =? S (tdim b))%nat = false) by (apply Nat.eqb_neq; lia). rewrite F0. cbn [lsum fold_right].
      set (m := e (tdim b)).
      rewrite (lsum_ext _ (fun f => Beta (tdim b - 1 + degree (tdim b) e) m * (nrm b f k * fmom b f e))).
      2:{ intros f Hf. destruct (C f Hf) as [_ F]. rewrite F, upd_ne by lia. ring. }
      rewrite lsum_scal, IH by lia. unfold vzero.
      destruct (Nat.eq_dec (e k) 0) as [Z|Z]; [rewrite Z; cbn [INR]; ring|].
      rewrite <- (degree_degsum (tdim b) (pd e k)). rewrite <- (degree_pd (tdim b) e k) by lia.
      replace (tdim b - 1 + S (degree (tdim b) (pd e k)))%nat with (tdim b + degree (tdim b) (pd e k))%nat by lia. ring.
Qed.

(** ** Polynomials *)
Definition pder (k : nat) (P : MPoly) : MPoly := map (fun ce => (fst ce * INR (snd ce k), pd (snd ce) k)) P.

Lemma lsum_plus {A} (f g : A -> R) l : lsum (fun x => f x + g x) l = lsum f l + lsum g l.
Proof. induction l; cbn [lsum fold_right] in *; [ring|]. fold (lsum (fun x => f x + g x) l) (lsum f l) (lsum g l) in *. rewrite IHl. ring. Qed.

Lemma gauss_poly T P k : (k < tdim T)%nat ->
  Iint T (peval (tdim T) (pder k P))
  = lsum (fun f => nrm T f k * Iint (ftype T f) (fun y => peval (tdim T) P (Emb T f y))) (faces T 1).
Proof.
  intro Hk. rewrite mom_peval.
  rewrite (lsum_ext _ (fun f => nrm T f k * pmom (fmom T f) P)).
  2:{ intros f Hf. apply in_faces in Hf. now rewrite face_peval. }
  induction P as [|[c e] P IH]; cbn [pder map pmom fst snd].
  - rewrite lsum_0; [reflexivity|intros; ring].
  - fold (pder k P).
    rewrite (lsum_ext _ (fun f => c * (nrm T f k * fmom T f e) + nrm T f k * pmom (fmom T f) P)) by (intros; ring).
    rewrite lsum_plus, lsum_scal, gauss_fmom, IH by assumption. ring.
Qed.
