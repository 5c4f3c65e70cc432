(** Uniqueness of the factor, least squares, comparison of special and general paths. *)
From Coq Require Import PeanoNat Lia Bool List Reals Lra FunctionalExtensionality.
From Verif Require Import M_Type M_RefTopo M_RefGeo M_Matrix S_Matrix P_RSum P_Det P_MxBridge P_Matrix P_Matrix2 P_Matrix3 P_Matrix4.
Local Open Scope R_scope.

Lemma mul_low n L c k : (c < n)%nat ->
  mmul n (low L) (mtr (low L)) k c = rsum (S c) (fun j => low L k j * low L c j).
Proof.
  intro H. unfold mmul, mtr. apply rsum_trunc; [lia|]. intros j Hj. unfold low at 2. rewrite (proj2 (Nat.leb_gt j c)) by lia. ring.
Qed.
Lemma chol_unique n L M :
  (forall k, (k < n)%nat -> 0 < L k k) -> (forall k, (k < n)%nat -> 0 < M k k) ->
  meq n n (mmul n (low L) (mtr (low L))) (mmul n (low M) (mtr (low M))) -> meq n n (low L) (low M).
Proof.
  intros HL HM E.
  assert (G : forall c, (c <= n)%nat -> forall j k, (j < c)%nat -> (k < n)%nat -> low L k j = low M k j).
  { induction c; intros Hc j k Hj Hk; [lia|].
    destruct (Nat.eq_dec j c); [subst j|apply IHc; lia].
    assert (P : forall k, (k < n)%nat -> low L k c * L c c = low M k c * M c c).
    { intros k' Hk'. assert (Q := E k' c Hk' ltac:(lia)). rewrite !mul_low in Q by lia. simpl in Q.
      rewrite (rsum_ext c _ (fun j => low M k' j * low M c j)) in Q by (intros j Hj'; rewrite !(IHc ltac:(lia) j) by lia; reflexivity).
      unfold low at 4 8 in Q. rewrite Nat.leb_refl in Q. lra. }
    assert (D : L c c = M c c).
    { assert (Q := P c ltac:(lia)). unfold low in Q. rewrite Nat.leb_refl in Q.
      apply Rsqr_inj; [apply Rlt_le, HL; lia|apply Rlt_le, HM; lia|exact Q]. }
    assert (Q := P k Hk). rewrite D in Q. apply (Rmult_eq_reg_r (M c c)); [exact Q|].
    apply Rgt_not_eq, HM. lia. }
  intros i j Hi Hj. apply (G n); lia.
Qed.

Lemma mvec_minus n A y z i : mvec n A (fun j => y j - z j) i = mvec n A y i - mvec n A z i.
Proof. unfold mvec. rewrite <- rsum_minus. apply rsum_ext. intros. ring. Qed.
Lemma mvec_mmul n k A B x i : mvec k (mmul n A B) x i = mvec n A (mvec k B x) i.
Proof.
  unfold mvec, mmul. rewrite (rsum_ext k _ (fun j => rsum n (fun l => A i l * (B l j * x j)))).
  - rewrite rsum_swap. apply rsum_ext. intros. now rewrite rsum_scal.
  - intros. rewrite <- rsum_scal_r. apply rsum_ext. intros. ring.
Qed.
(** a solution of the normal equations minimises the residual *)
Lemma normal_equations m n A x y : veq n (mvec n (mmul m (mtr A) A) y) (mvec m (mtr A) x) ->
  forall z, residual m n A x y <= residual m n A x z.
Proof.
  intros H z. unfold residual.
  set (d := fun j => z j - y j).
  rewrite (rsum_ext m (fun i => (mvec n A z i - x i) * (mvec n A z i - x i))
    (fun i => (mvec n A y i - x i) * (mvec n A y i - x i) + (2 * ((mvec n A y i - x i) * mvec n A d i) + mvec n A d i * mvec n A d i))).
  2:{ intros i Hi. unfold d. rewrite mvec_minus. ring. }
  rewrite !rsum_plus, rsum_scal.
  assert (E : rsum m (fun i => (mvec n A y i - x i) * mvec n A d i) = 0).
  { unfold mvec at 2. rewrite (rsum_ext m _ (fun i => rsum n (fun j => ((mvec n A y i - x i) * A i j) * d j))).
    2:{ intros. rewrite <- rsum_scal. apply rsum_ext. intros. ring. }
    rewrite rsum_swap. apply rsum_0. intros j Hj. rewrite rsum_scal_r.
    rewrite (rsum_ext m _ (fun i => mtr A j i * mvec n A y i - mtr A j i * x i)) by (intros; unfold mtr; ring).
    rewrite rsum_minus. assert (Q := H j Hj). rewrite mvec_mmul in Q. unfold mvec at 1 3 in Q. rewrite Q. ring. }
  rewrite E. assert (0 <= rsum m (fun i => mvec n A d i * mvec n A d i)) by (apply rsum_nonneg; intros; apply Rle_0_sqr). lra.
Qed.

Lemma inverse_unique n S G G' : meq n n (mmul n S G) mone -> meq n n (mmul n S G') mone -> meq n n G G'.
Proof.
  intros H H'. apply minv_comm in H.
  assert (ol : forall B, meq n n (mmul n mone B) B).
  { intros B i j Hi Hj. unfold mmul, mone. rewrite (rsum_ext n _ (fun k => if Nat.eqb k i then B k j else 0)).
    - now rewrite (rsum_delta n i (fun k => B k j)).
    - intros k Hk. rewrite Nat.eqb_sym. destruct (Nat.eqb k i); ring. }
  assert (or : forall B, meq n n (mmul n B mone) B).
  { intros B i j Hi Hj. unfold mmul, mone. rewrite (rsum_ext n _ (fun k => if Nat.eqb k j then B i k else 0)).
    - now rewrite (rsum_delta n j (fun k => B i k)).
    - intros k Hk. destruct (Nat.eqb k j); ring. }
  apply (meq_trans _ _ _ (mmul n (mmul n G S) G')).
  - apply (meq_trans _ _ _ (mmul n G (mmul n S G'))); [|apply meq_mulA].
    apply (meq_trans _ _ _ (mmul n G mone)); [apply meq_sym, or|]. apply meq_mulR, meq_sym, H'.
  - apply (meq_trans _ _ _ (mmul n mone G')); [apply meq_mulL, H|apply ol].
Qed.
Lemma pos_square_eq a b : 0 <= a -> 0 <= b -> a * a = b * b -> a = b.
Proof. intros Ha Hb E. now apply Rsqr_inj. Qed.
