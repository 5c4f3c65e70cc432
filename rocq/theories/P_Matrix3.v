(** Cholesky succeeds exactly on symmetric positive definite matrices; Gram matrices. *)
From Coq Require Import PeanoNat Lia Bool List Reals Lra FunctionalExtensionality.
From Verif Require Import M_Type M_RefTopo M_RefGeo M_Matrix S_Matrix P_RSum P_Matrix P_Matrix2.
Local Open Scope R_scope.

Lemma qform_ext n A B x : meq n n A B -> qform n A x = qform n B x.
Proof. intro H. unfold qform, mvec. apply rsum_ext. intros i Hi. f_equal. apply rsum_ext. intros j Hj. now rewrite H. Qed.
Lemma qform_gram n m (B : Mat) x :
  qform n (fun a b => rsum m (fun j => B a j * B b j)) x = rsum m (fun j => rsum n (fun a => x a * B a j) * rsum n (fun a => x a * B a j)).
Proof.
  unfold qform, mvec.
  rewrite (rsum_ext m _ (fun j => rsum n (fun a => x a * rsum n (fun b => (B a j * B b j) * x b)))).
  - rewrite rsum_swap. apply rsum_ext. intros a Ha. rewrite rsum_scal. f_equal.
    rewrite rsum_swap. apply rsum_ext. intros b Hb. now rewrite <- rsum_scal_r.
  - intros j Hj. rewrite <- rsum_scal_r. apply rsum_ext. intros a Ha.
    rewrite <- rsum_scal, <- rsum_scal. apply rsum_ext. intros b Hb. ring.
Qed.
Lemma qform_trunc n m A x : (n <= m)%nat -> (forall a, (n <= a < m)%nat -> x a = 0) -> qform m A x = qform n A x.
Proof.
  intros H Hx. unfold qform, mvec. rewrite (rsum_trunc n m) by (auto; intros; rewrite Hx by lia; lra).
  apply rsum_ext. intros i Hi. f_equal. apply rsum_trunc; auto. intros; rewrite Hx by lia; lra.
Qed.

(** a partial factorization with non-positive next pivot yields a direction of
    non-positive curvature *)
Lemma pivot_direction n A S ret0 i ret : (i < n)%nat -> symmetric n S ->
  (forall a b, (b <= a < n)%nat -> A a b = S a b) ->
  CholInv n A ret0 i ret ->
  exists x : Vec, x i = 1 /\ qform n S x = cholesky_pivot A ret i.
Proof.
  intros Hi Hsym HA H. set (p := cholesky_pivot A ret i).
  destruct (invLTx_spec i ret (fun j => - ret i j)) as [Hy _].
  { intros k Hk. apply Rgt_not_eq. apply (ci_pos _ _ _ _ _ H k Hk). }
  set (y := invLTx i ret _) in *.
  pose (x := fun a => if Nat.ltb a i then y a else if Nat.eqb a i then 1 else 0).
  exists x. assert (xi : x i = 1) by (unfold x; now rewrite Nat.ltb_irrefl, Nat.eqb_refl).
  assert (xlt : forall a, (a < i)%nat -> x a = y a) by (intros a Ha; unfold x; now rewrite (proj2 (Nat.ltb_lt a i)) by lia).
  split; [exact xi|].
  rewrite (qform_trunc (Datatypes.S i) n).
  2: lia.
  2:{ intros a Ha. unfold x. rewrite (proj2 (Nat.ltb_ge a i)), (proj2 (Nat.eqb_neq a i)) by lia. reflexivity. }
  pose (B := low ret).
  assert (E : meq (Datatypes.S i) (Datatypes.S i) S (fun a b => rsum i (fun j => B a j * B b j) + (if andb (Nat.eqb a i) (Nat.eqb b i) then p else 0))).
  { assert (G : forall c k, (c <= k <= i)%nat -> S k c = rsum i (fun j => B k j * B c j) + (if andb (Nat.eqb k i) (Nat.eqb c i) then p else 0)).
    { intros c k Hck. rewrite <- HA by lia. destruct (Nat.eq_dec c i).
      - assert (k = i) by lia. subst. rewrite Nat.eqb_refl. simpl. unfold p. rewrite pivot_spec.
        rewrite (rsum_ext i (fun j => B i j * B i j) (fun j => ret i j * ret i j)); [lra|].
        intros j Hj. unfold B, low. now rewrite (proj2 (Nat.leb_le j i)) by lia.
      - rewrite (proj2 (Nat.eqb_neq c i)), andb_false_r, Rplus_0_r by lia.
        rewrite <- (ci_eq _ _ _ _ _ H c k) by lia. rewrite (rsum_trunc (Datatypes.S c) i); [|lia|].
        + apply rsum_ext. intros j Hj. unfold B, low. rewrite !(proj2 (Nat.leb_le _ _)) by lia. ring.
        + intros j Hj. unfold B, low. rewrite (proj2 (Nat.leb_gt j c)) by lia. ring. }
    intros a b Ha Hb. destruct (Nat.le_ge_cases b a).
    - apply G. lia.
    - rewrite Hsym by lia. unfold mtr. rewrite G by lia. rewrite andb_comm. f_equal.
      apply rsum_ext. intros. ring. }
  rewrite (qform_ext _ _ _ _ E).
  assert (Q : forall P D : Mat, qform (Datatypes.S i) (fun a b => P a b + D a b) x = qform (Datatypes.S i) P x + qform (Datatypes.S i) D x).
  { intros P D. unfold qform, mvec. rewrite <- rsum_plus. apply rsum_ext. intros a Ha.
    rewrite <- Rmult_plus_distr_l, <- rsum_plus. f_equal. apply rsum_ext. intros b Hb. ring. }
  rewrite Q, qform_gram.
  rewrite rsum_0, Rplus_0_l.
  - unfold qform, mvec. rewrite rsum_S, xi, rsum_0.
    + rewrite rsum_S, xi, Nat.eqb_refl, rsum_0; simpl; [ring|].
      intros k Hk. rewrite (proj2 (Nat.eqb_neq k i)) by lia. ring.
    + intros k Hk. rewrite rsum_0; [ring|]. intros b Hb. rewrite (proj2 (Nat.eqb_neq k i)) by lia. simpl. ring.
  - intros j Hj. rewrite rsum_S, xi. rewrite (rsum_ext i _ (fun a => low ret a j * y a)).
    + rewrite Hy by lia. unfold B, low. rewrite (proj2 (Nat.leb_le j i)) by lia. ring.
    + intros a Ha. rewrite xlt by lia. unfold B. ring.
Qed.

Lemma chol_full n A S ret0 ret : symmetric n S -> (forall a b, (b <= a < n)%nat -> A a b = S a b) ->
  CholInv n A ret0 n ret -> meq n n S (mmul n (low ret) (mtr (low ret))).
Proof.
  intros Hsym HA H.
  assert (G : forall c k, (c <= k < n)%nat -> S k c = mmul n (low ret) (mtr (low ret)) k c).
  { intros c k Hk. rewrite <- HA by lia. rewrite <- (ci_eq _ _ _ _ _ H c k) by lia.
    unfold mmul, mtr. rewrite (rsum_trunc (Datatypes.S c) n); [|lia|].
    + apply rsum_ext. intros j Hj. unfold low. rewrite !(proj2 (Nat.leb_le _ _)) by lia. ring.
    + intros j Hj. unfold low. rewrite (proj2 (Nat.leb_gt j c)) by lia. ring. }
  intros a b Ha Hb. destruct (Nat.le_ge_cases b a).
  - apply G. lia.
  - rewrite Hsym by lia. unfold mtr at 1. rewrite G by lia. unfold mmul, mtr. apply rsum_ext. intros. ring.
Qed.

Lemma rsum_sq_0 n f : rsum n (fun j => f j * f j) = 0 -> forall j, (j < n)%nat -> f j = 0.
Proof.
  induction n; simpl; intros H j Hj; [lia|].
  assert (0 <= rsum n (fun j => f j * f j)) by (apply rsum_nonneg; intros; apply Rle_0_sqr).
  assert (0 <= f n * f n) by apply Rle_0_sqr.
  destruct (Nat.eq_dec j n); [subst|apply IHn; [lra|lia]]. apply Rsqr_0_uniq. unfold Rsqr. lra.
Qed.
Lemma gram_spd m n A : row_independent m n A -> SPD m (mmul n A (mtr A)).
Proof.
  intro H. split.
  - intros i j Hi Hj. unfold mmul, mtr. apply rsum_ext. intros. ring.
  - intros x (i & Hi & Hx). change (mmul n A (mtr A)) with (fun a b => rsum n (fun j => A a j * A b j)).
    rewrite qform_gram. set (f := fun j => rsum m (fun a => x a * A a j)).
    assert (0 <= rsum n (fun j => f j * f j)) by (apply rsum_nonneg; intros; apply Rle_0_sqr).
    destruct (Req_dec (rsum n (fun j => f j * f j)) 0) as [E|E]; [|change (0 < rsum n (fun j => f j * f j)); lra].
    exfalso. apply Hx. apply H; auto. intros j Hj. rewrite <- (rsum_sq_0 n f E j Hj).
    unfold mvec, mtr, f. apply rsum_ext. intros. ring.
Qed.
Lemma spd_gram m n A : SPD m (mmul n A (mtr A)) -> row_independent m n A.
Proof.
  intros [_ H] x Hx i Hi. destruct (Req_dec (x i) 0) as [|E]; [assumption|exfalso].
  assert (Hp : 0 < qform m (mmul n A (mtr A)) x) by (apply H; eauto).
  change (mmul n A (mtr A)) with (fun a b => rsum n (fun j => A a j * A b j)) in Hp.
  rewrite qform_gram, rsum_0 in Hp; [lra|].
  intros j Hj. rewrite (rsum_ext m _ (fun a => mtr A j a * x a)) by (intros; unfold mtr; ring).
  change (mvec m (mtr A) x j * mvec m (mtr A) x j = 0). rewrite Hx by assumption. ring.
Qed.
Lemma low_independent n L : (forall k, (k < n)%nat -> L k k <> 0) -> row_independent n n (low L).
Proof.
  intros HL x Hx.
  assert (G : forall t i, (t <= n)%nat -> (n - t <= i < n)%nat -> x i = 0).
  { induction t; intros i Ht Hi; [lia|].
    destruct (Nat.eq_dec i (n - S t)); [|apply IHt; lia].
    assert (E := Hx i). unfold mvec, mtr in E. specialize (E ltac:(lia)).
    rewrite (rsum_ext n _ (fun k => if Nat.eqb k i then L k i * x k else 0)) in E.
    - rewrite (rsum_delta n i (fun k => L k i * x k)) in E by lia.
      apply Rmult_integral in E. destruct E as [E|E]; [|assumption]. exfalso. apply (HL i); [lia|assumption].
    - intros k Hk. unfold low. destruct (Nat.leb_spec i k), (Nat.eqb_spec k i); try lia; try ring.
      rewrite (IHt k) by lia. ring. }
  intros i Hi. apply (G n); lia.
Qed.
Lemma spd_ext n A B : meq n n A B -> SPD n A -> SPD n B.
Proof.
  intros E [H1 H2]. split.
  - intros i j Hi Hj. unfold mtr. rewrite <- !E by assumption. now apply H1.
  - intros x Hx. rewrite <- (qform_ext n A B x E). now apply H2.
Qed.

(** the two outcomes of the factorization, characterised *)
Lemma cholesky_spd n A S ret0 chk : SPD n S -> (forall a b, (b <= a < n)%nat -> A a b = S a b) ->
  exists ret, cholesky_L n A ret0 chk = Some (true, ret) /\ CholInv n A ret0 n ret /\
    meq n n S (mmul n (low ret) (mtr (low ret))).
Proof.
  intros [Hsym Hpos] HA. generalize (cholesky_outcome n A ret0 chk).
  assert (No : forall k ret, (k < n)%nat -> CholInv n A ret0 k ret -> cholesky_pivot A ret k <= 0 -> False).
  { intros k ret Hk HI Hp. destruct (pivot_direction n A S ret0 k ret Hk Hsym HA HI) as (x & x1 & Q).
    assert (0 < qform n S x) by (apply Hpos; exists k; split; [assumption|rewrite x1; lra]). lra. }
  destruct (cholesky_L n A ret0 chk) as [[[] ret]|].
  - intro HI. exists ret. repeat split; try apply HI. now apply (chol_full n A S ret0).
  - intros (_ & k & Hk & HI & Hp). exfalso. eauto.
  - intros (_ & k & ret & Hk & HI & Hp). exfalso. eauto.
Qed.
Lemma cholesky_not_spd n A S ret0 ret chk : symmetric n S -> (forall a b, (b <= a < n)%nat -> A a b = S a b) ->
  cholesky_L n A ret0 chk = Some (true, ret) -> SPD n S.
Proof.
  intros Hsym HA E. generalize (cholesky_outcome n A ret0 chk). rewrite E. intro HI.
  apply (spd_ext n (mmul n (low ret) (mtr (low ret)))).
  - intros i j Hi Hj. symmetry. now apply (chol_full n A S ret0 ret).
  - apply gram_spd, low_independent. intros k Hk. apply Rgt_not_eq, (ci_pos _ _ _ _ _ HI k Hk).
Qed.
