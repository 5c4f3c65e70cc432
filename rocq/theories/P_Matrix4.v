(** Inverses, pseudo inverses and Gram determinants computed by M_Matrix. *)
From Coq Require Import PeanoNat Lia Bool List Reals Lra FunctionalExtensionality.
From Verif Require Import M_Type M_RefTopo M_RefGeo M_Matrix S_Matrix P_RSum P_Det P_MxBridge P_Matrix P_Matrix2 P_Matrix3.
Local Open Scope R_scope.

Lemma meq_sym m n A B : meq m n A B -> meq m n B A.
Proof. intros H i j Hi Hj. symmetry. auto. Qed.
Lemma meq_trans m n A B C : meq m n A B -> meq m n B C -> meq m n A C.
Proof. intros H H' i j Hi Hj. rewrite H by assumption. auto. Qed.
Lemma detR_meq n A B : meq n n A B -> detR n A = detR n B.
Proof. intro H. apply detR_ext. auto. Qed.

Lemma detL_low n L : detL n L = detR n (low L).
Proof.
  induction n.
  - now rewrite detR_0.
  - rewrite (detR_lastcol (n := n) (A := low L)).
    + rewrite <- IHn. unfold detL. simpl. unfold low. now rewrite Nat.leb_refl.
    + intros i Hi. unfold low. now rewrite (proj2 (Nat.leb_gt n i)) by lia.
Qed.
Lemma detL_pos n L : (forall k, (k < n)%nat -> 0 < L k k) -> 0 < detL n L.
Proof.
  unfold detL. induction n; simpl; intro H; [lra|].
  apply Rmult_lt_0_compat; [apply IHn; intros; apply H; lia|apply H; lia].
Qed.
Lemma det_gram n L : detR n (mmul n L (mtr L)) = detR n L * detR n L.
Proof. unfold mmul. rewrite detR_mul. unfold mtr. now rewrite (detR_tr n L). Qed.

Lemma chol_det n S A ret0 ret : meq n n S (mmul n (low ret) (mtr (low ret))) -> CholInv n A ret0 n ret ->
  0 < detL n ret /\ detL n ret * detL n ret = detR n S.
Proof.
  intros E HI. split.
  - apply detL_pos. exact (ci_pos _ _ _ _ _ HI).
  - rewrite (detR_meq _ _ _ E), det_gram, detL_low. reflexivity.
Qed.

Lemma spdDetA_spec n A S junk : SPD n S -> (forall a b, (b <= a < n)%nat -> A a b = S a b) ->
  exists d, spdDetA n A junk = Some d /\ 0 < d /\ d * d = detR n S.
Proof.
  intros HS HA. destruct (cholesky_spd n A S junk false HS HA) as (ret & E & HI & HL).
  exists (detL n ret). unfold spdDetA. rewrite E. simpl. split; [reflexivity|].
  now apply (chol_det n S A junk ret).
Qed.

Lemma spdInvA_spec n A S junk : SPD n S -> (forall a b, (b <= a < n)%nat -> A a b = S a b) ->
  exists d G, spdInvA n A junk = Some (d, G) /\ 0 < d /\ d * d = detR n S /\ meq n n (mmul n S G) mone /\ symmetric n G.
Proof.
  intros HS HA. destruct (cholesky_spd n A S junk false HS HA) as (ret & E & HI & HL).
  assert (Hd : forall k, (k < n)%nat -> ret k k <> 0) by (intros k Hk; apply Rgt_not_eq, (ci_pos _ _ _ _ _ HI k Hk)).
  generalize (invL_spec n ret Hd) (invL_low n ret Hd).
  unfold spdInvA. rewrite E. cbn [obind]. destruct (invL n ret) as [det N]. intros (Ed & _) HN. simpl in HN.
  exists det, (LTL n N A). split; [reflexivity|].
  destruct (chol_det n S A junk ret HL HI) as [D1 D2]. rewrite Ed.
  split; [exact D1|]. split; [exact D2|].
  assert (EG : meq n n (LTL n N A) (mmul n (mtr (low N)) (low N))).
  { intros i j Hi Hj. rewrite LTL_spec, (proj2 (Nat.ltb_lt i n)), (proj2 (Nat.ltb_lt j n)) by assumption. reflexivity. }
  split.
  - apply (meq_trans _ _ _ (mmul n (mmul n (low ret) (mtr (low ret))) (mmul n (mtr (low N)) (low N)))).
    + apply (meq_trans _ _ _ (mmul n S (mmul n (mtr (low N)) (low N)))).
      * now apply meq_mulR.
      * now apply meq_mulL.
    + apply gram_inverse. intros a j Ha Hj. now apply HN.
  - intros i j Hi Hj. unfold mtr. rewrite !EG by assumption. unfold mmul, mtr. apply rsum_ext. intros. ring.
Qed.

Lemma spdInvAx_spec n A S x junk chk : symmetric n S -> (forall a b, (b <= a < n)%nat -> A a b = S a b) ->
  (SPD n S -> exists y, spdInvAx n A x junk chk = Some (true, y) /\ veq n (mvec n S y) x) /\
  (~ SPD n S -> spdInvAx n A x junk chk = if chk then Some (false, x) else None).
Proof.
  intros Hsym HA. split.
  - intro HS. destruct (cholesky_spd n A S junk chk HS HA) as (ret & E & HI & HL).
    assert (Hd : forall k, (k < n)%nat -> ret k k <> 0) by (intros k Hk; apply Rgt_not_eq, (ci_pos _ _ _ _ _ HI k Hk)).
    unfold spdInvAx. rewrite E. simpl. eexists. split; [reflexivity|].
    destruct (invLx_spec n ret x Hd) as [H1 _]. destruct (invLTx_spec n ret (invLx n ret x) Hd) as [H2 _].
    set (y := invLTx n ret _) in *. intros i Hi. unfold mvec.
    rewrite (rsum_ext n _ (fun j => rsum n (fun k => low ret i k * (low ret j k * y j)))).
    2:{ intros j Hj. rewrite HL by assumption. unfold mmul, mtr. rewrite <- rsum_scal_r. apply rsum_ext. intros. ring. }
    rewrite rsum_swap. rewrite (rsum_ext n _ (fun k => low ret i k * invLx n ret x k)).
    + rewrite rsum_low by assumption. now apply H1.
    + intros k Hk. rewrite rsum_scal, H2 by assumption. reflexivity.
  - intro HS. unfold spdInvAx. generalize (cholesky_outcome n A junk chk).
    destruct (cholesky_L n A junk chk) as [[[] ret]|] eqn:E; intro H.
    + exfalso. apply HS. eapply cholesky_not_spd; eauto.
    + destruct H as [-> _]. reflexivity.
    + destruct H as [-> _]. reflexivity.
Qed.

(** ** Gram matrices as computed *)
Lemma AAT_lower m n A junk : (m <= n)%nat -> forall a b, (b <= a < m)%nat -> AAT_L m n A junk a b = mmul n A (mtr A) a b.
Proof.
  intros H a b Hab. rewrite AAT_L_spec by lia.
  rewrite (proj2 (Nat.ltb_lt a m)), (proj2 (Nat.ltb_lt b (S a))) by lia. reflexivity.
Qed.
Lemma ATA_lower m n A junk : forall a b, (b <= a < n)%nat -> ATA_L m n A junk a b = mmul m (mtr A) A a b.
Proof.
  intros a b Hab. rewrite ATA_L_spec.
  rewrite (proj2 (Nat.ltb_lt a n)), (proj2 (Nat.ltb_lt b (S a))) by lia. reflexivity.
Qed.
Lemma gram_sym m n A : symmetric m (mmul n A (mtr A)).
Proof. intros i j Hi Hj. unfold mmul, mtr. apply rsum_ext. intros. ring. Qed.
Lemma gramT_sym m n A : symmetric n (mmul m (mtr A) A).
Proof. intros i j Hi Hj. unfold mmul, mtr. apply rsum_ext. intros. ring. Qed.
Lemma gramT_spd m n A : col_independent m n A -> SPD n (mmul m (mtr A) A).
Proof. intro H. exact (gram_spd n m (mtr A) H). Qed.
Lemma spd_gramT m n A : SPD n (mmul m (mtr A) A) -> col_independent m n A.
Proof. intro H. exact (spd_gram n m (mtr A) H). Qed.

(** square matrices with independent rows have non-zero determinant *)
Lemma spd_det_pos n S : SPD n S -> 0 < detR n S.
Proof.
  intro H. destruct (spdDetA_spec n S S S H) as (d & _ & Hd & E); [auto|]. rewrite <- E. now apply Rmult_lt_0_compat.
Qed.
Lemma row_independent_det n A : row_independent n n A -> detR n A <> 0.
Proof. intros H E. assert (P := spd_det_pos _ _ (gram_spd n n A H)). rewrite det_gram, E in P. lra. Qed.
Lemma det_row_independent n A B : meq n n (mmul n A B) mone -> row_independent n n A.
Proof.
  intros H x Hx i Hi.
  assert (E : rsum n (fun j => mvec n (mtr A) x j * B j i) = 0) by (apply rsum_0; intros; rewrite Hx by assumption; ring).
  unfold mvec, mtr in E.
  rewrite (rsum_ext n _ (fun j => rsum n (fun k => x k * (A k j * B j i)))) in E.
  2:{ intros j Hj. rewrite <- rsum_scal_r. apply rsum_ext. intros. ring. }
  rewrite rsum_swap in E.
  rewrite (rsum_ext n _ (fun k => if Nat.eqb k i then x k else 0)) in E.
  - now rewrite rsum_delta in E.
  - intros k Hk. rewrite rsum_scal. change (x k * mmul n A B k i = if Nat.eqb k i then x k else 0).
    rewrite H by assumption. unfold mone. destruct (Nat.eqb k i); ring.
Qed.

Lemma inv22_spec A ret : A 0%nat 0%nat * A 1%nat 1%nat - A 1%nat 0%nat * A 0%nat 1%nat <> 0 ->
  let '(d, X) := inv22 A ret in
  0 < d /\ d * d = detR 2 (mmul 2 A (mtr A)) /\ meq 2 2 (mmul 2 A X) mone.
Proof.
  intro H. unfold inv22. split; [now apply Rabs_pos_lt|]. split.
  - rewrite det_gram, detR_2. rewrite <- Rabs_mult, Rabs_pos_eq by apply Rle_0_sqr. ring.
  - intros i j Hi Hj. unfold mmul. cbn [rsum]. rewrite !mupd_case.
    destruct i as [|[|]], j as [|[|]]; try lia; simpl; unfold mone; simpl; field; exact H.
Qed.
Lemma det22_nonzero A : row_independent 2 2 A -> A 0%nat 0%nat * A 1%nat 1%nat - A 1%nat 0%nat * A 0%nat 1%nat <> 0.
Proof. intros H E. apply (row_independent_det 2 A H). rewrite detR_2. lra. Qed.

(** ** right pseudo inverse *)
Lemma rightInvA_spec m n A ret j1 j2 : (m <= n)%nat -> row_independent m n A ->
  exists d X G, rightInvA m n A ret j1 j2 = Some (d, X) /\ 0 < d /\ d * d = detR m (mmul n A (mtr A)) /\
    meq m m (mmul m (mmul n A (mtr A)) G) mone /\ meq n m X (mmul m (mtr A) G).
Proof.
  intros Hmn Hr. assert (HS := gram_spd m n A Hr). unfold rightInvA.
  destruct (Nat.eqb n 2 && Nat.eqb m 2)%bool eqn:E.
  - apply andb_true_iff in E. destruct E as [E1 E2]. apply Nat.eqb_eq in E1, E2. subst m n.
    generalize (inv22_spec A ret (det22_nonzero A Hr)). destruct (inv22 A ret) as [d X]. intros (D1 & D2 & D3).
    exists d, X, (mmul 2 (mtr X) X). split; [reflexivity|]. split; [exact D1|]. split; [exact D2|]. split.
    + now apply gram_inverse.
    + apply meq_sym. eapply meq_trans; [apply meq_mulA|].
      assert (T : meq 2 2 (mmul 2 (mtr A) (mtr X)) mone).
      { eapply meq_trans; [apply meq_sym, (@meq_trmul 2 2 2 X A)|]. apply minv_comm in D3.
        intros i j Hi Hj. unfold mtr. rewrite D3 by assumption. unfold mone. now rewrite Nat.eqb_sym. }
      eapply meq_trans; [apply meq_mulL, T|].
      intros i j Hi Hj. unfold mmul, mone. rewrite (rsum_ext 2 _ (fun k => if Nat.eqb k i then X k j else 0)).
      * now rewrite (rsum_delta 2 i (fun k => X k j)).
      * intros k Hk. rewrite Nat.eqb_sym. destruct (Nat.eqb k i); ring.
  - destruct (spdInvA_spec m (AAT_L m n A j1) (mmul n A (mtr A)) j2 HS (AAT_lower m n A j1 Hmn)) as (d & G & EG & D1 & D2 & D3 & D4).
    rewrite EG. cbn [obind]. exists d, (ATBT m n m A G ret), G. split; [reflexivity|]. split; [exact D1|]. split; [exact D2|]. split; [exact D3|].
    intros i j Hi Hj. rewrite ATBT_spec, (proj2 (Nat.ltb_lt i n)), (proj2 (Nat.ltb_lt j m)) by assumption. simpl.
    unfold mmul, mtr. apply rsum_ext. intros k Hk. now rewrite (D4 j k) by assumption.
Qed.

Lemma leftInvA_spec m n A ret j1 j2 : (n <= m)%nat -> col_independent m n A ->
  exists d X G, leftInvA m n A ret j1 j2 = Some (d, X) /\ 0 < d /\ d * d = detR n (mmul m (mtr A) A) /\
    meq n n (mmul n (mmul m (mtr A) A) G) mone /\ meq n m X (mmul n G (mtr A)).
Proof.
  intros Hmn Hr. assert (HS := gramT_spd m n A Hr). unfold leftInvA.
  destruct (Nat.eqb n 2 && Nat.eqb m 2)%bool eqn:E.
  - apply andb_true_iff in E. destruct E as [E1 E2]. apply Nat.eqb_eq in E1, E2. subst m n.
    assert (Hr' : A 0%nat 0%nat * A 1%nat 1%nat - A 1%nat 0%nat * A 0%nat 1%nat <> 0).
    { intro E. apply (row_independent_det 2 (mtr A) Hr). rewrite detR_2. unfold mtr. lra. }
    generalize (inv22_spec A ret Hr'). destruct (inv22 A ret) as [d X]. intros (D1 & D2 & D3).
    exists d, X, (mmul 2 X (mtr X)). split; [reflexivity|]. split; [exact D1|]. split.
    { rewrite D2, det_gram. change A with (mtr (mtr A)) at 4. rewrite (det_gram 2 (mtr A)). unfold mtr. now rewrite (detR_tr 2 A). }
    assert (D3' := D3). apply minv_comm in D3'.
    assert (Tt : meq 2 2 (mmul 2 (mtr X) (mtr A)) mone).
    { eapply meq_trans; [apply meq_sym, (@meq_trmul 2 2 2 A X)|].
      intros i j Hi Hj. unfold mtr. rewrite D3 by assumption. unfold mone. now rewrite Nat.eqb_sym. }
    assert (one_r : forall B : Mat, meq 2 2 (mmul 2 B mone) B).
    { intros B i j Hi Hj. unfold mmul, mone. rewrite (rsum_ext 2 _ (fun k => if Nat.eqb k j then B i k else 0)).
      * now rewrite (rsum_delta 2 j (fun k => B i k)).
      * intros k Hk. destruct (Nat.eqb k j); ring. }
    split.
    + apply minv_comm. eapply meq_trans; [apply meq_mulA|].
      eapply meq_trans; [apply meq_mulL|].
      * eapply meq_trans; [apply meq_sym, meq_mulA|]. eapply meq_trans; [apply meq_mulR, Tt|]. apply one_r.
      * exact D3'.
    + apply meq_sym. eapply meq_trans; [apply meq_sym, meq_mulA|]. eapply meq_trans; [apply meq_mulR, Tt|]. apply one_r.
  - destruct (spdInvA_spec n (ATA_L m n A j1) (mmul m (mtr A) A) j2 HS (ATA_lower m n A j1)) as (d & G & EG & D1 & D2 & D3 & D4).
    rewrite EG. cbn [obind]. exists d, (ATBT n n m G A ret), G. split; [reflexivity|]. split; [exact D1|]. split; [exact D2|]. split; [exact D3|].
    intros i j Hi Hj. rewrite ATBT_spec, (proj2 (Nat.ltb_lt i n)), (proj2 (Nat.ltb_lt j m)) by assumption. simpl.
    unfold mmul, mtr. apply rsum_ext. intros k Hk. now rewrite (D4 k i) by assumption.
Qed.

(** ** square root of the Gram determinant *)
Lemma det_gram_wide m n A : (n < m)%nat -> detR m (mmul n A (mtr A)) = 0.
Proof.
  intro H. set (A' := fun i j => if Nat.ltb j n then A i j else 0).
  rewrite (detR_meq m _ (mmul m A' (mtr A'))).
  - rewrite det_gram. destruct m; [lia|].
    rewrite (detR_lastcol (n := m) (A := A')).
    + unfold A'. rewrite (proj2 (Nat.ltb_ge m n)) by lia. ring.
    + intros i Hi. unfold A'. now rewrite (proj2 (Nat.ltb_ge m n)) by lia.
  - intros i j Hi Hj. unfold mmul, mtr. rewrite (rsum_trunc n m); [|lia|].
    + apply rsum_ext. intros k Hk. unfold A'. now rewrite (proj2 (Nat.ltb_lt k n)) by lia.
    + intros k Hk. unfold A'. rewrite (proj2 (Nat.ltb_ge k n)) by lia. ring.
Qed.
Lemma sqrtDetAAT_spec m n A j1 j2 :
  (row_independent m n A \/ (n < m)%nat \/ (m, n) = (2, 2)%nat \/ (m, n) = (3, 3)%nat \/ (m, n) = (2, 3)%nat) ->
  exists s, sqrtDetAAT m n A j1 j2 = Some s /\ 0 <= s /\ s * s = detR m (mmul n A (mtr A)).
Proof.
  intro H. unfold sqrtDetAAT.
  destruct (Nat.eqb n 2 && Nat.eqb m 2)%bool eqn:E.
  { apply andb_true_iff in E. destruct E as [E1 E2]. apply Nat.eqb_eq in E1, E2. subst m n.
    eexists. split; [reflexivity|]. split; [apply Rabs_pos|].
    rewrite <- Rabs_mult, Rabs_pos_eq by apply Rle_0_sqr. rewrite det_gram, detR_2. ring. }
  destruct (Nat.eqb n 3 && Nat.eqb m 3)%bool eqn:E3.
  { apply andb_true_iff in E3. destruct E3 as [E1 E2]. apply Nat.eqb_eq in E1, E2. subst m n.
    eexists. split; [reflexivity|]. split; [apply Rabs_pos|].
    rewrite <- Rabs_mult, Rabs_pos_eq by apply Rle_0_sqr. rewrite det_gram, detR_3. ring. }
  destruct (Nat.eqb n 3 && Nat.eqb m 2)%bool eqn:E4.
  { apply andb_true_iff in E4. destruct E4 as [E1 E2]. apply Nat.eqb_eq in E1, E2. subst m n.
    eexists. split; [reflexivity|]. split; [apply sqrt_pos|].
    rewrite sqrt_sqrt by (repeat apply Rplus_le_le_0_compat; apply Rle_0_sqr).
    rewrite detR_2. unfold mmul, mtr. cbn [rsum]. ring. }
  destruct (Nat.leb_spec m n).
  - assert (Hr : row_independent m n A).
    { destruct H as [H|[H|[H|[H|H]]]]; [assumption|lia| | |]; injection H as -> ->; discriminate. }
    destruct (spdDetA_spec m (AAT_L m n A j1) (mmul n A (mtr A)) j2 (gram_spd m n A Hr) (AAT_lower m n A j1 H0)) as (d & Ed & D1 & D2).
    exists d. repeat split; auto. lra.
  - exists 0. split; [reflexivity|]. split; [lra|]. rewrite det_gram_wide by assumption. ring.
Qed.
