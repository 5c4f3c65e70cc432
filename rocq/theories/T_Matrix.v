(** C24 - C26: the dense linear algebra helpers (utility/defaultmatrixhelper.hh). *)
From Coq Require Import PeanoNat Lia Bool List Reals Lra.
From Verif Require Import M_Type M_RefTopo M_RefGeo M_Matrix S_Matrix P_RSum P_Det P_MxBridge
  P_Matrix P_Matrix2 P_Matrix3 P_Matrix4 P_Matrix5.
Local Open Scope R_scope.

(** ** C24 Cholesky factorization *)

(** [A] only has to be right on and below the diagonal, which is all AAT_L provides *)
Definition lower_agrees (n : nat) (A S : Mat) : Prop := forall i j, (j <= i < n)%nat -> A i j = S i j.

Theorem C24_cholesky_factor :
  forall n A S L0 chk L, symmetric n S -> lower_agrees n A S ->
    cholesky_L n A L0 chk = Some (true, L) ->
    (forall k, (k < n)%nat -> 0 < L k k) /\
    meq n n (mmul n (low L) (mtr (low L))) S /\
    (forall i j, (i < j)%nat -> L i j = L0 i j).
Proof.
  intros n A S L0 chk L Hs Ha E. generalize (cholesky_outcome n A L0 chk). rewrite E. intro HI.
  split; [exact (ci_pos _ _ _ _ _ HI)|]. split.
  - apply meq_sym. now apply (chol_full n A S L0).
  - intros i j Hij. apply (ci_frame _ _ _ _ _ HI). lia.
Qed.
Print Assumptions C24_cholesky_factor.

(** the factor is the only one with these properties *)
Theorem C24_cholesky_factor_unique :
  forall n A S L0 chk L M, symmetric n S -> lower_agrees n A S ->
    cholesky_L n A L0 chk = Some (true, L) ->
    lower_triangular n M -> (forall k, (k < n)%nat -> 0 < M k k) -> meq n n (mmul n M (mtr M)) S ->
    forall i j, (j <= i < n)%nat -> L i j = M i j.
Proof.
  intros n A S L0 chk L M Hs Ha E HM HP HE i j Hij.
  destruct (C24_cholesky_factor n A S L0 chk L Hs Ha E) as (LP & LE & _).
  assert (EM : meq n n M (low M)).
  { intros a b Hxa Hxb. unfold low. destruct (Nat.leb_spec b a); [reflexivity|]. apply HM. lia. }
  assert (U : meq n n (low L) (low M)).
  { apply chol_unique; auto. eapply meq_trans; [exact LE|]. apply meq_sym. eapply meq_trans; [|exact HE].
    intros a b Hxa Hxb. unfold mmul, mtr. apply rsum_ext. intros k Hk. now rewrite !(EM _ k) by assumption. }
  assert (Q := U i j ltac:(lia) ltac:(lia)). unfold low in Q. now rewrite (proj2 (Nat.leb_le j i)) in Q by lia.
Qed.
Print Assumptions C24_cholesky_factor_unique.

Theorem C24_cholesky_spd_succeeds :
  forall n A S L0 chk, SPD n S -> lower_agrees n A S -> exists L, cholesky_L n A L0 chk = Some (true, L).
Proof. intros n A S L0 chk H Ha. destruct (cholesky_spd n A S L0 chk H Ha) as (L & E & _). eauto. Qed.
Print Assumptions C24_cholesky_spd_succeeds.

(** with checkSingular every matrix that is not positive definite is reported; no root of a
    negative number and no division by zero is reached *)
Theorem C24_cholesky_reports_singular :
  forall n A S L0, symmetric n S -> lower_agrees n A S ->
    (~ SPD n S <-> exists L, cholesky_L n A L0 true = Some (false, L)).
Proof.
  intros n A S L0 Hs Ha. generalize (cholesky_outcome n A L0 true). split.
  - intro Hn. destruct (cholesky_L n A L0 true) as [[[] L]|] eqn:E.
    + exfalso. apply Hn. eapply cholesky_not_spd; eauto.
    + eauto.
    + destruct H as [H _]. discriminate.
  - intros [L E] HS. destruct (cholesky_spd n A S L0 true HS Ha) as (L' & E' & _). congruence.
Qed.
Print Assumptions C24_cholesky_reports_singular.

(** without checkSingular the assertion of line 208 fails exactly on those matrices *)
Theorem C24_cholesky_assertion :
  forall n A S L0, symmetric n S -> lower_agrees n A S -> (~ SPD n S <-> cholesky_L n A L0 false = None).
Proof.
  intros n A S L0 Hs Ha. generalize (cholesky_outcome n A L0 false). split.
  - intro Hn. destruct (cholesky_L n A L0 false) as [[[] L]|] eqn:E; auto.
    + exfalso. apply Hn. eapply cholesky_not_spd; eauto.
    + destruct H as [H _]. discriminate.
  - intros E HS. destruct (cholesky_spd n A S L0 false HS Ha) as (L' & E' & _). congruence.
Qed.
Print Assumptions C24_cholesky_assertion.

(** solving with the factor *)
Theorem C24_spdInvAx :
  forall n A S x junk, symmetric n S -> lower_agrees n A S ->
    (SPD n S -> exists y, spdInvAx n A x junk true = Some (true, y) /\ veq n (mvec n S y) x) /\
    (~ SPD n S -> spdInvAx n A x junk true = Some (false, x)).
Proof. intros n A S x junk Hs Ha. exact (spdInvAx_spec n A S x junk true Hs Ha). Qed.
Print Assumptions C24_spdInvAx.

Theorem C24_spdInvA :
  forall n A S junk, SPD n S -> lower_agrees n A S ->
    exists d G, spdInvA n A junk = Some (d, G) /\ meq n n (mmul n S G) mone /\ meq n n (mmul n G S) mone.
Proof.
  intros n A S junk Hs Ha. destruct (spdInvA_spec n A S junk Hs Ha) as (d & G & E & _ & _ & H & _).
  exists d, G. repeat split; auto. now apply minv_comm.
Qed.
Print Assumptions C24_spdInvA.

(** the remaining products *)
Theorem C24_triangular_products :
  forall n L ret, meq n n (LTL n L ret) (mmul n (mtr (low L)) (low L)) /\ meq n n (LLT n L ret) (mmul n (low L) (mtr (low L))).
Proof.
  intros n L ret. split; intros i j Hi Hj; rewrite ?LTL_spec, ?LLT_spec, (proj2 (Nat.ltb_lt i n)), (proj2 (Nat.ltb_lt j n)) by assumption; reflexivity.
Qed.
Print Assumptions C24_triangular_products.
Theorem C24_triangular_vector :
  forall n L x ret, veq n (Lx n L x ret) (mvec n (low L) x) /\ veq n (LTx n L x ret) (mvec n (mtr (low L)) x).
Proof.
  intros n L x ret. split; intros i Hi; rewrite ?Lx_spec, ?LTx_spec, (proj2 (Nat.ltb_lt i n)) by assumption; reflexivity.
Qed.
Print Assumptions C24_triangular_vector.

(** [4 .; 2 10] = L L^T with L = [2 0; 1 3]; the entry above the diagonal is not read *)
Definition sample : Mat := fun i j =>
  match i, j with 0%nat, 0%nat => 4 | 0%nat, 1%nat => 99 | 1%nat, 0%nat => 2 | 1%nat, 1%nat => 10 | _, _ => 0 end.
Definition sample_factor : Mat := fun i j =>
  match i, j with 0%nat, 0%nat => 2 | 1%nat, 0%nat => 1 | 1%nat, 1%nat => 3 | _, _ => 0 end.
Example C24_example_factor :
  exists L, cholesky_L 2 sample (fun _ _ => 7) true = Some (true, L) /\ L 0%nat 0%nat = 2 /\ L 1%nat 0%nat = 1 /\ L 1%nat 1%nat = 3.
Proof.
  set (S := mmul 2 sample_factor (mtr sample_factor)).
  assert (Ha : lower_agrees 2 sample S).
  { intros i j Hij. unfold S, mmul, mtr. destruct i as [|[|]], j as [|[|]]; try lia; simpl; lra. }
  assert (Hl : meq 2 2 S (mmul 2 (low sample_factor) (mtr (low sample_factor)))).
  { intros i j Hi Hj. unfold S, mmul, mtr, low. destruct i as [|[|]], j as [|[|]]; try lia; simpl; lra. }
  assert (Hd : forall k, (k < 2)%nat -> 0 < sample_factor k k) by (intros [|[|]] Hk; try lia; simpl; lra).
  assert (HS : SPD 2 S).
  { apply (spd_ext 2 _ S (meq_sym _ _ _ _ Hl)). apply gram_spd, low_independent. intros k Hk. apply Rgt_not_eq, Hd, Hk. }
  destruct (C24_cholesky_spd_succeeds 2 sample S (fun _ _ => 7) true HS Ha) as [L E].
  exists L. split; [exact E|].
  assert (U := C24_cholesky_factor_unique 2 sample S _ true L sample_factor (proj1 HS) Ha E).
  rewrite !U; try lia; try exact Hd; try (intros i j _ _; reflexivity); auto.
  all: intros i j Hij; assert (i = 0 /\ j = 1)%nat as [-> ->] by lia; reflexivity.
Qed.
Example C24_example_singular : exists L, cholesky_L 2 (fun _ _ => 1) (fun _ _ => 7) true = Some (false, L).
Proof.
  apply (C24_cholesky_reports_singular 2 (fun _ _ => 1) (fun _ _ => 1)).
  - intros i j _ _. reflexivity.
  - intros i j _. reflexivity.
  - intros [_ H]. assert (Q := H (fun i => match i with 0%nat => 1 | _ => -1 end)).
    unfold qform, mvec in Q. simpl in Q. assert (X : 0 < 0); [|lra].
    eapply Rlt_le_trans; [apply Q; exists 0%nat; split; [lia|lra]|]. lra.
Qed.

(** ** C25 pseudo inverses *)

Theorem C25_right_inverse :
  forall m n A ret j1 j2, (m <= n)%nat -> row_independent m n A ->
    exists d X, rightInvA m n A ret j1 j2 = Some (d, X) /\ meq m m (mmul n A X) mone.
Proof.
  intros m n A ret j1 j2 Hmn Hr. destruct (rightInvA_spec m n A ret j1 j2 Hmn Hr) as (d & X & G & E & _ & _ & HG & HX).
  exists d, X. split; [exact E|]. eapply meq_trans; [apply meq_mulR, HX|]. now apply right_inverse.
Qed.
Print Assumptions C25_right_inverse.

(** X = A^T (A A^T)^-1 *)
Theorem C25_right_inverse_formula :
  forall m n A ret j1 j2 G, (m <= n)%nat -> row_independent m n A ->
    meq m m (mmul m (mmul n A (mtr A)) G) mone ->
    exists d X, rightInvA m n A ret j1 j2 = Some (d, X) /\ meq n m X (mmul m (mtr A) G).
Proof.
  intros m n A ret j1 j2 G Hmn Hr HG'. destruct (rightInvA_spec m n A ret j1 j2 Hmn Hr) as (d & X & G' & E & _ & _ & HG & HX).
  exists d, X. split; [exact E|]. eapply meq_trans; [exact HX|]. apply meq_mulR. now apply (inverse_unique m (mmul n A (mtr A))).
Qed.
Print Assumptions C25_right_inverse_formula.

Theorem C25_right_moore_penrose :
  forall m n A ret j1 j2, (m <= n)%nat -> row_independent m n A ->
    exists d X, rightInvA m n A ret j1 j2 = Some (d, X) /\ moore_penrose m n A X.
Proof.
  intros m n A ret j1 j2 Hmn Hr. destruct (rightInvA_spec m n A ret j1 j2 Hmn Hr) as (d & X & G & E & _ & _ & HG & HX).
  exists d, X. split; [exact E|]. destruct (right_mp HG) as (P1 & P2 & P3 & P4).
  assert (AX : meq m m (mmul n A X) (mmul n A (mmul m (mtr A) G))) by now apply meq_mulR.
  assert (XA : meq n n (mmul m X A) (mmul m (mmul m (mtr A) G) A)) by now apply meq_mulL.
  repeat split.
  - eapply meq_trans; [apply meq_mulL, AX|]. exact P1.
  - eapply meq_trans; [apply meq_mulL, XA|]. eapply meq_trans; [apply meq_mulR, HX|].
    eapply meq_trans; [exact P2|]. now apply meq_sym.
  - intros i j Hi Hj. unfold mtr at 1. rewrite !AX by assumption. now apply P3.
  - intros i j Hi Hj. unfold mtr at 1. rewrite !XA by assumption. now apply P4.
Qed.
Print Assumptions C25_right_moore_penrose.

Theorem C25_left_inverse :
  forall m n A ret j1 j2, (n <= m)%nat -> col_independent m n A ->
    exists d X, leftInvA m n A ret j1 j2 = Some (d, X) /\ meq n n (mmul m X A) mone.
Proof.
  intros m n A ret j1 j2 Hmn Hr. destruct (leftInvA_spec m n A ret j1 j2 Hmn Hr) as (d & X & G & E & _ & _ & HG & HX).
  exists d, X. split; [exact E|]. eapply meq_trans; [apply meq_mulL, HX|]. now apply left_inverse.
Qed.
Print Assumptions C25_left_inverse.

(** X = (A^T A)^-1 A^T, and the returned number is the root of det (A^T A) *)
Theorem C25_left_inverse_formula :
  forall m n A ret j1 j2 G, (n <= m)%nat -> col_independent m n A ->
    meq n n (mmul n (mmul m (mtr A) A) G) mone ->
    exists d X, leftInvA m n A ret j1 j2 = Some (d, X) /\ meq n m X (mmul n G (mtr A)) /\
      0 < d /\ d * d = detR n (mmul m (mtr A) A).
Proof.
  intros m n A ret j1 j2 G Hmn Hr HG'. destruct (leftInvA_spec m n A ret j1 j2 Hmn Hr) as (d & X & G' & E & D1 & D2 & HG & HX).
  exists d, X. split; [exact E|]. split; [|auto]. eapply meq_trans; [exact HX|]. apply meq_mulL. now apply (inverse_unique n (mmul m (mtr A) A)).
Qed.
Print Assumptions C25_left_inverse_formula.

Theorem C25_left_moore_penrose :
  forall m n A ret j1 j2, (n <= m)%nat -> col_independent m n A ->
    exists d X, leftInvA m n A ret j1 j2 = Some (d, X) /\ moore_penrose m n A X.
Proof.
  intros m n A ret j1 j2 Hmn Hr. destruct (leftInvA_spec m n A ret j1 j2 Hmn Hr) as (d & X & G & E & _ & _ & HG & HX).
  exists d, X. split; [exact E|]. destruct (left_mp HG) as (P1 & P2 & P3 & P4).
  assert (AX : meq m m (mmul n A X) (mmul n A (mmul n G (mtr A)))) by now apply meq_mulR.
  assert (XA : meq n n (mmul m X A) (mmul m (mmul n G (mtr A)) A)) by now apply meq_mulL.
  repeat split.
  - eapply meq_trans; [apply meq_mulL, AX|]. exact P1.
  - eapply meq_trans; [apply meq_mulL, XA|]. eapply meq_trans; [apply meq_mulR, HX|].
    eapply meq_trans; [exact P2|]. now apply meq_sym.
  - intros i j Hi Hj. unfold mtr at 1. rewrite !AX by assumption. now apply P3.
  - intros i j Hi Hj. unfold mtr at 1. rewrite !XA by assumption. now apply P4.
Qed.
Print Assumptions C25_left_moore_penrose.

(** the 2x2 branch gives what the general branch would give *)
Theorem C25_special_case_agrees :
  forall A ret j1 j2 ret' j1' j2', row_independent 2 2 A ->
    exists d X d' G', rightInvA 2 2 A ret j1 j2 = Some (d, X) /\
      spdInvA 2 (AAT_L 2 2 A j1') j2' = Some (d', G') /\
      d = d' /\ meq 2 2 X (ATBT 2 2 2 A G' ret').
Proof.
  intros A ret j1 j2 ret' j1' j2' Hr.
  destruct (rightInvA_spec 2 2 A ret j1 j2 ltac:(lia) Hr) as (d & X & G & E & D1 & D2 & HG & HX).
  destruct (spdInvA_spec 2 (AAT_L 2 2 A j1') (mmul 2 A (mtr A)) j2' (gram_spd 2 2 A Hr) (AAT_lower 2 2 A j1' ltac:(lia)))
    as (d' & G' & E' & D1' & D2' & D3' & D4').
  exists d, X, d', G'. repeat split; auto.
  - apply pos_square_eq; [lra|lra|]. rewrite D2. symmetry. exact D2'.
  - eapply meq_trans; [exact HX|]. intros i j Hi Hj.
    rewrite ATBT_spec, (proj2 (Nat.ltb_lt i 2)), (proj2 (Nat.ltb_lt j 2)) by assumption. cbn [andb].
    unfold mmul, mtr. apply rsum_ext. intros k Hk. f_equal.
    rewrite (inverse_unique 2 _ G G' HG D3' k j) by assumption. now rewrite (D4' k j) by assumption.
Qed.
Print Assumptions C25_special_case_agrees.

(** xTRightInvA and leftInvAx: least squares solution, singularity reported *)
Theorem C25_xTRightInvA :
  forall m n A x j1 j2, (m <= n)%nat ->
    (row_independent m n A ->
       exists y, xTRightInvA m n A x j1 j2 = Some (true, y) /\
         veq m (mvec m (mmul n A (mtr A)) y) (mvec n A x) /\
         forall z, residual n m (mtr A) x y <= residual n m (mtr A) x z) /\
    (~ row_independent m n A -> exists y, xTRightInvA m n A x j1 j2 = Some (false, y)).
Proof.
  intros m n A x j1 j2 Hmn. unfold xTRightInvA.
  destruct (spdInvAx_spec m (AAT_L m n A j1) (mmul n A (mtr A)) (mv m n A x) j2 true (gram_sym m n A) (AAT_lower m n A j1 Hmn)) as [H1 H2].
  split.
  - intro Hr. destruct (H1 (gram_spd m n A Hr)) as (y & E & V). exists y. split; [exact E|]. split; [exact V|].
    apply normal_equations. exact V.
  - intro Hr. eexists. apply H2. intro HS. apply Hr. now apply spd_gram.
Qed.
Print Assumptions C25_xTRightInvA.
Theorem C25_leftInvAx :
  forall m n A x j1 j2, (n <= m)%nat ->
    (col_independent m n A ->
       exists y, leftInvAx m n A x j1 j2 = Some (true, y) /\
         veq n (mvec n (mmul m (mtr A) A) y) (mvec m (mtr A) x) /\
         forall z, residual m n A x y <= residual m n A x z) /\
    (~ col_independent m n A -> exists y, leftInvAx m n A x j1 j2 = Some (false, y)).
Proof.
  intros m n A x j1 j2 Hmn. unfold leftInvAx.
  destruct (spdInvAx_spec n (ATA_L m n A j1) (mmul m (mtr A) A) (mtv m n A x) j2 true (gramT_sym m n A) (ATA_lower m n A j1)) as [H1 H2].
  split.
  - intro Hr. destruct (H1 (gramT_spd m n A Hr)) as (y & E & V). exists y. split; [exact E|].
    split; [exact V|]. now apply normal_equations.
  - intro Hr. eexists. apply H2. intro HS. apply Hr. now apply spd_gramT.
Qed.
Print Assumptions C25_leftInvAx.

(** a 1 x 2 matrix: X = (3/25, 4/25) *)
Definition row34 : Mat := fun i j => match i, j with 0%nat, 0%nat => 3 | 0%nat, 1%nat => 4 | _, _ => 0 end.
Lemma row34_independent : row_independent 1 2 row34.
Proof.
  intros x H i Hi. assert (i = 0)%nat by lia. subst. assert (Q := H 0%nat ltac:(lia)).
  unfold mvec, mtr in Q. simpl in Q. lra.
Qed.
Example C25_example : exists d X, rightInvA 1 2 row34 (fun _ _ => 7) (fun _ _ => 8) (fun _ _ => 9) = Some (d, X) /\
  X 0%nat 0%nat = 3 / 25 /\ X 1%nat 0%nat = 4 / 25 /\ d = 5.
Proof.
  destruct (C25_right_inverse_formula 1 2 row34 (fun _ _ => 7) (fun _ _ => 8) (fun _ _ => 9) (fun _ _ => / 25) ltac:(lia) row34_independent)
    as (d & X & E & HX).
  { intros i j Hi Hj. assert (i = 0 /\ j = 0)%nat as [-> ->] by lia. unfold mmul, mtr, mone. simpl. field. }
  exists d, X. split; [exact E|]. rewrite !HX by lia. unfold mmul, mtr. simpl. repeat split; try field.
  destruct (rightInvA_spec 1 2 row34 (fun _ _ => 7) (fun _ _ => 8) (fun _ _ => 9) ltac:(lia) row34_independent) as (d' & X' & G & E' & D1 & D2 & _).
  rewrite E in E'. injection E' as <- _. rewrite detR_1 in D2. unfold mmul, mtr in D2. simpl in D2.
  apply pos_square_eq; lra.
Qed.

(** ** C26 square root of the Gram determinant *)

Theorem C26_sqrtDetAAT :
  forall m n A j1 j2, row_independent m n A ->
    exists s, sqrtDetAAT m n A j1 j2 = Some s /\ 0 <= s /\ s * s = detR m (mmul n A (mtr A)).
Proof. intros m n A j1 j2 H. apply sqrtDetAAT_spec. auto. Qed.
Print Assumptions C26_sqrtDetAAT.

(** the special shapes and the shapes m > n need no rank assumption *)
Theorem C26_sqrtDetAAT_special :
  forall m n A j1 j2, ((m, n) = (2, 2) \/ (m, n) = (3, 3) \/ (m, n) = (2, 3) \/ n < m)%nat ->
    exists s, sqrtDetAAT m n A j1 j2 = Some s /\ 0 <= s /\ s * s = detR m (mmul n A (mtr A)).
Proof. intros m n A j1 j2 H. apply sqrtDetAAT_spec. tauto. Qed.
Print Assumptions C26_sqrtDetAAT_special.

(** every other shape: the assertion fails exactly for dependent rows *)
Theorem C26_sqrtDetAAT_assertion :
  forall m n A j1 j2, (m <= n)%nat -> (m, n) <> (2, 2)%nat -> (m, n) <> (3, 3)%nat -> (m, n) <> (2, 3)%nat ->
    (sqrtDetAAT m n A j1 j2 = None <-> ~ row_independent m n A).
Proof.
  intros m n A j1 j2 Hmn H1 H2 H3. split.
  - intros E Hr. destruct (C26_sqrtDetAAT m n A j1 j2 Hr) as (s & E' & _). congruence.
  - intro Hr. unfold sqrtDetAAT.
    assert (F : forall a b, (m, n) <> (b, a) -> (Nat.eqb n a && Nat.eqb m b)%bool = false).
    { intros a b H. destruct (Nat.eqb_spec n a), (Nat.eqb_spec m b); subst; auto. congruence. }
    rewrite !F by assumption. rewrite (proj2 (Nat.leb_le m n)) by lia. unfold spdDetA.
    rewrite (proj1 (C24_cholesky_assertion m (AAT_L m n A j1) (mmul n A (mtr A)) j2 (gram_sym m n A) (AAT_lower m n A j1 Hmn))); auto.
    intro HS; apply Hr; now apply spd_gram.
Qed.
Print Assumptions C26_sqrtDetAAT_assertion.

(** special cases agree with the Cholesky path *)
Theorem C26_special_agree_with_general :
  forall m n A j1 j2 j1' j2', (m <= n)%nat -> row_independent m n A ->
    exists s, sqrtDetAAT m n A j1 j2 = Some s /\ spdDetA m (AAT_L m n A j1') j2' = Some s.
Proof.
  intros m n A j1 j2 j1' j2' Hmn Hr. destruct (C26_sqrtDetAAT m n A j1 j2 Hr) as (s & E & P & Q).
  destruct (spdDetA_spec m (AAT_L m n A j1') (mmul n A (mtr A)) j2' (gram_spd m n A Hr) (AAT_lower m n A j1' Hmn)) as (d & E' & P' & Q').
  exists s. split; [exact E|]. rewrite E'. f_equal. apply pos_square_eq; try lra. 
Qed.
Print Assumptions C26_special_agree_with_general.

(** rightInvA returns the same number *)
Theorem C26_rightInvA_value :
  forall m n A ret j1 j2 j1' j2', (m <= n)%nat -> row_independent m n A ->
    exists s X, sqrtDetAAT m n A j1 j2 = Some s /\ rightInvA m n A ret j1' j2' = Some (s, X) /\ 0 < s.
Proof.
  intros m n A ret j1 j2 j1' j2' Hmn Hr. destruct (C26_sqrtDetAAT m n A j1 j2 Hr) as (s & E & P & Q).
  destruct (rightInvA_spec m n A ret j1' j2' Hmn Hr) as (d & X & G & E' & P' & Q' & _).
  assert (d = s) by (apply pos_square_eq; lra). subst. eauto.
Qed.
Print Assumptions C26_rightInvA_value.

(** the doc comments of spdDetA, spdInvA and detATA promise the determinant; they return its root *)
Theorem C26_spdDetA_is_root_refuted :
  exists n A, SPD n A /\ forall junk, spdDetA n A junk <> Some (detR n A).
Proof.
  exists 1%nat, (fun _ _ => 4). assert (HS : SPD 1 (fun _ _ => 4)).
  { split; [intros i j _ _; reflexivity|]. intros x (i & Hi & Hx). assert (i = 0)%nat by lia. subst.
    unfold qform, mvec. simpl. assert (0 < x 0%nat * x 0%nat) by (apply Rlt_0_sqr; assumption). nra. }
  split; [exact HS|]. intros junk E.
  destruct (spdDetA_spec 1 (fun _ _ => 4) (fun _ _ => 4) junk HS ltac:(auto)) as (d & E' & P & Q).
  rewrite E in E'. injection E' as E'. rewrite detR_1 in E', Q. subst d. lra.
Qed.
Print Assumptions C26_spdDetA_is_root_refuted.
Theorem C26_detATA_is_root_refuted :
  exists m n A, col_independent m n A /\ forall j1 j2, detATA m n A j1 j2 <> Some (detR n (mmul m (mtr A) A)).
Proof.
  exists 1%nat, 1%nat, (fun _ _ => 2). assert (Hc : col_independent 1 1 (fun _ _ => 2)).
  { intros x H j Hj. assert (j = 0)%nat by lia. subst. assert (Q := H 0%nat ltac:(lia)). unfold mvec in Q. simpl in Q. lra. }
  split; [exact Hc|]. intros j1 j2 E. unfold detATA in E. simpl in E.
  destruct (spdDetA_spec 1 (ATA_L 1 1 (fun _ _ => 2) j1) _ j2 (gramT_spd 1 1 _ Hc) (ATA_lower 1 1 _ j1)) as (d & E' & P & Q).
  rewrite E in E'. injection E' as E'. rewrite detR_1 in E', Q. unfold mmul, mtr in *. simpl in *. subst d. lra.
Qed.
Print Assumptions C26_detATA_is_root_refuted.
(** what they do return *)
Theorem C26_detATA_value :
  forall m n A j1 j2, (n <= m)%nat -> col_independent m n A ->
    exists d, detATA m n A j1 j2 = Some d /\ 0 < d /\ d * d = detR n (mmul m (mtr A) A).
Proof.
  intros m n A j1 j2 Hmn Hc. unfold detATA. rewrite (proj2 (Nat.leb_le n m)) by assumption.
  exact (spdDetA_spec n (ATA_L m n A j1) _ j2 (gramT_spd m n A Hc) (ATA_lower m n A j1)).
Qed.
Print Assumptions C26_detATA_value.

(** the parallelogram spanned by (1,2,2) and (2,1,-2) has area 9 *)
Example C26_example :
  sqrtDetAAT 2 3 (fun i j => match i, j with 0%nat, 0%nat => 1 | 0%nat, _ => 2 | 1%nat, 0%nat => 2 | 1%nat, 1%nat => 1 | _, _ => -2 end)
    (fun _ _ => 0) (fun _ _ => 0) = Some 9.
Proof. unfold sqrtDetAAT. simpl. f_equal. rewrite <- (sqrt_square 9) by lra. f_equal. ring. Qed.
