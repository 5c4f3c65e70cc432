(** What the geometry classes return at a point, in terms of the value and the transposed
    Jacobian there. *)
From Coq Require Import PeanoNat NArith ZArith Bool List Reals Lia Lra.
From Verif Require Import M_Type M_RefTopo M_RefGeo M_Matrix M_Affine M_MultiLinear M_GaussNewton M_LocalFE
  S_Topo S_RefGeo S_Matrix S_MultiLinear S_Agree P_RSum P_Matrix P_Matrix3 P_Matrix4 P_Matrix5 P_MxBridge P_Det P_ML5 P_Affine T_Matrix.
Import ListNotations.
Local Open Scope R_scope.

Definition pinv (m n : nat) (A X : Mat) (d : R) : Prop :=
  0 < d /\ d * d = detR m (mmul n A (mtr A)) /\
  exists G, meq m m (mmul m (mmul n A (mtr A)) G) mone /\ meq n m X (mmul m (mtr A) G).

Lemma pinv_unique m n A B X Y d e : meq m n A B -> pinv m n A X d -> pinv m n B Y e -> meq n m X Y /\ d = e.
Proof.
  intros E (D1 & D2 & G & HG & HX) (E1 & E2 & G' & HG' & HY). split.
  - apply meq_trans with (mmul m (mtr A) G); [assumption|]. apply meq_sym. apply meq_trans with (mmul m (mtr B) G'); [assumption|].
    assert (GG : meq m m G' G).
    { apply inverse_unique with (mmul n A (mtr A)); [|assumption].
      apply meq_trans with (mmul m (mmul n B (mtr B)) G'); [|assumption]. apply meq_mulL. now apply gram_meq. }
    intros i j Hi Hj. unfold mmul, mtr. apply rsum_ext. intros k Hk. now rewrite E, GG.
  - apply Rsqr_inj; [lra|lra|]. unfold Rsqr. rewrite D2, E2. apply detR_meq. now apply gram_meq.
Qed.
Lemma pinv_exists m n A : (m <= n)%nat -> row_independent m n A -> exists X d, pinv m n A X d.
Proof.
  intros Hm Hr. destruct (rightInvA_spec m n A mzero mzero mzero Hm Hr) as (d & X & G & _ & D1 & D2 & HG & HX).
  exists X, d. split; [exact D1|]. split; [exact D2|]. exists G. auto.
Qed.
Lemma pinv_meq m n A B X d : meq m n A B -> pinv m n A X d -> pinv m n B X d.
Proof.
  intros E (D1 & D2 & G & HG & HX). split; [exact D1|]. split.
  - rewrite D2. apply detR_meq. now apply gram_meq.
  - exists G. split.
    + apply meq_trans with (mmul m (mmul n A (mtr A)) G); [|assumption]. apply meq_mulL. apply gram_meq. now apply meq_sym.
    + apply meq_trans with (mmul m (mtr A) G); [assumption|]. intros i j Hi Hj. unfold mmul, mtr. apply rsum_ext. intros k Hk. now rewrite E.
Qed.
(** the transpose of the inverse of a symmetric matrix *)
Lemma sym_inverse m S G : symmetric m S -> meq m m (mmul m S G) mone -> symmetric m G.
Proof.
  intros HS HG. apply inverse_unique with S; [assumption|].
  assert (Q : meq m m (mmul m G S) mone) by now apply minv_comm. intros i j Hi Hj.
  transitivity (mmul m G S j i).
  - unfold mmul, mtr. apply rsum_ext. intros k Hk. rewrite (HS i k Hi Hk). unfold mtr. ring.
  - rewrite Q by assumption. unfold mone. now rewrite Nat.eqb_sym.
Qed.
Lemma gram_sym m n A : symmetric m (mmul n A (mtr A)).
Proof. intros i j Hi Hj. unfold mtr, mmul. apply rsum_ext. intros. ring. Qed.

Lemma right_value m n A B X d ret j1 j2 : (m <= n)%nat -> row_independent m n A -> meq m n B A -> pinv m n A X d ->
  exists Y, rightInvA m n B ret j1 j2 = Some (d, Y) /\ meq n m Y X.
Proof.
  intros Hm Hr E P. assert (HrB := rowind_meq _ _ _ _ (meq_sym _ _ _ _ E) Hr).
  destruct (rightInvA_spec m n B ret j1 j2 Hm HrB) as (e & Y & G & E1 & D1 & D2 & HG & HY).
  assert (Q : pinv m n B Y e) by (split; [exact D1|split; [exact D2|exists G; auto]]).
  destruct (pinv_unique _ _ _ _ _ _ _ _ E Q P) as [Q1 ->]. exists Y. auto.
Qed.
Lemma left_value m n A J X d ret j1 j2 : (m <= n)%nat -> row_independent m n A -> meq n m J (mtr A) -> pinv m n A X d ->
  exists Y, leftInvA n m J ret j1 j2 = Some (d, Y) /\ meq m n Y (mtr X).
Proof.
  intros Hm Hr E P.
  assert (EB : meq m n (mtr J) A) by (intros i j Hi Hj; unfold mtr; rewrite E by assumption; reflexivity).
  assert (HrB := rowind_meq _ _ _ _ (meq_sym _ _ _ _ EB) Hr).
  assert (HC : col_independent n m J).
  { intros v Hv. apply HrB. intros j Hj. unfold mtr. now apply Hv. }
  destruct (leftInvA_spec n m J ret j1 j2 Hm HC) as (e & Y & G & E1 & D1 & D2 & HG & HY).
  assert (GS : symmetric m G).
  { apply (sym_inverse m (mmul n (mtr J) J)); [|assumption]. apply (gram_sym m n (mtr J)). }
  assert (Q : pinv m n (mtr J) (mtr Y) e).
  { split; [exact D1|]. split; [exact D2|]. exists G. split; [exact HG|].
    intros i j Hi Hj. unfold mtr at 1. rewrite HY by assumption. unfold mmul, mtr. apply rsum_ext. intros k Hk.
    rewrite (GS j k Hj Hk). unfold mtr. ring. }
  destruct (pinv_unique _ _ _ _ _ _ _ _ EB Q P) as [Q1 ->]. exists Y. split; [exact E1|].
  intros i j Hi Hj. unfold mtr. rewrite <- Q1 by assumption. reflexivity.
Qed.
Lemma sqrt_value m n A B X d j1 j2 : row_independent m n A -> meq m n B A -> pinv m n A X d -> sqrtDetAAT m n B j1 j2 = Some d.
Proof.
  intros Hr E (D1 & D2 & _). destruct (C26_sqrtDetAAT m n B j1 j2 (rowind_meq _ _ _ _ (meq_sym _ _ _ _ E) Hr)) as (s & E1 & P & Q).
  rewrite E1. f_equal. apply Rsqr_inj; [lra|lra|]. unfold Rsqr. rewrite D2, Q. apply detR_meq. now apply gram_meq.
Qed.

Section V.
Variables (mydim cdim : nat).
(** the members of g at x for the value y, the transposed Jacobian A and its inverse *)
Definition std_at (g : GeoI) (x y : Vec) (A X : Mat) (d : R) : Prop :=
  (exists u, gi_global g x = Some u /\ veq cdim u y) /\
  (exists u, gi_jacobian g x = Some u /\ meq cdim mydim u (mtr A)) /\
  (exists u, gi_jacobianTransposed g x = Some u /\ meq mydim cdim u A) /\
  (exists u, gi_jacobianInverse g x = Some u /\ meq mydim cdim u (mtr X)) /\
  (exists u, gi_jacobianInverseTransposed g x = Some u /\ meq cdim mydim u X) /\
  gi_integrationElement g x = Some d.
Lemma std_agree g h x y A X d : std_at g x y A X d -> std_at h x y A X d -> agree_at mydim cdim g h x.
Proof.
  intros ((u1 & E1 & V1) & (u2 & E2 & V2) & (u3 & E3 & V3) & (u4 & E4 & V4) & (u5 & E5 & V5) & E6)
         ((v1 & F1 & W1) & (v2 & F2 & W2) & (v3 & F3 & W3) & (v4 & F4 & W4) & (v5 & F5 & W5) & F6).
  split; [|split; [|split; [|split; [|split]]]].
  - exists u1, v1. repeat split; auto. intros k Hk. now rewrite V1, W1.
  - exists u2, v2. repeat split; auto. eapply meq_trans; [eassumption|now apply meq_sym].
  - exists u3, v3. repeat split; auto. eapply meq_trans; [eassumption|now apply meq_sym].
  - exists u4, v4. repeat split; auto. eapply meq_trans; [eassumption|now apply meq_sym].
  - exists u5, v5. repeat split; auto. eapply meq_trans; [eassumption|now apply meq_sym].
  - exists d, d. auto.
Qed.

Hypothesis Hd : (mydim <= cdim)%nat.
Variables (x y : Vec) (A X : Mat) (d : R).
Hypothesis HR : row_independent mydim cdim A.
Hypothesis HP : pinv mydim cdim A X d.

Lemma ml_std tol jv jm jk j1 j2 g u J :
  mlg_global mydim cdim tol jv g x = Some u -> veq cdim u y ->
  mlg_jacobianTransposed mydim cdim tol jm jk g x = Some J -> meq mydim cdim J A ->
  std_at (gi_ml mydim cdim tol jv jm jk j1 j2 g) x y A X d.
Proof.
  intros E1 V1 E2 V2. unfold std_at. cbn [gi_ml gi_global gi_jacobian gi_jacobianTransposed gi_jacobianInverse gi_jacobianInverseTransposed gi_integrationElement].
  destruct (right_value mydim cdim A J X d jm j1 j2 Hd HR V2 HP) as (Y & EY & VY).
  assert (EI : mlg_jacobianInverseTransposed mydim cdim tol jm jk j1 j2 g x = Some (d, Y)) by (unfold mlg_jacobianInverseTransposed; rewrite E2; exact EY).
  split; [exists u; auto|]. split; [|split; [exists J; auto|split; [|split]]].
  - eexists. unfold mlg_jacobian. rewrite E2. split; [reflexivity|]. intros i j Hi Hj. unfold mtr. now apply V2.
  - eexists. unfold mlg_jacobianInverse. rewrite EI. split; [reflexivity|]. intros i j Hi Hj. unfold mtr. now apply VY.
  - eexists. rewrite EI. split; [reflexivity|]. exact VY.
  - unfold mlg_integrationElement. rewrite E2. cbn [obind]. now apply (sqrt_value mydim cdim A J X d).
Qed.

Lemma lf_std tol junk ret j1 j2 rule o g u J :
  lf_global cdim g x = Some u -> veq cdim u y ->
  lf_jacobian mydim cdim g x = Some J -> meq cdim mydim J (mtr A) ->
  std_at (gi_lf mydim cdim tol junk ret j1 j2 rule o g) x y A X d.
Proof.
  intros E1 V1 E2 V2. unfold std_at. cbn [gi_lf gi_global gi_jacobian gi_jacobianTransposed gi_jacobianInverse gi_jacobianInverseTransposed gi_integrationElement].
  destruct (left_value mydim cdim A J X d ret j1 j2 Hd HR V2 HP) as (Y & EY & VY).
  assert (EI : lf_jacobianInverse mydim cdim ret j1 j2 g x = Some Y) by (unfold lf_jacobianInverse; rewrite E2; cbn [obind]; rewrite EY; reflexivity).
  assert (V3 : meq mydim cdim (fun i j => J j i) A) by (intros i j Hi Hj; rewrite V2 by assumption; reflexivity).
  split; [exists u; auto|]. split; [exists J; auto|]. split; [|split; [exists Y; auto|split]].
  - eexists. unfold lf_jacobianTransposed. rewrite E2. split; [reflexivity|exact V3].
  - eexists. unfold lf_jacobianInverseTransposed. rewrite EI. split; [reflexivity|]. intros i j Hi Hj. rewrite VY by assumption. reflexivity.
  - unfold lf_integrationElement, lf_jacobianTransposed. rewrite E2. cbn [obind option_map]. now apply (sqrt_value mydim cdim A _ X d).
Qed.

Lemma mg_std gdim ret j1 j2 rule o g u J :
  mg_global g x = Some u -> veq cdim u y ->
  mg_jacobian gdim g x = Some J -> meq cdim mydim J (mtr A) ->
  std_at (gi_mg mydim cdim gdim ret j1 j2 rule o g) x y A X d.
Proof.
  intros E1 V1 E2 V2. unfold std_at. cbn [gi_mg gi_global gi_jacobian gi_jacobianTransposed gi_jacobianInverse gi_jacobianInverseTransposed gi_integrationElement].
  destruct (left_value mydim cdim A J X d ret j1 j2 Hd HR V2 HP) as (Y & EY & VY).
  assert (EI : mg_jacobianInverse mydim gdim cdim ret j1 j2 g x = Some Y) by (unfold mg_jacobianInverse; rewrite E2; cbn [obind]; rewrite EY; reflexivity).
  assert (V3 : meq mydim cdim (fun i j => J j i) A) by (intros i j Hi Hj; rewrite V2 by assumption; reflexivity).
  split; [exists u; auto|]. split; [exists J; auto|]. split; [|split; [exists Y; auto|split]].
  - eexists. unfold mg_jacobianTransposed. rewrite E2. split; [reflexivity|exact V3].
  - eexists. unfold mg_jacobianInverseTransposed. rewrite EI. split; [reflexivity|]. intros i j Hi Hj. rewrite VY by assumption. reflexivity.
  - unfold mg_integrationElement, mg_jacobianTransposed. rewrite E2. cbn [obind option_map]. now apply (sqrt_value mydim cdim A _ X d).
Qed.

Lemma ag_std id r o ret j1 j2 g : affine_from_jacobian mydim cdim id r o A ret j1 j2 = Some g ->
  veq cdim (ag_global mydim g x) y -> std_at (gi_ag mydim g) x y A X d.
Proof.
  intros E V. unfold affine_from_jacobian in E.
  destruct (right_value mydim cdim A A X d ret j1 j2 Hd HR (fun i j _ _ => eq_refl) HP) as (Y & EY & VY).
  rewrite EY in E. cbn [obind] in E. injection E as <-.
  unfold std_at. cbn [gi_ag gi_global gi_jacobian gi_jacobianTransposed gi_jacobianInverse gi_jacobianInverseTransposed gi_integrationElement].
  unfold ag_jacobian, ag_jacobianTransposed, ag_jacobianInverse, ag_jacobianInverseTransposed, ag_integrationElement. cbn [ag_jt ag_jit ag_intel].
  split; [eexists; split; [reflexivity|exact V]|]. split; [eexists; split; [reflexivity|intros i j _ _; reflexivity]|].
  split; [eexists; split; [reflexivity|intros i j _ _; reflexivity]|].
  split; [eexists; split; [reflexivity|intros i j Hi Hj; unfold mtr; now apply VY]|]. split; [exists Y; auto|reflexivity].
Qed.
End V.
