(** The determinant of a matrix given by its entries, taken from mathcomp, and the laws
    of it that are needed, restated for entry functions [nat -> nat -> R]. *)
From Coq Require Import Reals.
From mathcomp Require Import all_ssreflect all_algebra.
From Verif Require Import P_Rfield M_RefGeo.
Set Implicit Arguments.
Unset Strict Implicit.
Unset Printing Implicit Defensive.
Import GRing.Theory.
Delimit Scope R_scope with RR.

Definition mxR (m n : nat) (A : nat -> nat -> R) : 'M[R_fieldType]_(m, n) :=
  (\matrix_(i < m, j < n) A i j)%R.
(** mathcomp's Leibniz determinant of the leading n x n block *)
Definition detR (n : nat) (A : nat -> nat -> R) : R := (\det (mxR n n A))%R.

Lemma rsum_big n (f : nat -> R) : rsum n f = (\sum_(k < n) (f k : R_fieldType))%R.
Proof. elim: n => [|n IH] /=; first by rewrite big_ord0. by rewrite big_ord_recr /= IH. Qed.

Lemma detR_ext n A B : (forall i j, (i < n)%coq_nat -> (j < n)%coq_nat -> A i j = B i j) -> detR n A = detR n B.
Proof.
  move=> H; rewrite /detR; congr (\det _)%R; apply/matrixP => i j; rewrite !mxE.
  by apply: H; apply/ltP.
Qed.

Lemma detR_0 A : detR 0 A = 1%RR.
Proof. by rewrite /detR det_mx00. Qed.

Lemma detR_mul n A B : detR n (fun i j => rsum n (fun k => Rmult (A i k) (B k j))) = Rmult (detR n A) (detR n B).
Proof.
  transitivity (\det (mxR n n A *m mxR n n B))%R; last by rewrite det_mulmx.
  rewrite /detR; congr (\det _)%R; apply/matrixP => i j; rewrite !mxE rsum_big.
  by apply: eq_bigr => k _; rewrite !mxE.
Qed.

Lemma detR_tr n A : detR n (fun i j => A j i) = detR n A.
Proof.
  transitivity (\det (mxR n n A)^T)%R; last by rewrite det_tr.
  by rewrite /detR; congr (\det _)%R; apply/matrixP => i j; rewrite !mxE.
Qed.

(** expansion when the last column is zero above the diagonal *)
Lemma detR_lastcol n A : (forall i, (i < n)%coq_nat -> A i n = 0%RR) ->
  detR n.+1 A = Rmult (detR n A) (A n n).
Proof.
  move=> H; rewrite /detR (expand_det_col _ ord_max) (bigD1 ord_max) //= big1 ?addr0.
  - rewrite /cofactor mxE /= addnn -signr_odd odd_double expr0 mul1r mulrC.
    congr (\det _ * _)%R; apply/matrixP => i j; rewrite !mxE /=.
    by rewrite /bump !(leqNgt n) !ltn_ord /= !add0n.
  - move=> i Hi; rewrite mxE /= H ?mul0r //; apply/ltP.
    by have := ltn_ord i; rewrite ltnS leq_eqVlt => /orP [/eqP E|//]; move/eqP: Hi; case; apply: val_inj.
Qed.

Lemma detR_lastrow n A : (forall j, (j < n)%coq_nat -> A n j = 0%RR) ->
  detR n.+1 A = Rmult (detR n A) (A n n).
Proof.
  move=> H; rewrite -detR_tr detR_lastcol; last by move=> i; apply: H.
  by rewrite detR_tr.
Qed.

(** row operations *)
Lemma detR_rowlin n A i0 (r1 r2 : nat -> R) b c : (i0 < n)%coq_nat ->
  (forall j, (j < n)%coq_nat -> A i0 j = Rplus (Rmult b (r1 j)) (Rmult c (r2 j))) ->
  detR n A = Rplus (Rmult b (detR n (fun i j => if Nat.eqb i i0 then r1 j else A i j)))
                   (Rmult c (detR n (fun i j => if Nat.eqb i i0 then r2 j else A i j))).
Proof.
  move=> /ltP Hi H; rewrite /detR.
  apply: (determinant_multilinear (i0 := Ordinal Hi)).
  - apply/rowP => j; rewrite !mxE /= Nat.eqb_refl H //; by apply/ltP.
  - apply/matrixP => i j; rewrite !mxE /=.
    case: Nat.eqb_spec => // E. exfalso. have := neq_lift (Ordinal Hi) i.
    by move/eqP; apply; apply: val_inj.
  - apply/matrixP => i j; rewrite !mxE /=.
    case: Nat.eqb_spec => // E. exfalso. have := neq_lift (Ordinal Hi) i.
    by move/eqP; apply; apply: val_inj.
Qed.

Lemma detR_alternate n A i1 i2 : (i1 < n)%coq_nat -> (i2 < n)%coq_nat -> i1 <> i2 ->
  (forall j, (j < n)%coq_nat -> A i1 j = A i2 j) -> detR n A = 0%RR.
Proof.
  move=> /ltP H1 /ltP H2 N H; rewrite /detR.
  apply: (determinant_alternate (i1 := Ordinal H1) (i2 := Ordinal H2)).
  - by apply/eqP => E; apply: N; case: E.
  - move=> j; rewrite !mxE /=; apply: H; by apply/ltP.
Qed.

Lemma detR_add n A i1 i2 c : (i1 < n)%coq_nat -> (i2 < n)%coq_nat -> i1 <> i2 ->
  detR n (fun i j => if Nat.eqb i i1 then Rplus (A i j) (Rmult c (A i2 j)) else A i j) = detR n A.
Proof.
  move=> H1 H2 N.
  rewrite (@detR_rowlin n _ i1 (A i1) (A i2) 1%RR c) //; last first.
  { move=> j Hj. rewrite Nat.eqb_refl Rmult_1_l //. }
  rewrite (@detR_alternate n (fun i j => if Nat.eqb i i1 then A i2 j else _) i1 i2) //; last first.
  { move=> j Hj. rewrite Nat.eqb_refl. case: Nat.eqb_spec => // E. }
  rewrite Rmult_0_r Rplus_0_r Rmult_1_l. apply: detR_ext => i j Hi Hj.
  by case: Nat.eqb_spec => [->|].
Qed.

Lemma detR_scale n A i0 c : (i0 < n)%coq_nat ->
  detR n (fun i j => if Nat.eqb i i0 then Rmult c (A i j) else A i j) = Rmult c (detR n A).
Proof.
  move=> H.
  rewrite (@detR_rowlin n _ i0 (A i0) (A i0) c 0%RR) //; last first.
  { move=> j Hj. rewrite Nat.eqb_refl Rmult_0_l Rplus_0_r //. }
  rewrite Rmult_0_l Rplus_0_r. congr Rmult. apply: detR_ext => i j Hi Hj.
  by case: Nat.eqb_spec => [->|].
Qed.

Lemma detR_swap n A i1 i2 : (i1 < n)%coq_nat -> (i2 < n)%coq_nat -> i1 <> i2 ->
  detR n (fun i j => if Nat.eqb i i1 then A i2 j else if Nat.eqb i i2 then A i1 j else A i j)
  = Ropp (detR n A).
Proof.
  move=> /ltP H1 /ltP H2 N. rewrite /detR.
  have E : (mxR n n (fun i j => if Nat.eqb i i1 then A i2 j else if Nat.eqb i i2 then A i1 j else A i j)
            = xrow (Ordinal H1) (Ordinal H2) (mxR n n A))%R.
  { apply/matrixP => i j; rewrite !mxE /=.
    case: Nat.eqb_spec => [E|E1].
    - have -> : i = Ordinal H1 by apply: val_inj. by rewrite perm.tpermL.
    - case: Nat.eqb_spec => [E|E2].
      + have -> : i = Ordinal H2 by apply: val_inj. by rewrite perm.tpermR.
      + rewrite perm.tpermD //; apply/eqP => E; [apply: E1|apply: E2]; by rewrite -E. }
  rewrite E xrowE det_mulmx det_perm perm.odd_tperm.
  have -> : Ordinal H1 != Ordinal H2 by (apply/eqP => -[]).
  by rewrite /= expr1 mulN1r.
Qed.
