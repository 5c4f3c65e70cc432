(** Matrix algebra laws for entry functions, obtained from mathcomp. *)
From Coq Require Import Reals.
From mathcomp Require Import all_ssreflect all_algebra.
From Verif Require Import P_Rfield M_RefGeo S_Matrix P_Det.
Set Implicit Arguments.
Unset Strict Implicit.
Unset Printing Implicit Defensive.
Import GRing.Theory.
Delimit Scope R_scope with RR.

Lemma mxR_mul m n p A B : mxR m p (mmul n A B) = (mxR m n A *m mxR n p B)%R.
Proof. by apply/matrixP => i j; rewrite !mxE /mmul rsum_big; apply: eq_bigr => k _; rewrite !mxE. Qed.
Lemma mxR_tr m n A : mxR m n (mtr A) = ((mxR n m A)^T)%R.
Proof. by apply/matrixP => i j; rewrite !mxE. Qed.
Lemma mxR_one n : mxR n n mone = (1%:M)%R.
Proof.
  apply/matrixP => i j; rewrite !mxE /mone.
  have -> : Nat.eqb i j = (i == j) by apply/Nat.eqb_spec/eqP => [/val_inj|->].
  by case: (i == j).
Qed.
Lemma mxR_eq m n A B : mxR m n A = mxR m n B <-> meq m n A B.
Proof.
  split=> [/matrixP H i j /ltP Hi /ltP Hj|H].
  - by have := H (Ordinal Hi) (Ordinal Hj); rewrite !mxE.
  - by apply/matrixP => i j; rewrite !mxE; apply: H; apply/ltP.
Qed.
Lemma minv_comm n A B : meq n n (mmul n A B) mone -> meq n n (mmul n B A) mone.
Proof. by move=> /mxR_eq H; apply/mxR_eq; move: H; rewrite !mxR_mul mxR_one => /mulmx1C. Qed.
(** L N = 1 gives (L L^T) (N^T N) = 1 *)
Lemma gram_inverse n L N : meq n n (mmul n L N) mone ->
  meq n n (mmul n (mmul n L (mtr L)) (mmul n (mtr N) N)) mone.
Proof.
  move=> /mxR_eq H; apply/mxR_eq; move: H; rewrite !mxR_mul (mxR_tr _ _ L) (mxR_tr _ _ N) mxR_one => H.
  have H2 := mulmx1C H. by rewrite mulmxA -(mulmxA (mxR n n L)) -trmx_mul H2 trmx1 mulmx1.
Qed.
Lemma meq_mulL m n p A A' B : meq m n A A' -> meq m p (mmul n A B) (mmul n A' B).
Proof. by move=> /mxR_eq H; apply/mxR_eq; rewrite !mxR_mul H. Qed.
Lemma meq_mulR m n p A B B' : meq n p B B' -> meq m p (mmul n A B) (mmul n A B').
Proof. by move=> /mxR_eq H; apply/mxR_eq; rewrite !mxR_mul H. Qed.
Lemma meq_mulA m n p q A B C : meq m q (mmul n A (mmul p B C)) (mmul p (mmul n A B) C).
Proof. by apply/mxR_eq; rewrite (mxR_mul m n q) (mxR_mul n p q) (mxR_mul m p q) (mxR_mul m n p) mulmxA. Qed.
Lemma meq_trmul m n p A B : meq m p (mtr (mmul n A B)) (mmul n (mtr B) (mtr A)).
Proof. by apply/mxR_eq; rewrite (mxR_tr _ _ (mmul n A B)) !mxR_mul trmx_mul (mxR_tr _ _ A) (mxR_tr _ _ B). Qed.

(** the right pseudo inverse A^T G of A with G = (A A^T)^-1 *)
Section Right.
Variables (m n : nat) (A G : Mat).
Hypothesis HG : meq m m (mmul m (mmul n A (mtr A)) G) mone.
Let M := mxR m n A.
Let GG := mxR m m G.
Let E1 : ((M *m M^T) *m GG = 1%:M)%R.
Proof. by have /mxR_eq := HG; rewrite !mxR_mul (mxR_tr _ _ A) mxR_one. Qed.
Let E2 : (GG *m (M *m M^T) = 1%:M)%R. Proof. exact: mulmx1C E1. Qed.
Lemma right_inverse : meq m m (mmul n A (mmul m (mtr A) G)) mone.
Proof. by apply/mxR_eq; rewrite !mxR_mul (mxR_tr _ _ A) mxR_one mulmxA E1. Qed.
Let Gsym : (GG^T = GG)%R.
Proof.
  have T : (GG^T *m (M *m M^T) = 1%:M)%R by rewrite -[RHS]trmx1 -E1 !trmx_mul trmxK.
  by rewrite -[LHS]mulmx1 -E1 mulmxA T mul1mx.
Qed.
Lemma right_mp : moore_penrose m n A (mmul m (mtr A) G).
Proof.
  have R := proj2 (mxR_eq _ _ _ _) right_inverse; rewrite mxR_mul mxR_one in R.
  repeat split; apply/mxR_eq.
  - by rewrite (mxR_mul m m) (mxR_mul m n m) R mul1mx.
  - by rewrite (mxR_mul n n m) (mxR_mul n m n) -mulmxA R mulmx1.
  - by rewrite (mxR_tr _ _ (mmul n A _)) (mxR_mul m n m) R trmx1.
  - rewrite (mxR_tr _ _ (mmul m _ A)) (mxR_mul n m n) (mxR_mul n m m) (mxR_tr _ _ A) !trmx_mul trmxK.
    by rewrite -/M -/GG Gsym mulmxA.
Qed.
Lemma right_normal : meq m n (mmul m (mmul n A (mtr A)) (mtr (mmul m (mtr A) G))) A.
Proof.
  apply/mxR_eq; rewrite (mxR_mul m m n) (mxR_mul m n m) (mxR_tr _ _ (mmul m _ G)) (mxR_mul n m m) (mxR_tr _ _ A) trmx_mul trmxK.
  by rewrite -/M -/GG Gsym mulmxA E1 mul1mx.
Qed.
End Right.
Section Left.
Variables (m n : nat) (A G : Mat).
Hypothesis HG : meq n n (mmul n (mmul m (mtr A) A) G) mone.
Let M := mxR m n A.
Let GG := mxR n n G.
Let E1 : ((M^T *m M) *m GG = 1%:M)%R.
Proof. by have /mxR_eq := HG; rewrite !mxR_mul (mxR_tr _ _ A) mxR_one. Qed.
Let E2 : (GG *m (M^T *m M) = 1%:M)%R. Proof. exact: mulmx1C E1. Qed.
Lemma left_inverse : meq n n (mmul m (mmul n G (mtr A)) A) mone.
Proof. by apply/mxR_eq; rewrite !mxR_mul (mxR_tr _ _ A) mxR_one -mulmxA E2. Qed.
Lemma left_sym : meq n n (mtr G) G.
Proof.
  apply/mxR_eq; rewrite (mxR_tr _ _ G) -/GG.
  have T : (GG^T *m (M^T *m M) = 1%:M)%R by rewrite -[RHS]trmx1 -E1 !trmx_mul trmxK.
  by rewrite -[LHS]mulmx1 -E1 mulmxA T mul1mx.
Qed.
Lemma left_mp : moore_penrose m n A (mmul n G (mtr A)).
Proof.
  have R := proj2 (mxR_eq _ _ _ _) left_inverse; rewrite mxR_mul mxR_one in R.
  have S := proj2 (mxR_eq _ _ _ _) left_sym; rewrite (mxR_tr _ _ G) in S.
  repeat split; apply/mxR_eq.
  - by rewrite (mxR_mul m m n) (mxR_mul m n m) -mulmxA R mulmx1.
  - by rewrite (mxR_mul n n m) (mxR_mul n m n) R mul1mx.
  - rewrite (mxR_tr _ _ (mmul n A _)) (mxR_mul m n m) (mxR_mul n n m) (mxR_tr _ _ A) !trmx_mul trmxK.
    by rewrite -/M S mulmxA.
  - by rewrite (mxR_tr _ _ (mmul m _ A)) (mxR_mul n m n) R trmx1.
Qed.
End Left.

(** expansion along the first row; explicit small determinants *)
Definition minor0 (A : Mat) (j : nat) : Mat := fun i k => A (S i) (if Nat.ltb k j then k else S k).
Lemma detR_expand n A : detR n.+1 A = rsum n.+1 (fun j => Rmult (Rmult ((-1)^j)%RR (A 0%nat j)) (detR n (minor0 A j))).
Proof.
  rewrite /detR (expand_det_row _ ord0) rsum_big; apply: eq_bigr => j _.
  rewrite mxE /cofactor /= add0n.
  have -> : ((-1) ^+ j : R_fieldType)%R = ((-1)^j)%RR.
  { elim: (j : nat) => [|k IH] /=; first by rewrite expr0. by rewrite exprS IH. }
  have -> : mxR n n (minor0 A j) = (row' ord0 (col' j (mxR n.+1 n.+1 A)))%R.
  { apply/matrixP => i k; rewrite !mxE /minor0 /= /bump leq0n add1n.
    congr (A _ _). case: ltnP => H; case: Nat.ltb_spec => // /leP.
    - by rewrite leqNgt H.
    - by rewrite ltnNge H. }
  by rewrite mulrA; congr (_ * _)%R; rewrite mulrC.
Qed.
Lemma detR_1 A : detR 1 A = A 0%nat 0%nat.
Proof. by rewrite /detR det_mx11 mxE. Qed.
Lemma detR_2 A : detR 2 A = Rminus (Rmult (A 0%nat 0%nat) (A 1%nat 1%nat)) (Rmult (A 0%nat 1%nat) (A 1%nat 0%nat)).
Proof. rewrite detR_expand /= !detR_1 /minor0 /=. Open Scope R_scope. ring. Close Scope R_scope. Qed.
Lemma detR_3 A : detR 3 A = (A 0%nat 0%nat * (A 1%nat 1%nat * A 2%nat 2%nat - A 1%nat 2%nat * A 2%nat 1%nat)
  - A 0%nat 1%nat * (A 1%nat 0%nat * A 2%nat 2%nat - A 1%nat 2%nat * A 2%nat 0%nat)
  + A 0%nat 2%nat * (A 1%nat 0%nat * A 2%nat 1%nat - A 1%nat 1%nat * A 2%nat 0%nat))%RR.
Proof. rewrite detR_expand /= !detR_2 /minor0 /=. Open Scope R_scope. ring. Close Scope R_scope. Qed.
