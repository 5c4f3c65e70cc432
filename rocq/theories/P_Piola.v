(** Determinants of functions that are smooth in collapsed coordinates, and Piola's identity. *)
From Coq Require Import NArith PeanoNat Bool List Lia Reals Lra FunctionalExtensionality.
From Coquelicot Require Import Coquelicot.
From Verif Require Import M_Type M_RefTopo M_RefGeo S_Topo P_RSum P_Det M_Matrix S_Matrix P_MxBridge P_Matrix P_Col1.
Import ListNotations.
Local Open Scope R_scope.

(** the matrix with row [r] replaced *)
Definition row_put (r : nat) (v : nat -> R) (A : Mat) : Mat := fun i j => if Nat.eqb i r then v j else A i j.

Lemma KD_det T n : forall (A : nat -> nat -> Vec -> R) (DA : nat -> nat -> nat -> Vec -> R),
  (forall i j, (i < n)%nat -> (j < n)%nat -> KD T (A i j) (DA i j)) ->
  KD T (fun x => detR n (fun i j => A i j x)) (fun k x => rsum n (fun r => detR n (row_put r (fun j => DA r j k x) (fun i j => A i j x)))).
Proof.
  induction n as [|n IH]; intros A DA H.
  - eapply KD_ext; [| |apply (KD_const T 1)]; intros; cbn [rsum]; rewrite ?detR_0; reflexivity.
  - set (sk := fun j k : nat => if Nat.ltb k j then k else S k).
    assert (SK : forall j k, (k < n)%nat -> (sk j k < S n)%nat) by (intros j k Hk; unfold sk; destruct (Nat.ltb k j); lia).
    eapply KD_ext; [| |apply (KD_rsum T (S n) (fun j x => ((-1)^j * A 0%nat j x) * detR n (fun i k => A (S i) (sk j k) x)))].
    + intro x. cbv beta. rewrite detR_expand. apply rsum_ext. intros j Hj. reflexivity.
    + intros k x Hk. instantiate (1 := fun j k x => (-1)^j * DA 0%nat j k x * detR n (fun i k => A (S i) (sk j k) x)
        + ((-1)^j * A 0%nat j x) * rsum n (fun r => detR n (row_put r (fun c => DA (S r) (sk j c) k x) (fun i c => A (S i) (sk j c) x)))).
      cbv beta. rewrite (rsum_shift n (fun r => detR (S n) (row_put r _ _))). rewrite rsum_plus. f_equal.
      * rewrite detR_expand. apply rsum_ext. intros j Hj. unfold row_put at 1. cbn [Nat.eqb]. f_equal.
      * rewrite (rsum_ext n _ (fun r => rsum (S n) (fun j => ((-1)^j * A 0%nat j x) * detR n (row_put r (fun c => DA (S r) (sk j c) k x) (fun i c => A (S i) (sk j c) x))))).
        2:{ intros r Hr. rewrite detR_expand. apply rsum_ext. intros j Hj. unfold row_put at 1. cbn [Nat.eqb]. f_equal. }
        rewrite rsum_swap. apply rsum_ext. intros j Hj. rewrite rsum_scal. reflexivity.
    + intros j Hj.
      pose proof (KD_mult T _ _ _ _ (KD_scal T ((-1)^j) _ _ (H 0%nat j ltac:(lia) Hj)) (IH (fun i k => A (S i) (sk j k)) (fun i k => DA (S i) (sk j k)) ltac:(intros; apply H; [lia|now apply SK]))) as Q.
      exact Q.
Qed.

Section Rows.
Variable n : nat.

Lemma det_row_sum (A : Mat) j m (a : nat -> R) (v : nat -> nat -> R) : (j < n)%nat ->
  detR n (row_put j (fun k => rsum m (fun i => a i * v i k)) A) = rsum m (fun i => a i * detR n (row_put j (v i) A)).
Proof.
  intro Hj. induction m as [|m IH]; cbn [rsum].
  - rewrite (@detR_rowlin n _ j (fun _ => 0) (fun _ => 0) 0 0 Hj); [ring|]. intros k Hk. unfold row_put. rewrite Nat.eqb_refl. ring.
  - rewrite <- IH. rewrite (@detR_rowlin n _ j (fun k => rsum m (fun i => a i * v i k)) (v m) 1 (a m) Hj).
    + rewrite Rmult_1_l. f_equal; [|f_equal]; apply detR_ext; intros i k Hi Hk; unfold row_put; now destruct (Nat.eqb i j).
    + intros k Hk. unfold row_put. rewrite Nat.eqb_refl. ring.
Qed.
Lemma det_row_comb (A : Mat) j (a w : nat -> R) : (j < n)%nat -> (forall k, (k < n)%nat -> w k = rsum n (fun i => a i * A i k)) ->
  detR n (row_put j w A) = a j * detR n A.
Proof.
  intros Hj E. transitivity (detR n (row_put j (fun k => rsum n (fun i => a i * A i k)) A)).
  { apply detR_ext. intros i k Hi Hk. unfold row_put. destruct (Nat.eqb i j); [now apply E|reflexivity]. }
  rewrite det_row_sum by assumption. rewrite (rsum_ext n _ (fun i => if Nat.eqb i j then a i * detR n A else 0)).
  - now rewrite rsum_delta.
  - intros i Hi. destruct (Nat.eqb_spec i j) as [->|N].
    + f_equal. apply detR_ext. intros i k Hi' Hk. unfold row_put. destruct (Nat.eqb_spec i j) as [->|]; reflexivity.
    + rewrite (@detR_alternate n _ i j); [ring|assumption|assumption|assumption|].
      intros k Hk. unfold row_put. rewrite Nat.eqb_refl. destruct (Nat.eqb_spec i j) as [|_]; [contradiction|reflexivity].
Qed.

Variables (J X : Mat).
Hypothesis XJ : meq n n (mmul n X J) mone.
Lemma row_coef (w : nat -> R) k : (k < n)%nat -> w k = rsum n (fun i => rsum n (fun l => w l * X l i) * J i k).
Proof.
  intro Hk. rewrite (rsum_ext n _ (fun i => rsum n (fun l => w l * (X l i * J i k)))).
  2:{ intros i Hi. rewrite <- rsum_scal_r. apply rsum_ext. intros; ring. }
  rewrite rsum_swap. rewrite (rsum_ext n _ (fun l => if Nat.eqb l k then w l else 0)).
  - now rewrite rsum_delta.
  - intros l Hl. rewrite rsum_scal. pose proof (XJ l k Hl Hk) as Q. unfold mmul, mone in Q. rewrite Q. destruct (Nat.eqb l k); ring.
Qed.
Lemma det_put j (w : nat -> R) : (j < n)%nat -> detR n (row_put j w J) = rsum n (fun l => w l * X l j) * detR n J.
Proof. intro Hj. apply (det_row_comb J j (fun j => rsum n (fun l => w l * X l j)) w Hj). intros k Hk. now apply row_coef. Qed.
(** the flux *)
Lemma det_flux (N w : nat -> R) : rsum n (fun j => N j * detR n (row_put j w J)) = detR n J * rsum n (fun l => w l * rsum n (fun j => X l j * N j)).
Proof.
  rewrite (rsum_ext n _ (fun j => rsum n (fun l => detR n J * (w l * (X l j * N j))))).
  - rewrite rsum_swap, <- rsum_scal. apply rsum_ext. intros l Hl. rewrite <- !rsum_scal. apply rsum_ext. intros; ring.
  - intros j Hj. rewrite det_put by assumption. rewrite <- rsum_scal_r, <- rsum_scal. apply rsum_ext. intros; ring.
Qed.
(** the trace *)
Lemma det_trace (B : nat -> nat -> R) : rsum n (fun j => detR n (row_put j (fun k => rsum n (fun l => J j l * B k l)) J)) = rsum n (fun k => B k k) * detR n J.
Proof.
  rewrite (rsum_ext n _ (fun j => rsum n (fun k => rsum n (fun l => (B k l * (X k j * J j l)) * detR n J)))).
  2:{ intros j Hj. rewrite det_put by assumption. rewrite <- rsum_scal_r. apply rsum_ext. intros k Hk.
      rewrite !rsum_scal_r. f_equal. rewrite <- rsum_scal_r. apply rsum_ext. intros; ring. }
  rewrite rsum_swap, <- rsum_scal_r. apply rsum_ext. intros k Hk. rewrite rsum_swap.
  rewrite (rsum_ext n _ (fun l => if Nat.eqb l k then B k l * detR n J else 0)).
  - now rewrite rsum_delta.
  - intros l Hl. rewrite rsum_scal_r, rsum_scal. pose proof (XJ k l Hk Hl) as Q. unfold mmul, mone in Q. rewrite Q, (Nat.eqb_sym k l). destruct (Nat.eqb l k); ring.
Qed.
End Rows.

(** Piola's identity: second derivatives cancel *)
Lemma rsum_anti n (a : nat -> nat -> R) : (forall i j, (i < n)%nat -> (j < n)%nat -> a i j = - a j i) -> rsum n (fun i => rsum n (fun j => a i j)) = 0.
Proof.
  intro H. assert (E : rsum n (fun i => rsum n (fun j => a i j)) = - rsum n (fun i => rsum n (fun j => a i j))); [|lra].
  rewrite rsum_swap at 1. transitivity ((-1) * rsum n (fun i => rsum n (fun j => a i j))); [|ring]. rewrite <- rsum_scal. apply rsum_ext. intros i Hi.
  rewrite <- rsum_scal. apply rsum_ext. intros j Hj. rewrite (H j i) by assumption. ring.
Qed.
Lemma piola n (J : Mat) (H : nat -> nat -> nat -> R) (F : nat -> R) (DF : nat -> nat -> R) :
  (forall i j k, (i < n)%nat -> (j < n)%nat -> (k < n)%nat -> H i j k = H j i k) ->
  rsum n (fun j => rsum n (fun r => detR n (row_put r (if Nat.eqb r j then DF j else H r j) (row_put j F J))))
  = rsum n (fun j => detR n (row_put j (DF j) J)).
Proof.
  intro Hs.
  rewrite (rsum_ext n _ (fun j => detR n (row_put j (DF j) J) + rsum n (fun r => if Nat.eqb r j then 0 else detR n (row_put r (H r j) (row_put j F J))))).
  - rewrite rsum_plus, rsum_anti; [ring|]. intros j r Hj Hr. rewrite (Nat.eqb_sym j r). destruct (Nat.eqb_spec r j) as [E|N]; [ring|].
    rewrite <- (@detR_swap n _ j r) by auto. apply detR_ext. intros i k Hi Hk. unfold row_put.
    rewrite !Nat.eqb_refl. destruct (Nat.eqb_spec i j) as [->|N1].
    + rewrite (proj2 (Nat.eqb_neq r j) N). rewrite (proj2 (Nat.eqb_neq j r)) by auto. reflexivity.
    + destruct (Nat.eqb_spec i r) as [->|N2].
      * rewrite Hs by assumption. destruct (Nat.eqb_spec j r); [congruence|]. reflexivity.
      * reflexivity.
  - intros j Hj. rewrite <- (rsum_delta n j (fun r => detR n (row_put r (DF j) J))) by assumption. rewrite <- rsum_plus. apply rsum_ext. intros r Hr.
    destruct (Nat.eqb_spec r j) as [->|N]; [|ring]. rewrite Rplus_0_r. apply detR_ext. intros i k Hi Hk. unfold row_put. now destruct (Nat.eqb i j).
Qed.
