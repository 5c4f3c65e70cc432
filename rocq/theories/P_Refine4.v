(** Affine maps of the refinement: composition, determinants, images of simplices. *)
From Coq Require Import PeanoNat NArith ZArith Bool List Permutation Reals Factorial Lia Lra FunctionalExtensionality.
From Verif Require Import M_RefTopo M_RefGeo S_RefGeo S_Matrix P_RSum P_RefGeo2 P_Det P_RefDet P_MxBridge M_Refine S_Refine P_Refine1 P_Refine2.
Import ListNotations.
Local Open Scope R_scope.

(** the first [dim] coordinates of G are an affine function of the first [dim] coordinates with
    linear part of determinant [d] *)
Definition affdet (dim : nat) (G : Vec -> Vec) (d : R) : Prop :=
  exists (c : Vec) (M : Mat), (forall x k, (k < dim)%nat -> G x k = c k + rsum dim (fun j => x j * M j k)) /\ detR dim M = d.

Lemma affdet_comp : forall dim G H d e, affdet dim G d -> affdet dim H e -> affdet dim (fun x => G (H x)) (e * d).
Proof.
  intros dim G H d e (c & M & EG & D) (b & N & EH & E).
  exists (fun k => c k + rsum dim (fun j => b j * M j k)), (fun i k => rsum dim (fun j => N i j * M j k)). split.
  - intros x k Hk. rewrite EG by assumption.
    rewrite (rsum_ext dim _ (fun j => b j * M j k + rsum dim (fun i => x i * N i j * M j k))).
    + rewrite rsum_plus, Rplus_assoc. f_equal. f_equal. rewrite rsum_swap. apply rsum_ext. intros i Hi.
      rewrite <- rsum_scal. apply rsum_ext. intros. ring.
    + intros j Hj. rewrite EH by assumption. rewrite Rmult_plus_distr_r. f_equal. rewrite <- rsum_scal_r. reflexivity.
  - rewrite detR_mul, D, E. reflexivity.
Qed.
Lemma affdet_comp1 : forall dim G H, affdet dim G 1 -> affdet dim H 1 -> affdet dim (fun x => G (H x)) 1.
Proof. intros dim G H A B. pose proof (affdet_comp dim G H 1 1 A B) as C. rewrite Rmult_1_l in C. exact C. Qed.
Lemma affdet_ext : forall dim G H d, affdet dim H d -> (forall x k, (k < dim)%nat -> G x k = H x k) -> affdet dim G d.
Proof. intros dim G H d (c & M & EH & D) E. exists c, M. split; [|exact D]. intros. rewrite E by assumption. auto. Qed.
Lemma midentity_eq : forall dim i j, (i < dim)%nat -> midentity dim i j = if Nat.eqb i j then 1 else 0.
Proof. intros. unfold midentity. destruct (Nat.ltb_spec i dim); [|lia]. cbn. rewrite ?(Nat.eqb_sym j i). destruct (Nat.eqb i j); reflexivity. Qed.
Lemma affdet_id : forall dim, affdet dim (fun x => x) 1.
Proof.
  intros dim. exists (fun _ => 0), (midentity dim). split; [|apply detR_midentity]. intros x k Hk.
  rewrite (rsum_ext dim _ (fun j => if Nat.eqb j k then x j else 0)).
  - rewrite rsum_delta by assumption. ring.
  - intros j Hj. rewrite midentity_eq by assumption. destruct (Nat.eqb j k); ring.
Qed.
Lemma rsum_delta_l : forall n i (a : nat -> R), (i < n)%nat -> rsum n (fun k => a k * (if Nat.eqb k i then 1 else 0)) = a i.
Proof.
  intros. rewrite (rsum_ext n _ (fun k => if Nat.eqb k i then a k else 0)) by (intros k Hk; destruct (Nat.eqb k i); ring).
  apply rsum_delta. assumption.
Qed.
(** adding one coordinate to another *)
Lemma affdet_shear : forall dim a b s, (a < dim)%nat -> (b < dim)%nat -> a <> b ->
  affdet dim (fun x => aset x a (x a + s * x b)) 1.
Proof.
  intros dim a b s Ha Hb N.
  exists (fun _ => 0), (fun i j => if Nat.eqb i b then midentity dim i j + s * midentity dim a j else midentity dim i j). split.
  - intros x k Hk.
    rewrite (rsum_ext dim _ (fun j => x j * (if Nat.eqb j k then 1 else 0) + (x j * (s * (if Nat.eqb k a then 1 else 0))) * (if Nat.eqb j b then 1 else 0))).
    + rewrite rsum_plus, !rsum_delta_l by assumption. unfold aset. destruct (Nat.eqb_spec k a); subst; ring.
    + intros j Hj. rewrite !midentity_eq by assumption. rewrite (Nat.eqb_sym k a). destruct (Nat.eqb_spec j b); subst; ring.
  - rewrite detR_add by lia. apply detR_midentity.
Qed.
Lemma detR_diag : forall n c m, (m <= n)%nat -> detR n (fun i j => if Nat.ltb i m then c * midentity n i j else midentity n i j) = c ^ m.
Proof.
  intros n c m. induction m as [|m IH]; intros L.
  - rewrite (detR_ext (B := midentity n)); [apply detR_midentity|]. intros. reflexivity.
  - rewrite (detR_ext (B := fun i j => if Nat.eqb i m then c * (if Nat.ltb i m then c * midentity n i j else midentity n i j)
                                       else if Nat.ltb i m then c * midentity n i j else midentity n i j)).
    + rewrite (detR_scale (fun i j => if Nat.ltb i m then c * midentity n i j else midentity n i j) c) by lia.
      rewrite IH by lia. reflexivity.
    + intros i j Hi Hj. destruct (Nat.eqb_spec i m); destruct (Nat.ltb_spec i m); destruct (Nat.ltb_spec i (S m)); try lia; reflexivity.
Qed.
Lemma affdet_scale : forall dim (o : Vec) n, affdet dim (fun x i => (x i + o i) / n) ((/ n) ^ dim).
Proof.
  intros dim o n. exists (fun k => o k / n), (fun i j => if Nat.ltb i dim then / n * midentity dim i j else midentity dim i j). split.
  - intros x k Hk. rewrite (rsum_ext dim _ (fun j => (x j * / n) * (if Nat.eqb j k then 1 else 0))).
    + rewrite (rsum_delta_l dim k (fun j => x j * / n)) by assumption. unfold Rdiv. ring.
    + intros j Hj. destruct (Nat.ltb_spec j dim); [|lia]. rewrite midentity_eq by assumption. destruct (Nat.eqb j k); ring.
  - apply detR_diag. lia.
Qed.

(** ** the Kuhn transformations *)
Lemma affdet_r2kLoop : forall dim p, isPerm dim p -> forall i, (i < dim)%nat -> affdet dim (r2kLoop Rplus p i) 1.
Proof.
  intros dim p [P1 P2]. induction i as [|i IH]; intros Hi.
  - apply affdet_ext with (H := fun x => x); [apply affdet_id|reflexivity].
  - apply affdet_ext with (H := fun x => r2kLoop Rplus p i (aset x (p i) (x (p i) + 1 * x (p (S i))))).
    + apply (affdet_comp1 dim (r2kLoop Rplus p i) (fun x => aset x (p i) (x (p i) + 1 * x (p (S i))))).
      * apply IH. lia.
      * apply affdet_shear; try (apply P1; lia). intros E. apply P2 in E; lia.
    + intros x k Hk. cbn [r2kLoop]. rewrite Rmult_1_l. reflexivity.
Qed.
Lemma affdet_r2k : forall dim p, isPerm dim p -> affdet dim (fun x => referenceToKuhn Rplus dim x p) 1.
Proof.
  intros dim p H. unfold referenceToKuhn. destruct (Nat.eq_dec dim 0) as [->|].
  - exists (fun _ => 0), (fun _ _ => 0). split; [intros; lia|apply detR_0].
  - apply affdet_r2kLoop; [assumption|lia].
Qed.
Lemma affdet_k2r : forall dim p, isPerm dim p -> affdet dim (fun x => kuhnToReference Rminus dim x p) 1.
Proof.
  intros dim p [P1 P2].
  assert (G : forall n, (n <= dim - 1)%nat ->
    affdet dim (fun x => fold_left (fun point i => aset point (p i) (point (p i) - point (p (S i)))) (seq 0 n) x) 1).
  { induction n as [|n IH]; intros L.
    - apply affdet_ext with (H := fun x => x); [apply affdet_id|reflexivity].
    - apply affdet_ext with (H := fun x => (fun y => aset y (p n) (y (p n) + (-1) * y (p (S n))))
         (fold_left (fun point i => aset point (p i) (point (p i) - point (p (S i)))) (seq 0 n) x)).
      + apply (affdet_comp1 dim (fun y => aset y (p n) (y (p n) + (-1) * y (p (S n))))
           (fun x => fold_left (fun point i => aset point (p i) (point (p i) - point (p (S i)))) (seq 0 n) x)).
        * apply affdet_shear; try (apply P1; lia). intros E. apply P2 in E; lia.
        * apply IH. lia.
      + intros x k Hk. rewrite seq_S, fold_left_app. cbn [fold_left Nat.add].
        set (y := fold_left _ _ _). f_equal. ring. }
  apply G. lia.
Qed.

(** ** images of the reference simplex *)
(** corner i of the reference simplex *)
Definition sc (i : nat) : Vec := fun k => if Nat.eqb i (S k) then 1 else 0.
Lemma affdet_comb : forall dim G d (w : nat -> R) N (v : nat -> Vec), affdet dim G d -> rsum N w = 1 ->
  forall x, (forall j, (j < dim)%nat -> x j = rsum N (fun i => w i * v i j)) ->
  forall k, (k < dim)%nat -> G x k = rsum N (fun i => w i * G (v i) k).
Proof.
  intros dim G d w N v (c & M & E & _) W x X k Hk. rewrite E by assumption.
  rewrite (rsum_ext N _ (fun i => w i * c k + w i * rsum dim (fun j => v i j * M j k))) by (intros; rewrite E by assumption; ring).
  rewrite rsum_plus, rsum_scal_r, W, Rmult_1_l. f_equal.
  rewrite (rsum_ext dim _ (fun j => rsum N (fun i => w i * (v i j * M j k)))).
  - rewrite rsum_swap. apply rsum_ext. intros. rewrite <- rsum_scal. reflexivity.
  - intros j Hj. rewrite X, <- rsum_scal_r by assumption. apply rsum_ext. intros. ring.
Qed.
Lemma affdet_agree : forall dim G d x y, affdet dim G d -> agree dim x y -> agree dim (G x) (G y).
Proof. intros dim G d x y (c & M & E & _) A k Hk. rewrite !E by assumption. f_equal. apply rsum_ext. intros. rewrite A by assumption. reflexivity. Qed.
Lemma sc_sum : forall dim (w : nat -> R) k, (k < dim)%nat -> rsum (S dim) (fun i => w i * sc i k) = w (S k).
Proof.
  intros dim w k Hk. unfold sc. exact (rsum_delta_l (S dim) (S k) w ltac:(lia)).
Qed.
Lemma nth_map_seq {A} : forall (f : nat -> A) n i d, (i < n)%nat -> nth i (map f (seq 0 n)) d = f i.
Proof.
  intros. rewrite (nth_indep _ d (f 0%nat)) by (rewrite map_length, seq_length; assumption).
  rewrite (map_nth f). rewrite seq_nth by assumption. reflexivity.
Qed.
(** with a condition on the weights: Q = (0 <=) or (0 <) *)
Lemma hull_image : forall (Q : R -> Prop) dim G d X, affdet dim G d ->
  (exists w : nat -> R, (forall i, (i < length (map (fun i => G (sc i)) (seq 0 (dim + 1))))%nat -> Q (w i))
     /\ Ssum (length (map (fun i => G (sc i)) (seq 0 (dim + 1)))) w = 1
     /\ forall k, (k < dim)%nat -> X k = Ssum (length (map (fun i => G (sc i)) (seq 0 (dim + 1))))
          (fun i => w i * nth i (map (fun i => G (sc i)) (seq 0 (dim + 1))) (fun _ => 0) k))
  <-> (exists x, ((forall i, (i < dim)%nat -> Q (x i)) /\ Q (1 - Ssum dim x)) /\ agree dim X (G x)).
Proof.
  intros Q dim G d X HG. rewrite map_length, seq_length. rewrite Nat.add_1_r. split.
  - intros (w & W1 & W2 & W3). exists (fun k => w (S k)).
    rewrite Ssum_rsum in W2. rewrite Ssum_rsum. repeat apply conj.
    + intros. apply W1. lia.
    + rewrite rsum_shift in W2. replace (1 - rsum dim (fun k => w (S k))) with (w 0%nat) by lra. apply W1. lia.
    + intros k Hk. rewrite W3 by assumption. rewrite Ssum_rsum.
      rewrite (affdet_comb dim G d w (S dim) sc HG W2) by (auto; intros; symmetry; apply sc_sum; assumption).
      apply rsum_ext. intros i Hi. rewrite nth_map_seq by lia. reflexivity.
  - intros (x & [X1 X2] & A). rewrite Ssum_rsum in X2.
    set (w := fun i => match i with O => 1 - rsum dim x | S i => x i end).
    assert (W2 : rsum (S dim) w = 1) by (rewrite rsum_shift; unfold w; change (fun k => x k) with x; ring).
    exists w. rewrite Ssum_rsum. split; [|split; [exact W2|]].
    + intros [|i] Hi; cbn; [assumption|]. apply X1. lia.
    + intros k Hk. rewrite A by assumption. rewrite Ssum_rsum.
      rewrite (affdet_comb dim G d w (S dim) sc HG W2); auto.
      * apply rsum_ext. intros i Hi. rewrite nth_map_seq by lia. reflexivity.
      * intros j Hj. rewrite sc_sum by assumption. reflexivity.
Qed.

(** ** the simplex and the Kuhn simplices *)
Lemma rsum_perm : forall n p (f : nat -> R), isPerm n p -> rsum n (fun i => f (p i)) = rsum n f.
Proof.
  intros n p f H. rewrite <- !lsum_seq. rewrite <- (lsum_map p f).
  assert (G : forall l l' : list nat, Permutation l l' -> lsum f l = lsum f l').
  { intros l l' P. induction P; [reflexivity| | |congruence].
    - rewrite !lsum_cons. congruence.
    - rewrite !lsum_cons. ring. }
  apply G. apply perm_Permutation. assumption.
Qed.
Lemma r2k_tail : forall dim p x i, isPerm dim p -> (i < dim)%nat ->
  referenceToKuhn Rplus dim x p (p i) = rsum (dim - i) (fun m => x (p (i + m)%nat)).
Proof.
  intros dim p x i H. destruct (r2k_spec Rplus dim p x H) as (A1 & A2 & _).
  assert (G : forall n i, (i + S n)%nat = dim -> referenceToKuhn Rplus dim x p (p i) = rsum (S n) (fun m => x (p (i + m)%nat))).
  { induction n as [|n IH]; intros j E.
    - replace j with (dim - 1)%nat by lia. rewrite A2 by lia. cbn. rewrite Nat.add_0_r. ring.
    - rewrite A1 by lia. rewrite IH by lia. rewrite (rsum_shift (S n)). rewrite Nat.add_0_r. f_equal.
      apply rsum_ext. intros m Hm. f_equal. f_equal. lia. }
  intros Hi. replace (dim - i)%nat with (S (dim - i - 1))%nat by lia. apply G. lia.
Qed.
Lemma r2k_first : forall dim p x, isPerm dim p -> (0 < dim)%nat -> referenceToKuhn Rplus dim x p (p 0%nat) = rsum dim x.
Proof. intros. rewrite r2k_tail by assumption. rewrite Nat.sub_0_r. apply (rsum_perm dim p x). assumption. Qed.
(** the shape of a Kuhn simplex with a condition on the barycentric coordinates *)
Definition kuhnQ (Q : R -> Prop) (dim : nat) (p : nat -> nat) (y : Vec) : Prop :=
  (0 < dim)%nat -> Q (1 - y (p 0%nat)) /\ Q (y (p (dim - 1)%nat)) /\ forall i, (S i < dim)%nat -> Q (y (p i) - y (p (S i))).
Definition simpQ (Q : R -> Prop) (dim : nat) (x : Vec) : Prop :=
  (forall i, (i < dim)%nat -> Q (x i)) /\ Q (1 - Ssum dim x).
Lemma simp_kuhn : forall (Q : R -> Prop) dim p x, Q 1 -> isPerm dim p ->
  (simpQ Q dim x <-> kuhnQ Q dim p (referenceToKuhn Rplus dim x p)).
Proof.
  intros Q dim p x Q1 H. destruct (r2k_spec Rplus dim p x H) as (A1 & A2 & _). unfold simpQ, kuhnQ. rewrite Ssum_rsum. split.
  - intros [X S] Hd. rewrite r2k_first by assumption. repeat apply conj.
    + assumption.
    + rewrite A2 by assumption. apply X. apply H. lia.
    + intros i Hi. rewrite A1 by assumption. replace (_ + _ - _) with (x (p i)) by ring. apply X. apply H. lia.
  - intros K. destruct (Nat.eq_dec dim 0) as [->|N].
    + split; [intros; lia|]. cbn. rewrite Rminus_0_r. assumption.
    + destruct (K ltac:(lia)) as (K1 & K2 & K3). rewrite r2k_first in K1 by (auto; lia). split; [|assumption].
      intros j Hj. destruct (perm_onto dim p H j Hj) as (i & Hi & <-).
      destruct (Nat.eq_dec (S i) dim) as [E|E].
      * assert (i = dim - 1)%nat by lia. subst i. rewrite A2 in K2 by lia. assumption.
      * specialize (K3 i ltac:(lia)). rewrite A1 in K3 by lia.
        replace (_ + _ - _) with (x (p i)) in K3 by ring. assumption.
Qed.
Lemma inSimplex_Q : forall dim x, inSimplex dim x <-> simpQ (Rle 0) dim x.
Proof. intros. unfold inSimplex, simpQ. split; intros [A B]; split; auto; lra. Qed.
Lemma inKuhn_Q : forall dim p y, inKuhn dim p y <-> kuhnQ (Rle 0) dim p y.
Proof.
  intros. unfold inKuhn, kuhnQ. split.
  - intros [A B] Hd. repeat apply conj.
    + pose proof (A 0%nat Hd). lra.
    + apply A. lia.
    + intros i Hi. pose proof (B i Hi). lra.
  - intros K. destruct (Nat.eq_dec dim 0) as [->|N]; [split; intros; lia|].
    destruct (K ltac:(lia)) as (K1 & K2 & K3).
    assert (B : forall i, (S i < dim)%nat -> y (p (S i)) <= y (p i)) by (intros i Hi; specialize (K3 i Hi); lra).
    split; [|assumption].
    assert (U : forall i, (i < dim)%nat -> y (p i) <= 1).
    { induction i as [|i IH]; intros Hi; [lra|]. specialize (B i Hi). specialize (IH ltac:(lia)). lra. }
    assert (L : forall n i, (i + n = dim - 1)%nat -> 0 <= y (p i)).
    { induction n as [|n IH]; intros i E; [replace i with (dim - 1)%nat by lia; lra|].
      specialize (B i ltac:(lia)). specialize (IH (S i) ltac:(lia)). lra. }
    intros i Hi. split; [apply (L (dim - 1 - i)%nat); lia|apply U; assumption].
Qed.
Lemma kuhnQ_agree : forall Q dim p y z, isPerm dim p -> agree dim y z -> kuhnQ Q dim p y -> kuhnQ Q dim p z.
Proof.
  intros Q dim p y z [P _] A K Hd. destruct (K Hd) as (K1 & K2 & K3). rewrite <- !A by (apply P; lia). repeat apply conj; auto.
  intros i Hi. rewrite <- !A by (apply P; lia). auto.
Qed.
