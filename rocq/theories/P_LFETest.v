(** Lemmas about the map of test-localfiniteelementgeometry.cc. *)
From Coq Require Import PeanoNat NArith ZArith Bool List Reals Lia Lra.
From Verif Require Import M_Type M_RefTopo M_RefGeo M_Matrix M_Affine M_MultiLinear M_GaussNewton M_LocalFE M_CheckGeo M_MLTest M_LFETest
  S_RefGeo S_Matrix P_RSum P_RefGeo P_Matrix P_Matrix2 P_Det P_MxBridge P_AffineTest.
Import ListNotations.
Local Open Scope R_scope.

(** ** determinants of integer matrices *)
Fixpoint zsum (n : nat) (f : nat -> Z) : Z := match n with O => 0%Z | S n => (zsum n f + f n)%Z end.
Fixpoint zdet (n : nat) (A : nat -> nat -> Z) : Z :=
  match n with
  | O => 1%Z
  | S m => zsum n (fun j => (((-1) ^ Z.of_nat j) * A 0%nat j * zdet m (fun i k => A (S i) (if Nat.ltb k j then k else S k)))%Z)
  end.
Lemma rsum_zsum n : forall f, rsum n (fun j => IZR (f j)) = IZR (zsum n f).
Proof. induction n as [|n IH]; intro f; [reflexivity|]. cbn [zsum]. rewrite rsum_S, IH, plus_IZR. reflexivity. Qed.
Lemma detR_zdet n : forall A, detR n (fun i j => IZR (A i j)) = IZR (zdet n A).
Proof.
  induction n as [|n IH]; intro A; [apply detR_0|]. rewrite detR_expand. cbn [zdet]. rewrite <- rsum_zsum. apply rsum_ext. intros j Hj.
  rewrite !mult_IZR. f_equal; [f_equal|].
  - clear. induction j as [|j IH]; [reflexivity|]. cbn [pow]. rewrite IH, Nat2Z.inj_succ, Z.pow_succ_r, mult_IZR by lia. reflexivity.
  - unfold minor0. exact (IH (fun i k => A (S i) (if Nat.ltb k j then k else S k))).
Qed.

(** ** the matrix 3 - |i - j| *)
Definition lt_Z (i j : nat) : Z := (3 - Z.abs (Z.of_nat i - Z.of_nat j))%Z.
Lemma lt_gram n c : detR n (mmul c (mtr lt_A) (mtr (mtr lt_A))) = IZR (zdet n (fun i j => zsum c (fun k => (lt_Z k i * lt_Z k j)%Z))).
Proof.
  rewrite <- detR_zdet. apply detR_ext. intros i j _ _. rewrite <- rsum_zsum. apply rsum_ext. intros k _. rewrite mult_IZR. reflexivity.
Qed.
(** second differences: -2 on the diagonal *)
Lemma lt_second n (x : Vec) i : (0 < i)%nat ->
  mvec n lt_A x (i - 1)%nat - 2 * mvec n lt_A x i + mvec n lt_A x (S i) = - 2 * (if Nat.ltb i n then x i else 0).
Proof.
  intro Hi. unfold mvec. rewrite <- rsum_scal, <- rsum_minus, <- rsum_plus.
  rewrite (rsum_ext n _ (fun j => if Nat.eqb j i then - 2 * x j else 0)).
  - destruct (Nat.ltb_spec i n) as [L|L]; [now apply (rsum_delta n i (fun j => - 2 * x j))|]. rewrite rsum_0; [ring|]. intros k Hk. destruct (Nat.eqb_spec k i); [lia|reflexivity].
  - intros j Hj. unfold lt_A. destruct (Nat.eqb_spec j i) as [->|N].
    + replace (3 - Z.abs (Z.of_nat (i - 1) - Z.of_nat i))%Z with 2%Z by lia. replace (3 - Z.abs (Z.of_nat i - Z.of_nat i))%Z with 3%Z by lia.
      replace (3 - Z.abs (Z.of_nat (S i) - Z.of_nat i))%Z with 2%Z by lia. ring.
    + replace (3 - Z.abs (Z.of_nat (i - 1) - Z.of_nat j))%Z with (2 * (3 - Z.abs (Z.of_nat i - Z.of_nat j)) - (3 - Z.abs (Z.of_nat (S i) - Z.of_nat j)))%Z by lia.
      rewrite minus_IZR, mult_IZR. ring.
Qed.
Lemma rsum_ends m (f : nat -> R) : (forall i, (0 < i < S m)%nat -> f i = 0) -> rsum (S (S m)) f = f 0%nat + f (S m).
Proof. intro H. rewrite rsum_S, rsum_shift. rewrite rsum_0; [ring|]. intros k Hk. apply H. lia. Qed.
Lemma lt_independent n c : (n <= c)%nat -> ~ (n = 7 /\ c = 7)%nat -> row_independent n c (mtr lt_A).
Proof.
  intros Hn H7 x Hx. change (forall j, (j < c)%nat -> mvec n lt_A x j = 0) in Hx.
  assert (IN : forall i, (0 < i < n)%nat -> (S i < c)%nat -> x i = 0).
  { intros i Hi Hc. pose proof (lt_second n x i ltac:(lia)) as E. rewrite !Hx in E by lia. rewrite (proj2 (Nat.ltb_lt i n)) in E by lia. lra. }
  destruct (Nat.eq_dec n 0) as [->|N0]; [intros; lia|].
  assert (TH : Z.abs (Z.of_nat 0 - Z.of_nat 0) = 0%Z) by reflexivity.
  assert (AL : (forall i, (0 < i < n)%nat -> x i = 0) -> forall i, (i < n)%nat -> x i = 0).
  { intros HI i Hi. destruct i as [|i]; [|apply HI; lia]. pose proof (Hx 0%nat ltac:(lia)) as E. unfold mvec in E. destruct n as [|n]; [lia|]. rewrite rsum_shift in E.
    rewrite rsum_0 in E by (intros k Hk; rewrite HI by lia; ring). unfold lt_A in E. rewrite TH in E. change (3 - 0)%Z with 3%Z in E. lra. }
  destruct (Nat.lt_ge_cases n c) as [L|L]; [apply AL; intros i Hi; apply IN; lia|].
  assert (c = n) by lia. subst c. destruct (Nat.eq_dec n 1) as [->|N1]; [apply AL; intros; lia|].
  apply AL. destruct n as [|[|m]]; [lia|lia|]. intros i Hi. destruct (Nat.lt_ge_cases (S i) (S (S m))) as [L1|L1]; [apply IN; lia|]. replace i with (S m) by lia.
  assert (FM : forall j, (j < S (S m))%nat -> lt_A j 0%nat * x 0%nat + lt_A j (S m) * x (S m) = 0).
  { intros j Hj. rewrite <- (Hx j Hj). unfold mvec. symmetry. apply (rsum_ends m (fun k => lt_A j k * x k)). intros k Hk. rewrite IN by lia. ring. }
  pose proof (FM 0%nat ltac:(lia)) as E0. pose proof (FM (S m) ltac:(lia)) as E1. unfold lt_A in E0, E1. rewrite TH in E0. replace (3 - Z.abs (Z.of_nat (S m) - Z.of_nat (S m)))%Z with 3%Z in E1 by lia.
  replace (3 - Z.abs (Z.of_nat 0 - Z.of_nat (S m)))%Z with (2 - Z.of_nat m)%Z in E0 by lia. replace (3 - Z.abs (Z.of_nat (S m) - Z.of_nat 0))%Z with (2 - Z.of_nat m)%Z in E1 by lia.
  change (3 - 0)%Z with 3%Z in E0. rewrite minus_IZR, <- INR_IZR_INZ in E0, E1.
  assert (D : ((1 + INR m) * (5 - INR m)) * x (S m) = 0) by nra.
  apply Rmult_integral in D. destruct D as [D|D]; [|exact D]. exfalso. pose proof (pos_INR m). assert (INR m = INR 5) by (cbn [INR]; nra). apply INR_eq in H0. apply H7. lia.
Qed.
(** in dimension 7 the sum of the first and the last column is zero *)
Lemma lt_seven j : (j < 7)%nat -> lt_A j 0%nat + lt_A j 6%nat = 0 /\ lt_A 0%nat j + lt_A 6%nat j = 0.
Proof. intro H. do 7 (destruct j as [|j]; [unfold lt_A; rewrite <- !plus_IZR; split; reflexivity|]). lia. Qed.

(** bound for the last coordinate *)
Lemma lt_last n (v : Vec) t : (0 < n <= 4)%nat -> (forall k, (k < n)%nat -> Rabs (mvec n lt_A v k) <= t) -> Rabs (v (n - 1)%nat) <= 2 * t.
Proof.
  intros Hn H. assert (B : forall k, (k < n)%nat -> - t <= mvec n lt_A v k <= t) by (intros k Hk; specialize (H k Hk); unfold Rabs in H; destruct (Rcase_abs _); lra). clear H.
  assert (T : 0 <= t) by (pose proof (B 0%nat ltac:(lia)); lra). apply Rabs_le.
  destruct n as [|[|[|[|[|n]]]]]; try lia; cbn [Nat.sub].
  - pose proof (B 0%nat ltac:(lia)) as B0. unfold mvec, lt_A in *. cbn [rsum] in *. cbn in *. lra.
  - pose proof (B 0%nat ltac:(lia)) as B0. pose proof (B 1%nat ltac:(lia)) as B1. unfold mvec, lt_A in *. cbn [rsum] in *. cbn in *. lra.
  - pose proof (B 0%nat ltac:(lia)) as B0. pose proof (B 1%nat ltac:(lia)) as B1. pose proof (B 2%nat ltac:(lia)) as B2. unfold mvec, lt_A in *. cbn [rsum] in *. cbn in *. lra.
  - pose proof (B 0%nat ltac:(lia)) as B0. pose proof (B 1%nat ltac:(lia)) as B1. pose proof (B 2%nat ltac:(lia)) as B2. pose proof (B 3%nat ltac:(lia)) as B3. unfold mvec, lt_A in *. cbn [rsum] in *. cbn in *. lra.
Qed.

(** ** the corners *)
Lemma lt_corners_value mydim cdim id r : forall n i, (i + n = length (referenceCorners id mydim))%nat ->
  lt_corners mydim cdim id r n i = Some (map (lt_f mydim cdim) (skipn i (referenceCorners id mydim))).
Proof.
  induction n as [|n IH]; intros i H; cbn [lt_corners]; [rewrite skipn_all2 by lia; reflexivity|].
  unfold re_position at 1. rewrite Nat.eqb_refl. rewrite (nth_error_nth' _ vzero) by lia. cbn [obind]. rewrite IH by lia. cbn [obind].
  f_equal. rewrite <- map_cons. f_equal. symmetry. rewrite <- (firstn_skipn i (referenceCorners id mydim)) at 2.
  rewrite app_nth2; rewrite firstn_length_le by lia; [|lia]. rewrite Nat.sub_diag. destruct (skipn i (referenceCorners id mydim)) as [|a l] eqn:E.
  - apply (f_equal (@length Vec)) in E. rewrite skipn_length in E. cbn in E. lia.
  - cbn [nth]. f_equal. clear -E. revert i E. generalize (referenceCorners id mydim). induction l0 as [|b l0 IH]; intros [|i] E; cbn [skipn] in *; try discriminate; [congruence|now apply IH].
Qed.
Lemma lt_f_aff mydim cdim x k : (k < cdim)%nat -> lt_f mydim cdim x k = lt_b k + rsum mydim (fun j => mtr lt_A j k * x j).
Proof. intros _. unfold lt_f, mv, mtr. ring. Qed.
