(** * C64  The test whether a point lies in the reference element, in floating point *)
From Coq Require Import PeanoNat NArith ZArith Bool List Reals Lra Lia.
From Flocq Require Import Core IEEE754.BinarySingleNaN.
From Verif Require Import M_Type M_RefTopo M_RefGeo M_Float S_RefGeo T_RefGeo P_Float.
Import ListNotations.
Local Open Scope R_scope.

Section C64.
Variables (prec emax : Z).
Context (Hp : Prec_gt_0 prec) (He : Prec_lt_emax prec emax).
Notation float := (binary_float prec emax).
Notation u := (bpow radix2 (- prec)).

(** Any tolerance that exceeds [dim] units of rounding accepts every floating point vector whose
    value lies in the convex hull of the corners. *)
Theorem C64_tolerance :
  (2 <= prec)%Z ->
  forall id dim (x : nat -> float) (tolerance : float),
  is_finite tolerance = true -> INR dim * u < B2R tolerance -> INR dim * u < 2 ->
  (forall k, (k < dim)%nat -> is_finite (x k) = true) ->
  in_hull dim (referenceCorners id dim) (fun k => B2R (x k)) ->
  checkInsideF prec emax Hp He id dim x tolerance (ofZ prec emax Hp He 1) = true.
Proof.
  intros H2 id dim x t Ft Lt L2 Fx H. destruct (ofZ_1 prec emax Hp He H2) as (O1 & O2).
  apply (complete_gen prec emax Hp He H2 x t Ft dim id 0 1); try assumption.
  - rewrite O1. lra.
  - rewrite O1. cbn. lra.
  - now apply C18_zero_tolerance.
Qed.

(** The member function accepts every such vector up to dimension 127. *)
Theorem C64_accepts :
  (7 <= prec)%Z ->
  forall id dim (x : nat -> float), (dim <= 127)%nat ->
  (forall k, (k < dim)%nat -> is_finite (x k) = true) ->
  in_hull dim (referenceCorners id dim) (fun k => B2R (x k)) ->
  re_checkInside prec emax Hp He id dim x = true.
Proof.
  intros H7 id dim x Hd Fx H. pose proof (prec_emax prec emax He) as Q.
  destruct (tol_val prec emax Hp He ltac:(lia) ltac:(lia)) as (T1 & T2).
  apply le_INR in Hd. replace (INR 127) with 127 in Hd by (rewrite INR_IZR_INZ; reflexivity).
  pose proof (u_pos prec) as U.
  apply C64_tolerance; try assumption; [lia| |].
  - rewrite T1. apply Rmult_lt_compat_r; lra.
  - assert (u <= bpow radix2 (-7)) by (apply bpow_le; lia).
    replace (bpow radix2 (-7)) with (/ 128) in H0 by (cbn; reflexivity).
    apply Rle_lt_trans with (127 * / 128); [|lra]. apply Rmult_le_compat; try lra. apply pos_INR.
Qed.

(** What the test accepts: no infinity and no NaN, and only vectors that the exact test accepts
    with a tolerance larger by [dim] units of rounding. *)
Theorem C64_rejects :
  (2 <= prec)%Z ->
  forall id dim (x : nat -> float) (tolerance : float),
  is_finite tolerance = true -> 0 < B2R tolerance -> (INR dim + 1) * (B2R tolerance + u) <= 1 ->
  checkInsideF prec emax Hp He id dim x tolerance (ofZ prec emax Hp He 1) = true ->
  (forall k, (k < dim)%nat -> is_finite (x k) = true)
  /\ checkInside id dim (fun k => B2R (x k)) (B2R tolerance + INR dim * u) 1 = true.
Proof.
  intros H2 id dim x t Ft Pt L H. destruct (ofZ_1 prec emax Hp He H2) as (O1 & O2).
  destruct (sound_gen prec emax Hp He H2 x t dim id 0 1 (ofZ prec emax Hp He 1) Ft Pt O2) as (S1 & S2);
    try assumption.
  - rewrite O1. cbn. lra.
  - rewrite O1. cbn. lra.
  - split; [exact S1|]. apply S2. lia.
Qed.

(** A vector that the member function accepts is near the convex hull. *)
Theorem C64_near :
  (7 <= prec)%Z ->
  forall id dim (x : nat -> float), (INR dim + 1) * 129 * u <= 1 ->
  re_checkInside prec emax Hp He id dim x = true ->
  (forall k, (k < dim)%nat -> is_finite (x k) = true)
  /\ exists y, in_hull dim (referenceCorners id dim) y
     /\ forall k, (k < dim)%nat -> Rabs (B2R (x k) - y k) <= INR dim * ((128 + INR dim) * u).
Proof.
  intros H7 id dim x L H. pose proof (prec_emax prec emax He) as Q.
  destruct (tol_val prec emax Hp He ltac:(lia) ltac:(lia)) as (T1 & T2). pose proof (u_pos prec) as U.
  apply C64_rejects in H; [|lia|exact T2|rewrite T1; lra|rewrite T1; lra].
  destruct H as (H1 & H). split; [exact H1|]. rewrite T1 in H.
  replace (128 * u + INR dim * u) with ((128 + INR dim) * u) in H by ring.
  apply C18_accepted_near_hull in H; [exact H|]. apply Rmult_lt_0_compat; [|exact U].
  pose proof (pos_INR dim). lra.
Qed.

(** A larger tolerance accepts more. *)
Theorem C64_monotone :
  forall id dim (x : nat -> float) (t t' factor : float),
  is_finite t = true -> is_finite t' = true -> B2R t <= B2R t' ->
  checkInsideF prec emax Hp He id dim x t factor = true ->
  checkInsideF prec emax Hp He id dim x t' factor = true.
Proof.
  intros id dim x t t' factor Ft Ft' L. revert id factor.
  assert (G : forall a : float, fgt prec emax a (Bopp t) = true -> fgt prec emax a (Bopp t') = true).
  { intros a. destruct (is_finite a) eqn:Fa.
    - rewrite !gt_finite by assumption. lra.
    - destruct a as [s|[]| |]; try discriminate Fa; destruct t as [[]|[]| |[]], t' as [[]|[]| |[]];
        try discriminate Ft; try discriminate Ft'; intros A; try discriminate A; reflexivity. }
  induction dim as [|d IH]; intros id factor H; [reflexivity|]. cbn [checkInsideF] in *.
  destruct (fgt prec emax (x d) (Bopp t)) eqn:G1; [|discriminate H].
  destruct (fgt prec emax (fsub prec emax Hp He factor (x d)) (Bopp t)) eqn:G2; [|discriminate H].
  apply G in G1, G2. rewrite G1, G2. now apply IH.
Qed.
End C64.
Print Assumptions C64_tolerance.
Print Assumptions C64_accepts.
Print Assumptions C64_rejects.
Print Assumptions C64_near.
Print Assumptions C64_monotone.

(** float and double *)
Lemma p24 : Prec_gt_0 24. Proof. reflexivity. Qed.
Lemma e128 : Prec_lt_emax 24 128. Proof. reflexivity. Qed.
Lemma p53 : Prec_gt_0 53. Proof. reflexivity. Qed.
Lemma e1024 : Prec_lt_emax 53 1024. Proof. reflexivity. Qed.
Definition sgl (m e : Z) : binary_float 24 128 := binary_normalize 24 128 p24 e128 mode_NE m e false.
Definition dbl (m e : Z) : binary_float 53 1024 := binary_normalize 53 1024 p53 e1024 mode_NE m e false.
Definition vec3 {A} (a b c : A) : nat -> A := fun k => match k with O => a | 1%nat => b | _ => c end.

Lemma tetra_in : forall (x : nat -> binary_float 24 128) tol a b c, 0 < tol ->
  B2R (x 0%nat) = a -> B2R (x 1%nat) = b -> B2R (x 2%nat) = c ->
  0 <= a -> 0 <= b -> 0 <= c -> a + b + c <= 1 -> checkInside 0 3 (fun k => B2R (x k)) tol 1 = true.
Proof.
  intros x tol a b c Ht <- <- <- H0 H1 H2 H. cbn. unfold Rltb.
  repeat (destruct (Rlt_dec _ _) as [_|N]; [cbn|exfalso; apply N; lra]). reflexivity.
Qed.
Lemma sgl_value : forall (x : binary_float 24 128) m e,
  B2SF x = SpecFloat.S754_finite false m e -> B2R x = IZR (Z.pos m) * bpow radix2 e.
Proof. intros [s|s| |s m' e' p] m e E; try discriminate E. now injection E as -> -> ->. Qed.
Lemma bpow_25 : bpow radix2 (-25) = / 33554432. Proof. reflexivity. Qed.
Lemma bpow_24 : bpow radix2 (-24) = / 16777216. Proof. reflexivity. Qed.
Lemma bpow_47 : bpow radix2 (-47) = / 140737488355328. Proof. reflexivity. Qed.
Lemma bpow_48 : bpow radix2 (-48) = / 281474976710656. Proof. reflexivity. Qed.

(** A tolerance below the unit of rounding can reject a point of the tetrahedron: the coordinates
    1/2 - 3/2^25, 1/2 and 3/2^25 sum to one. *)
Theorem C64_small_tolerance_refuted :
  exists (x : nat -> binary_float 24 128) (tolerance : binary_float 24 128),
    (forall k, is_finite (x k) = true) /\ 0 < B2R tolerance
    /\ in_hull 3 (referenceCorners 0 3) (fun k => B2R (x k))
    /\ checkInsideF 24 128 p24 e128 0 3 x tolerance (ofZ 24 128 p24 e128 1) = false.
Proof.
  exists (vec3 (sgl (2^24 - 3) (-25)) (sgl 1 (-1)) (sgl 3 (-25))), (sgl 1 (-25)).
  split; [intros [|[|[|k]]]; reflexivity|].
  split.
  { rewrite (sgl_value _ 8388608 (-48)) by reflexivity. rewrite bpow_48. lra. }
  split; [|vm_compute; reflexivity].
  apply C18_zero_tolerance. intros tol Ht.
  apply (tetra_in _ tol _ _ _ Ht
    (sgl_value (sgl (2^24 - 3) (-25)) 16777213 (-25) eq_refl)
    (sgl_value (sgl 1 (-1)) 8388608 (-24) eq_refl)
    (sgl_value (sgl 3 (-25)) 12582912 (-47) eq_refl)); rewrite ?bpow_25, ?bpow_24, ?bpow_47; lra.
Qed.
Print Assumptions C64_small_tolerance_refuted.

(** the same point is accepted by the member function; a NaN, an infinity or a point outside is
    rejected *)
Example C64_example :
  re_checkInside 24 128 p24 e128 0 3 (vec3 (sgl (2^24 - 3) (-25)) (sgl 1 (-1)) (sgl 3 (-25))) = true
  /\ re_checkInside 53 1024 p53 e1024 0 2 (vec3 B754_nan (dbl 0 0) (dbl 0 0)) = false
  /\ re_checkInside 53 1024 p53 e1024 0 2 (vec3 (B754_infinity false) (dbl 0 0) (dbl 0 0)) = false
  /\ re_checkInside 53 1024 p53 e1024 0 2 (vec3 (dbl 3 (-2)) (dbl 3 (-2)) (dbl 0 0)) = false
  /\ re_checkInside 53 1024 p53 e1024 3 2 (vec3 (dbl 3 (-2)) (dbl 3 (-2)) (dbl 0 0)) = true.
Proof. vm_compute. repeat split. Qed.
