(** Lemmas for C67: the reference element test accepts what lies near the convex hull; rounding errors. *)
From Coq Require Import PeanoNat NArith ZArith Bool List Reals Lra Lia.
From Flocq Require Import Core Relative IEEE754.BinarySingleNaN.
From Verif Require Import M_Type M_RefTopo M_RefGeo M_Matrix M_Float S_RefGeo S_Matrix P_RSum T_RefGeo P_Float.
Local Open Scope R_scope.

Section Near.
Variables (prec emax : Z).
Context (Hp : Prec_gt_0 prec) (He : Prec_lt_emax prec emax).
Hypothesis H2 : (2 <= prec)%Z.
Notation float := (binary_float prec emax).
Notation u := (bpow radix2 (- prec)).
Notation rnd := (round radix2 (SpecFloat.fexp prec emax) (round_mode mode_NE)).

Lemma near_gen : forall (x : nat -> float) (y delta : nat -> R) (t : float), is_finite t = true ->
  forall d id kappa g (ff : float),
  (forall i, (i < d)%nat -> is_finite (x i) = true /\ Rabs (B2R (x i) - y i) <= delta i) ->
  is_finite ff = true -> g <= 1 -> 0 <= kappa -> Rabs (B2R ff - g) <= kappa ->
  kappa + INR d * u + rsum d delta < B2R t -> kappa + INR d * u + rsum d delta < 1 ->
  (forall tol, 0 < tol -> checkInside id d y tol g = true) ->
  checkInsideF prec emax Hp He id d x t ff = true.
Proof.
  intros x y delta t Ft. induction d as [|d IH]; intros id kappa g ff Fxs Fff L1 K0 Lk Lt L2 H; [reflexivity|].
  destruct (Fxs d (Nat.lt_succ_diag_r d)) as (Fx & Dx).
  assert (Fxr : forall i, (i < d)%nat -> is_finite (x i) = true /\ Rabs (B2R (x i) - y i) <= delta i) by (intros; apply Fxs; lia).
  apply limit_step in H. destruct H as (X0 & X1 & H).
  pose proof (u_pos prec) as U. rewrite S_INR, rsum_S in *.
  assert (Pd : 0 <= INR d * u) by (apply Rmult_le_pos; [apply pos_INR|lra]).
  assert (Ps : 0 <= rsum d delta).
  { apply rsum_nonneg. intros k Hk. destruct (Fxr k Hk) as (_ & Q). eapply Rle_trans; [apply Rabs_pos|exact Q]. }
  pose proof (Rle_trans _ _ _ (Rabs_pos _) Dx) as D0.
  apply Rabs_le_inv in Lk. pose proof Dx as Dx'. apply Rabs_le_inv in Dx'.
  replace ((INR d + 1) * u) with (INR d * u + u) in * by ring.
  set (v := B2R ff - B2R (x d)).
  assert (V : Rabs v < 2) by (apply Rabs_def1; unfold v; lra).
  destruct (fsub_small prec emax Hp He H2 ff (x d) Fff Fx) as (S1 & S2); [fold v; lra|]. fold v in S1.
  pose proof (rnd_err prec emax Hp He H2 v V) as E. apply Rabs_le_inv in E.
  cbn [checkInsideF].
  rewrite (proj2 (gt_finite prec emax (x d) t Fx Ft)) by lra.
  rewrite (proj2 (gt_finite prec emax _ t S2 Ft)) by (rewrite S1; unfold v in *; lra).
  cbn [andb].
  destruct (isPrism id (S d) 0).
  - apply (IH _ kappa g); try assumption; [apply Rabs_le; lra|lra|lra].
  - apply (IH _ (kappa + delta d + u) (g - y d)); try assumption; [lra|lra| |lra|lra].
    rewrite S1. apply Rabs_le. unfold v in *. lra.
Qed.

(** the hull with a neighbourhood *)
Lemma near_hull : (7 <= prec)%Z -> forall id dim (x : nat -> float) (y delta : nat -> R),
  in_hull dim (referenceCorners id dim) y ->
  (forall k, (k < dim)%nat -> is_finite (x k) = true /\ Rabs (B2R (x k) - y k) <= delta k) ->
  INR dim * u + rsum dim delta < 128 * u ->
  re_checkInside prec emax Hp He id dim x = true.
Proof.
  intros H7 id dim x y delta Hy Hx L. pose proof (prec_emax prec emax He) as Q.
  destruct (tol_val prec emax Hp He ltac:(lia) ltac:(lia)) as (T1 & T2).
  destruct (ofZ_1 prec emax Hp He H2) as (O1 & O2). pose proof (u_pos prec) as U.
  apply (near_gen x y delta _ T2 dim id 0 1); try assumption; try lra.
  - rewrite O1, Rminus_diag_eq, Rabs_R0 by reflexivity. lra.
  - assert (u <= bpow radix2 (-7)) by (apply bpow_le; lia).
    replace (bpow radix2 (-7)) with (/ 128) in H by (cbn; reflexivity). lra.
  - now apply C18_zero_tolerance.
Qed.

(** ** rounding with underflow *)
Definition eta : R := bpow radix2 (2 - emax - prec).
Lemma eta_pos : 0 < eta. Proof. apply bpow_gt_0. Qed.
Lemma rnd_rel : forall v, Rabs (rnd v - v) <= u * Rabs v + eta.
Proof.
  intros v.
  destruct (error_N_FLT radix2 (SpecFloat.emin prec emax) prec Hp (fun x => negb (Z.even x)) v) as (e & h & E1 & E2 & _ & E).
  change (round_mode mode_NE) with (Znearest (fun x => negb (Z.even x))).
  change (SpecFloat.fexp prec emax) with (FLT_exp (SpecFloat.emin prec emax) prec). rewrite E.
  replace (v * (1 + e) + h - v) with (v * e + h) by ring.
  eapply Rle_trans; [apply Rabs_triang|]. apply Rplus_le_compat.
  - rewrite Rabs_mult, Rmult_comm. apply Rmult_le_compat_r; [apply Rabs_pos|].
    eapply Rle_trans; [exact E1|]. apply Req_le. replace (/ 2) with (bpow radix2 (-1)) by reflexivity.
    rewrite <- bpow_plus. f_equal. lia.
  - eapply Rle_trans; [exact E2|]. apply Req_le. replace (/ 2) with (bpow radix2 (-1)) by reflexivity.
    rewrite <- bpow_plus. unfold eta. f_equal. unfold SpecFloat.emin. lia.
Qed.
Lemma rnd_bound2 : forall v, Rabs v <= bpow radix2 (emax - 1) -> Rabs (rnd v) < bpow radix2 emax.
Proof.
  intros v H. apply Rle_lt_trans with (bpow radix2 (emax - 1)).
  - apply abs_round_le_generic; [typeclasses eauto..| |exact H].
    apply format_bpow; try assumption. pose proof (prec_emax prec emax He). lia.
  - apply bpow_lt. lia.
Qed.
Lemma fmul_ok : forall a b : float, is_finite a = true -> is_finite b = true ->
  Rabs (B2R a * B2R b) <= bpow radix2 (emax - 1) ->
  B2R (fmul prec emax Hp He a b) = rnd (B2R a * B2R b) /\ is_finite (fmul prec emax Hp He a b) = true.
Proof.
  intros a b Fa Fb L. unfold fmul. pose proof (Bmult_correct prec emax Hp He mode_NE a b) as C.
  rewrite Rlt_bool_true in C by now apply rnd_bound2. destruct C as (C1 & C2 & _).
  split; [exact C1|]. rewrite C2, Fa, Fb. reflexivity.
Qed.
Lemma one_max : 1 <= bpow radix2 (emax - 1).
Proof. change 1 with (bpow radix2 0). apply bpow_le. pose proof (prec_emax prec emax He). lia. Qed.

(** numbers between 0 and 1 *)
Lemma rnd_01 : forall v, 0 <= v <= 1 -> 0 <= rnd v <= 1.
Proof.
  intros v V. split.
  - apply round_ge_generic; [typeclasses eauto..|apply generic_format_0|lra].
  - apply round_le_generic; [typeclasses eauto..|now apply format_1|lra].
Qed.
End Near.
