(** Rounding in the floating point models: errors of single operations, no overflow on small
    values, and the reference element test compared with its exact counterpart. *)
From Coq Require Import PeanoNat NArith ZArith Bool List Reals Lra Lia.
From Flocq Require Import Core IEEE754.BinarySingleNaN.
From Verif Require Import M_Type M_RefTopo M_RefGeo M_Float.
Import ListNotations.
Local Open Scope R_scope.

Section FP.
Variables (prec emax : Z).
Context (Hp : Prec_gt_0 prec) (He : Prec_lt_emax prec emax).
Hypothesis H2 : (2 <= prec)%Z.
Notation float := (binary_float prec emax).
Notation fexp := (SpecFloat.fexp prec emax).
Notation rnd := (round radix2 fexp (round_mode mode_NE)).
Notation u := (bpow radix2 (- prec)).

Local Instance vexp : Valid_exp fexp := fexp_correct prec emax Hp.
Local Instance mexp : Monotone_exp fexp.
Proof. intros a b H. unfold SpecFloat.fexp. lia. Qed.

Lemma prec_emax : (prec < emax)%Z.
Proof. exact He. Qed.
Lemma u_pos : 0 < u.
Proof. apply bpow_gt_0. Qed.

Lemma format_bpow : forall e, (3 - emax - prec <= e)%Z -> generic_format radix2 fexp (bpow radix2 e).
Proof.
  intros e H. apply generic_format_bpow. pose proof prec_emax. unfold SpecFloat.fexp, SpecFloat.emin. lia.
Qed.
Lemma format_1 : generic_format radix2 fexp 1.
Proof. pose proof prec_emax. change 1 with (bpow radix2 0). apply format_bpow. lia. Qed.
Lemma format_2 : generic_format radix2 fexp 2.
Proof. pose proof prec_emax. change 2 with (bpow radix2 1). apply format_bpow. lia. Qed.

(** the error of rounding a number below 2 *)
Lemma rnd_err : forall v, Rabs v < 2 -> Rabs (rnd v - v) <= u.
Proof.
  intros v H. destruct (Req_dec v 0) as [->|N].
  { rewrite round_0 by typeclasses eauto. rewrite Rminus_0_r, Rabs_R0. apply Rlt_le, u_pos. }
  eapply Rle_trans; [apply error_le_half_ulp; typeclasses eauto|].
  rewrite ulp_neq_0 by exact N.
  assert (E : (cexp radix2 fexp v <= 1 - prec)%Z).
  { etransitivity; [apply (cexp_le_bpow radix2 fexp v 1 N)|]; [exact H|].
    pose proof prec_emax. unfold SpecFloat.fexp, SpecFloat.emin. lia. }
  apply (bpow_le radix2) in E.
  replace (1 - prec)%Z with (1 + - prec)%Z in E by lia. rewrite bpow_plus in E.
  change (bpow radix2 1) with 2 in E. lra.
Qed.
Lemma rnd_bound : forall v, Rabs v <= 2 -> Rabs (rnd v) < bpow radix2 emax.
Proof.
  intros v H. apply Rle_lt_trans with 2.
  - apply abs_round_le_generic; [typeclasses eauto..|apply format_2|exact H].
  - change 2 with (bpow radix2 1). apply bpow_lt. pose proof prec_emax. lia.
Qed.

(** a difference without overflow *)
Lemma fsub_small : forall a b : float, is_finite a = true -> is_finite b = true ->
  Rabs (B2R a - B2R b) <= 2 ->
  B2R (fsub prec emax Hp He a b) = rnd (B2R a - B2R b) /\ is_finite (fsub prec emax Hp He a b) = true.
Proof.
  intros a b Fa Fb H. unfold fsub.
  pose proof (Bminus_correct prec emax Hp He mode_NE a b Fa Fb) as C.
  rewrite Rlt_bool_true in C by now apply rnd_bound. now destruct C as (C1 & C2 & _).
Qed.

Lemma B2SF_inf : forall (a : float) s, B2SF a = SpecFloat.S754_infinity s -> a = B754_infinity s.
Proof. intros [s'|s'| |s' m e p] s E; try discriminate E. injection E as ->. reflexivity. Qed.

Lemma gt_finite : forall a t : float, is_finite a = true -> is_finite t = true ->
  fgt prec emax a (Bopp t) = true <-> - B2R t < B2R a.
Proof.
  intros a t Fa Ft. unfold fgt. rewrite Bltb_correct; [|now rewrite is_finite_Bopp|exact Fa].
  rewrite B2R_Bopp. destruct (Rlt_bool_spec (- B2R t) (B2R a)); split; intros; try easy; lra.
Qed.

(** ** accepted in exact arithmetic, hence accepted *)
Lemma limit_nonneg : forall v, (forall tol, 0 < tol -> - tol < v) -> 0 <= v.
Proof. intros v H. destruct (Rle_dec 0 v) as [L|L]; [exact L|]. specialize (H (- v)). lra. Qed.
Lemma limit_step : forall id d (x : nat -> R) f,
  (forall tol, 0 < tol -> checkInside id (S d) x tol f = true) ->
  0 <= x d /\ 0 <= f - x d
  /\ forall tol, 0 < tol ->
     checkInside (baseTopologyId id (S d) 1) d x tol (if isPrism id (S d) 0 then f else f - x d) = true.
Proof.
  intros id d x f H. unfold checkInside in H; fold checkInside in H. unfold Rltb in H.
  repeat split.
  - apply limit_nonneg. intros tol Ht. specialize (H tol Ht).
    destruct (Rlt_dec (- tol) (x d)); [assumption|discriminate H].
  - apply limit_nonneg. intros tol Ht. specialize (H tol Ht).
    destruct (Rlt_dec (- tol) (x d)), (Rlt_dec (- tol) (f - x d)); try assumption; discriminate H.
  - intros tol Ht. specialize (H tol Ht).
    destruct (Rlt_dec (- tol) (x d)), (Rlt_dec (- tol) (f - x d)); try exact H; discriminate H.
Qed.

Lemma complete_gen : forall (x : nat -> float) (t : float), is_finite t = true ->
  forall d id k f (ff : float),
  (forall i, (i < d)%nat -> is_finite (x i) = true) ->
  is_finite ff = true -> B2R ff <= 1 -> f - INR k * u <= B2R ff ->
  INR (k + d) * u < B2R t -> INR (k + d) * u < 2 ->
  (forall tol, 0 < tol -> checkInside id d (fun i => B2R (x i)) tol f = true) ->
  checkInsideF prec emax Hp He id d x t ff = true.
Proof.
  intros x t Ft. induction d as [|d IH]; intros id k f ff Fxs Fff L1 Lk Lt L2 H; [reflexivity|].
  pose proof (Fxs d (Nat.lt_succ_diag_r d)) as Fx.
  assert (Fxr : forall i, (i < d)%nat -> is_finite (x i) = true) by (intros; apply Fxs; lia).
  apply limit_step in H. destruct H as (X0 & X1 & H). cbn beta in X0, X1.
  pose proof u_pos as U.
  assert (Ik : INR (k + S d) = INR k + (INR d + 1)) by (now rewrite plus_INR, S_INR).
  pose proof (pos_INR d) as Pd. pose proof (pos_INR k) as Pk.
  assert (Pdu : 0 <= INR d * u) by (apply Rmult_le_pos; lra).
  assert (Pku : 0 <= INR k * u) by (apply Rmult_le_pos; lra).
  rewrite Ik in *.
  replace ((INR k + (INR d + 1)) * u) with (INR k * u + INR d * u + u) in * by ring.
  set (v := B2R ff - B2R (x d)).
  assert (V : Rabs v < 2) by (apply Rabs_def1; unfold v; lra).
  destruct (fsub_small ff (x d) Fff Fx) as (S1 & S2); [fold v; lra|]. fold v in S1.
  pose proof (rnd_err v V) as E. apply Rabs_le_inv in E.
  assert (G : B2R (fsub prec emax Hp He ff (x d)) <= 1).
  { rewrite S1. apply round_le_generic; [typeclasses eauto..|apply format_1|]. unfold v. lra. }
  cbn [checkInsideF].
  rewrite (proj2 (gt_finite (x d) t Fx Ft)) by lra.
  rewrite (proj2 (gt_finite _ t S2 Ft)) by (rewrite S1; unfold v in *; lra).
  cbn [andb].
  destruct (isPrism id (S d) 0).
  - apply (IH _ k f); try assumption; rewrite plus_INR; lra.
  - apply (IH _ (S k) (f - B2R (x d))); try assumption.
    + rewrite S1, S_INR. unfold v in *. lra.
    + rewrite plus_INR, S_INR. lra.
    + rewrite plus_INR, S_INR. lra.
Qed.

(** ** accepted, hence accepted in exact arithmetic with a slightly larger tolerance *)
Lemma fsub_big : forall ff a t : float, is_finite ff = true -> is_finite t = true ->
  0 < B2R t -> fgt prec emax a (Bopp t) = true -> Rabs (B2R ff) + B2R t <= 2 ->
  fgt prec emax (fsub prec emax Hp He ff a) (Bopp t) = true ->
  is_finite a = true /\ - B2R t < B2R a /\ Rabs (B2R ff - B2R a) <= 2.
Proof.
  intros ff a t Fff Ft Pt Ga L Gs.
  assert (Fa : is_finite a = true).
  { destruct a as [s|s| |s m e p]; try reflexivity.
    - destruct s; [destruct t as [[]|[]| |[]]; discriminate Ga|].
      destruct ff as [s|s| |s m e p]; try discriminate Fff; destruct t as [[]|[]| |[]]; discriminate Gs.
    - destruct t as [[]|[]| |[]]; discriminate Ga. }
  assert (La : - B2R t < B2R a) by now apply (gt_finite a t).
  assert (Lf : - (2 - B2R t) <= B2R ff <= 2 - B2R t) by (apply Rabs_le_inv; lra).
  split; [exact Fa|split; [exact La|]]. apply Rabs_le.
  split; [|lra]. apply Rnot_lt_le. intros N.
  unfold fsub in Gs. pose proof (Bminus_correct prec emax Hp He mode_NE ff a Fff Fa) as C.
  assert (Pa : 0 < B2R a) by lra.
  destruct (Rlt_bool_spec (Rabs (rnd (B2R ff - B2R a))) (bpow radix2 emax)) as [O|O].
  - destruct C as (C1 & C2 & _). apply (gt_finite _ t C2 Ft) in Gs. rewrite C1 in Gs.
    assert (rnd (B2R ff - B2R a) <= - B2R t); [|lra].
    apply round_le_generic; [typeclasses eauto..| |].
    + apply generic_format_opp, generic_format_B2R.
    + pose proof (Rabs_pos (B2R ff)). lra.
  - destruct C as (C1 & C2). 
    assert (Sa : Bsign a = false).
    { destruct a as [s|s| |s m e p]; try discriminate Fa; cbn in Pa |- *; [lra|].
      destruct s; [|reflexivity]. exfalso. 
      unfold F2R in Pa. cbn [Fnum Fexp cond_Zopp] in Pa.
      pose proof (bpow_gt_0 radix2 e) as B. assert (IZR (Z.neg m) < 0) by (apply IZR_lt; lia).
      change (- Z.pos m)%Z with (Z.neg m) in Pa. nra. }
    rewrite Sa in C2. cbn in C2. rewrite C2 in C1.
    apply B2SF_inf in C1. rewrite C1 in Gs.
    destruct t as [[]|[]| |[]]; discriminate Gs.
Qed.

Lemma sound_gen : forall (x : nat -> float) (t : float) d id k f (ff : float),
  is_finite t = true -> 0 < B2R t ->
  is_finite ff = true -> - INR k * u <= B2R ff - f <= INR k * u ->
  - B2R t < B2R ff <= 1 + INR k * (B2R t + u) ->
  (INR (k + d) + 1) * (B2R t + u) <= 1 ->
  checkInsideF prec emax Hp He id d x t ff = true ->
  (forall i, (i < d)%nat -> is_finite (x i) = true)
  /\ forall n, (k + d <= n)%nat -> checkInside id d (fun i => B2R (x i)) (B2R t + INR n * u) f = true.
Proof.
  intros x t. induction d as [|d IH]; intros id k f ff Ft Pt Fff Lf L1 Lk H.
  { split; [lia|reflexivity]. }
  cbn [checkInsideF] in H. 
  destruct (fgt prec emax (x d) (Bopp t)) eqn:G1; [|discriminate H].
  destruct (fgt prec emax (fsub prec emax Hp He ff (x d)) (Bopp t)) eqn:G2; [|discriminate H].
  cbn [andb] in H.
  pose proof u_pos as U. pose proof (pos_INR d) as Pd. pose proof (pos_INR k) as Pk.
  set (w := B2R t + u) in *. assert (Pw : 0 < w) by (unfold w; lra).
  assert (Ik : INR (k + S d) = INR k + (INR d + 1)) by (now rewrite plus_INR, S_INR).
  rewrite Ik in Lk.
  replace ((INR k + (INR d + 1) + 1) * w) with (INR k * w + INR d * w + w + w) in Lk by ring.
  assert (Pdw : 0 <= INR d * w) by (apply Rmult_le_pos; lra).
  assert (Pkw : 0 <= INR k * w) by (apply Rmult_le_pos; lra).
  assert (Pku : 0 <= INR k * u) by (apply Rmult_le_pos; lra).
  destruct (fsub_big ff (x d) t Fff Ft Pt G1) as (Fx & X0 & X2); [|exact G2|].
  { assert (Rabs (B2R ff) <= 2 - B2R t); [|lra]. apply Rabs_le. unfold w in *. lra. }
  destruct (fsub_small ff (x d) Fff Fx X2) as (S1 & S2).
  set (v := B2R ff - B2R (x d)) in *.
  pose proof (proj1 (gt_finite _ t S2 Ft) G2) as G3. rewrite S1 in G3.
  assert (Lv : - B2R t < v).
  { apply Rnot_le_lt. intros N. apply (Rlt_irrefl (- B2R t)). eapply Rlt_le_trans; [exact G3|].
    apply round_le_generic; [typeclasses eauto..| |exact N].
    apply generic_format_opp, generic_format_B2R. }
  assert (V : Rabs v < 2) by (apply Rabs_def1; unfold v, w in *; lra).
  pose proof (rnd_err v V) as E. apply Rabs_le_inv in E.
  assert (R : (forall i, (i < d)%nat -> is_finite (x i) = true)
    /\ forall n, (k + S d <= n)%nat -> checkInside (baseTopologyId id (S d) 1) d (fun i => B2R (x i))
        (B2R t + INR n * u) (if isPrism id (S d) 0 then f else f - B2R (x d)) = true).
  { destruct (isPrism id (S d) 0).
    - destruct (IH (baseTopologyId id (S d) 1) k f ff) as (I1 & I2); try assumption.
      { rewrite plus_INR. replace ((INR k + INR d + 1) * w) with (INR k * w + INR d * w + w) by ring. lra. }
      split; [exact I1|]. intros n Hn. apply I2. lia.
    - destruct (IH (baseTopologyId id (S d) 1) (S k) (f - B2R (x d)) (fsub prec emax Hp He ff (x d))) as (I1 & I2);
        try assumption.
      + rewrite S1, S_INR. unfold v in *. lra.
      + rewrite S1, S_INR. unfold v, w in *. lra.
      + rewrite plus_INR, S_INR.
        replace ((INR k + 1 + INR d + 1) * w) with (INR k * w + INR d * w + w + w) by ring. lra.
      + split; [exact I1|]. intros n Hn. apply I2. lia. }
  destruct R as (R1 & R2). split.
  - intros i Hi. destruct (Nat.eq_dec i d) as [->|]; [exact Fx|]. apply R1. lia.
  - intros n Hn. cbn [checkInside]. rewrite R2 by exact Hn.
    assert (Kn : INR k * u <= INR n * u) by (apply Rmult_le_compat_r; [lra|]; apply le_INR; lia).
    unfold Rltb. destruct (Rlt_dec _ _) as [|N]; [|exfalso; apply N; lra].
    destruct (Rlt_dec _ _) as [|N]; [reflexivity|]. exfalso. apply N. unfold v in *. lra.
Qed.

(** ** the constants *)
Lemma ofZ_1 : B2R (ofZ prec emax Hp He 1) = 1 /\ is_finite (ofZ prec emax Hp He 1) = true.
Proof.
  pose proof (binary_normalize_correct prec emax Hp He mode_NE 1 0 false) as C. cbn zeta in C.
  replace (F2R {| Fnum := 1; Fexp := 0 |} : R) with 1 in C by (unfold F2R; cbn; ring).
  rewrite Rlt_bool_true in C by (apply rnd_bound; rewrite Rabs_R1; lra).
  destruct C as (C1 & C2 & _). split; [|exact C2]. unfold ofZ. rewrite C1.
  apply round_generic; [typeclasses eauto|apply format_1].
Qed.
Lemma eps_val : B2R (epsilon prec emax Hp He) = bpow radix2 (1 - prec)
  /\ is_finite (epsilon prec emax Hp He) = true.
Proof.
  pose proof prec_emax as Q.
  pose proof (binary_normalize_correct prec emax Hp He mode_NE 1 (1 - prec) false) as C. cbn zeta in C.
  replace (F2R {| Fnum := 1; Fexp := (1 - prec) |} : R) with (bpow radix2 (1 - prec)) in C
    by (unfold F2R; cbn [Fnum Fexp]; ring).
  assert (F : generic_format radix2 fexp (bpow radix2 (1 - prec))) by (apply format_bpow; lia).
  rewrite (round_generic radix2 fexp (round_mode mode_NE) _ F) in C.
  rewrite Rlt_bool_true in C.
  - destruct C as (C1 & C2 & _). now split.
  - rewrite Rabs_pos_eq by apply bpow_ge_0. apply bpow_lt. lia.
Qed.
End FP.

Lemma ofZ_64 : forall prec emax (Hp : Prec_gt_0 prec) (He : Prec_lt_emax prec emax), (6 < emax)%Z -> (2 <= prec)%Z ->
  B2R (ofZ prec emax Hp He 64) = 64 /\ is_finite (ofZ prec emax Hp He 64) = true.
Proof.
  intros prec emax Hp He H6 H2. 
  pose proof (binary_normalize_correct prec emax Hp He mode_NE 64 0 false) as C. cbn zeta in C.
  replace (F2R {| Fnum := 64; Fexp := 0 |} : R) with (bpow radix2 6) in C by (unfold F2R; cbn; ring).
  assert (F : generic_format radix2 (SpecFloat.fexp prec emax) (bpow radix2 6)).
  { apply format_bpow; try assumption. pose proof (prec_emax prec emax He). lia. }
  rewrite (round_generic radix2 _ (round_mode mode_NE) _ F) in C.
  rewrite Rlt_bool_true in C.
  - destruct C as (C1 & C2 & _). now split.
  - rewrite Rabs_pos_eq by apply bpow_ge_0. apply bpow_lt. lia.
Qed.

Lemma tol_val : forall prec emax (Hp : Prec_gt_0 prec) (He : Prec_lt_emax prec emax), (6 < emax)%Z -> (2 <= prec)%Z ->
  let t := fmul prec emax Hp He (ofZ prec emax Hp He 64) (epsilon prec emax Hp He) in
  B2R t = 128 * bpow radix2 (- prec) /\ is_finite t = true.
Proof.
  intros prec emax Hp He H6 H2 t. pose proof (prec_emax prec emax He) as Q.
  destruct (ofZ_64 prec emax Hp He H6 H2) as (A1 & A2).
  destruct (eps_val prec emax Hp He H2) as (E1 & E2).
  pose proof (Bmult_correct prec emax Hp He mode_NE (ofZ prec emax Hp He 64) (epsilon prec emax Hp He)) as C.
  rewrite A1, E1, A2, E2 in C.
  change (64 * bpow radix2 (1 - prec))%R with (bpow radix2 6 * bpow radix2 (1 - prec))%R in C.
  rewrite <- bpow_plus in C.
  assert (F : generic_format radix2 (SpecFloat.fexp prec emax) (bpow radix2 (6 + (1 - prec)))).
  { apply format_bpow; try assumption. lia. }
  rewrite (round_generic radix2 _ (round_mode mode_NE) _ F) in C.
  rewrite Rlt_bool_true in C.
  - destruct C as (C1 & C2 & _). unfold t, fmul. split; [|exact C2]. rewrite C1.
    replace (6 + (1 - prec))%Z with (7 + - prec)%Z by lia. now rewrite bpow_plus.
  - rewrite Rabs_pos_eq by apply bpow_ge_0. apply bpow_lt. lia.
Qed.
