(** The axis-aligned cube in floating point: rounding errors of the scalar operations of one
    axis, and the components computed by the loops. *)
From Coq Require Import PeanoNat NArith ZArith Bool List Reals Lra Lia.
From Flocq Require Import Core Relative Plus_error Sterbenz Mult_error IEEE754.BinarySingleNaN.
From Verif Require Import M_Type M_RefTopo M_RefGeo M_Matrix M_Affine M_Float P_Matrix P_AACube P_Float.
Import ListNotations.
Local Open Scope R_scope.

Lemma div_le : forall a b c, 0 < c -> a <= b * c -> a / c <= b.
Proof. intros a b c C H. apply Rmult_le_reg_r with c; [exact C|]. unfold Rdiv. rewrite Rmult_assoc, Rinv_l; lra. Qed.

Section FP.
Variables (prec emax : Z).
Context (Hp : Prec_gt_0 prec) (He : Prec_lt_emax prec emax).
Hypothesis H2 : (2 <= prec)%Z.
Notation float := (binary_float prec emax).
Notation fexp := (SpecFloat.fexp prec emax).
Notation rnd := (round radix2 fexp (round_mode mode_NE)).
Notation u := (bpow radix2 (- prec)).
Notation eta := (/ 2 * bpow radix2 (3 - emax - prec)).
Notation add := (fadd prec emax Hp He).
Notation sub := (fsub prec emax Hp He).
Notation mul := (fmul prec emax Hp He).
Notation div := (fdiv prec emax Hp He).
Notation format := (generic_format radix2 fexp).

Local Instance vexp2 : Valid_exp fexp := fexp_correct prec emax Hp.

Lemma rnd_le : forall a b, a <= b -> rnd a <= rnd b.
Proof. intros a b H. apply round_le; [typeclasses eauto..|exact H]. Qed.
Lemma rnd_id : forall a, format a -> rnd a = a.
Proof. intros a H. apply round_generic; [typeclasses eauto|exact H]. Qed.
Lemma fmt : forall a : float, format (B2R a).
Proof. intros a. apply generic_format_B2R. Qed.
Lemma rnd_fmt : forall a, format (rnd a).
Proof. intros a. apply generic_format_round; typeclasses eauto. Qed.

Lemma u_ro_u : u_ro radix2 prec = u.
Proof.
  unfold u_ro. replace (- prec + 1)%Z with (1 + - prec)%Z by lia. rewrite bpow_plus.
  change (bpow radix2 1) with 2. lra.
Qed.
Lemma u_half : u <= / 4.
Proof. change (/ 4) with (bpow radix2 (-2)). apply bpow_le. lia. Qed.
Lemma eta_pos : 0 < eta.
Proof. pose proof (bpow_gt_0 radix2 (3 - emax - prec)). lra. Qed.

(** a sum of floating point numbers has a relative error, even below the normal range *)
Lemma rel_plus : forall a b, format a -> format b ->
  exists e, Rabs e <= u /\ rnd (a + b) = (a + b) * (1 + e).
Proof.
  intros a b Fa Fb.
  destruct (@FLT_plus_error_N_ex radix2 (3 - emax - prec) prec Hp (fun x => negb (Z.even x)) a b Fa Fb)
    as (e & E1 & E2).
  exists e. split; [|exact E2]. eapply Rle_trans; [exact E1|]. rewrite u_ro_u.
  pose proof (u_pos prec) as U. apply div_le; nra.
Qed.
Lemma rel_minus : forall a b, format a -> format b ->
  exists e, Rabs e <= u /\ rnd (a - b) = (a - b) * (1 + e).
Proof. intros a b Fa Fb. unfold Rminus. apply rel_plus; [exact Fa|]. now apply generic_format_opp. Qed.
Lemma rel_gen : forall v, exists e h, Rabs e <= u /\ Rabs h <= eta /\ rnd v = v * (1 + e) + h.
Proof.
  intros v. destruct (error_N_FLT radix2 (3 - emax - prec) prec Hp (fun x => negb (Z.even x)) v)
    as (e & h & E & E' & _ & R).
  exists e, h. split; [|split; [exact E'|exact R]]. rewrite <- u_ro_u. exact E.
Qed.
Lemma rel_normal : forall v, bpow radix2 (2 - emax) <= Rabs v ->
  exists e, Rabs e <= u /\ rnd v = v * (1 + e).
Proof.
  intros v H. destruct (relative_error_N_FLT_ex radix2 (3 - emax - prec) prec Hp (fun x => negb (Z.even x)) v)
    as (e & E & R).
  { replace (3 - emax - prec + prec - 1)%Z with (2 - emax)%Z by lia. exact H. }
  exists e. split; [|exact R]. rewrite <- u_ro_u. exact E.
Qed.

(** operations without overflow *)
Lemma rnd_big : forall v, Rabs v <= bpow radix2 (emax - 1) -> Rabs (rnd v) < bpow radix2 emax.
Proof.
  intros v H. apply Rle_lt_trans with (bpow radix2 (emax - 1)).
  - apply abs_round_le_generic; [typeclasses eauto..| |exact H].
    apply format_bpow; try assumption. pose proof (prec_emax prec emax He). lia.
  - apply bpow_lt. lia.
Qed.
Lemma sub_ok : forall a b : float, is_finite a = true -> is_finite b = true ->
  Rabs (B2R a - B2R b) <= bpow radix2 (emax - 1) ->
  B2R (sub a b) = rnd (B2R a - B2R b) /\ is_finite (sub a b) = true.
Proof.
  intros a b Fa Fb H. pose proof (Bminus_correct prec emax Hp He mode_NE a b Fa Fb) as C.
  rewrite Rlt_bool_true in C by now apply rnd_big. now destruct C as (C1 & C2 & _).
Qed.
Lemma add_ok : forall a b : float, is_finite a = true -> is_finite b = true ->
  Rabs (B2R a + B2R b) <= bpow radix2 (emax - 1) ->
  B2R (add a b) = rnd (B2R a + B2R b) /\ is_finite (add a b) = true.
Proof.
  intros a b Fa Fb H. pose proof (Bplus_correct prec emax Hp He mode_NE a b Fa Fb) as C.
  rewrite Rlt_bool_true in C by now apply rnd_big. now destruct C as (C1 & C2 & _).
Qed.
Lemma mul_ok : forall a b : float, is_finite a = true -> is_finite b = true ->
  Rabs (B2R a * B2R b) <= bpow radix2 (emax - 1) ->
  B2R (mul a b) = rnd (B2R a * B2R b) /\ is_finite (mul a b) = true.
Proof.
  intros a b Fa Fb H. pose proof (Bmult_correct prec emax Hp He mode_NE a b) as C.
  rewrite Rlt_bool_true in C by now apply rnd_big. destruct C as (C1 & C2 & _).
  rewrite Fa, Fb in C2. now split.
Qed.
Lemma div_ok : forall a b : float, is_finite a = true -> B2R b <> 0 ->
  Rabs (B2R a / B2R b) <= bpow radix2 (emax - 1) ->
  B2R (div a b) = rnd (B2R a / B2R b) /\ is_finite (div a b) = true.
Proof.
  intros a b Fa Nb H. pose proof (Bdiv_correct prec emax Hp He mode_NE a b Nb) as C.
  rewrite Rlt_bool_true in C by now apply rnd_big. destruct C as (C1 & C2 & _).
  rewrite Fa in C2. now split.
Qed.

(** ** one axis *)
Section Axis.
Variables l r : float.
Hypotheses (Fl : is_finite l = true) (Fr : is_finite r = true).
Hypotheses (Bl : Rabs (B2R l) <= bpow radix2 (emax - 3)) (Br : Rabs (B2R r) <= bpow radix2 (emax - 3)).
Hypothesis LR : B2R l <= B2R r.
Let w := B2R r - B2R l.
Let W := sub r l.

Lemma big_3 : bpow radix2 (emax - 1) = 4 * bpow radix2 (emax - 3).
Proof. replace (emax - 1)%Z with (2 + (emax - 3))%Z by lia. now rewrite bpow_plus. Qed.
Lemma big_1 : 1 <= bpow radix2 (emax - 3).
Proof. change 1 with (bpow radix2 0). apply bpow_le. pose proof (prec_emax prec emax He). lia. Qed.
Lemma big_format : format (2 * bpow radix2 (emax - 3)).
Proof.
  change 2 with (bpow radix2 1). rewrite <- bpow_plus. apply format_bpow; try assumption.
  pose proof (prec_emax prec emax He). lia.
Qed.
Lemma w_bound : 0 <= w <= 2 * bpow radix2 (emax - 3).
Proof. apply Rabs_le_inv in Bl, Br. unfold w. lra. Qed.
Lemma W_ok : B2R W = rnd w /\ is_finite W = true.
Proof. apply sub_ok; try assumption. fold w. pose proof w_bound. rewrite Rabs_pos_eq; rewrite ?big_3; lra. Qed.
Lemma W_bound : 0 <= B2R W <= 2 * bpow radix2 (emax - 3).
Proof.
  rewrite (proj1 W_ok). pose proof w_bound as B. split.
  - apply round_ge_generic; [typeclasses eauto..|apply generic_format_0|lra].
  - apply round_le_generic; [typeclasses eauto..|apply big_format|lra].
Qed.
Lemma W_rel : exists e, Rabs e <= u /\ B2R W = w * (1 + e).
Proof. rewrite (proj1 W_ok). apply rel_minus; apply fmt. Qed.
Lemma W_pos : B2R l < B2R r -> 0 < B2R W.
Proof.
  intros L. destruct W_rel as (e & E & ->). pose proof u_half. apply Rabs_le_inv in E.
  apply Rmult_lt_0_compat; unfold w; lra.
Qed.

Definition axis_global (x : float) : float := add l (mul x W).
Definition axis_local (y : float) : float := div (sub y l) W.

Section Global.
Variable x : float.
Hypotheses (Fx : is_finite x = true) (X0 : 0 <= B2R x) (X1 : B2R x <= 1).
Lemma xW : 0 <= B2R x * B2R W <= B2R W.
Proof. pose proof W_bound. split; [apply Rmult_le_pos; lra|]. assert (0 <= (1 - B2R x) * B2R W) by (apply Rmult_le_pos; lra). lra. Qed.
Lemma q_ok : B2R (mul x W) = rnd (B2R x * B2R W) /\ is_finite (mul x W) = true.
Proof.
  apply mul_ok; [exact Fx|apply W_ok|]. pose proof xW. pose proof W_bound.
  rewrite Rabs_pos_eq, big_3; lra.
Qed.
Lemma q_bound : 0 <= rnd (B2R x * B2R W) <= B2R W.
Proof.
  pose proof xW. split.
  - apply round_ge_generic; [typeclasses eauto..|apply generic_format_0|lra].
  - apply round_le_generic; [typeclasses eauto..|apply fmt|lra].
Qed.
Lemma glob_ok : B2R (axis_global x) = rnd (B2R l + rnd (B2R x * B2R W)) /\ is_finite (axis_global x) = true.
Proof.
  unfold axis_global. destruct q_ok as (Q1 & Q2). rewrite <- Q1. apply add_ok; try assumption.
  rewrite Q1. pose proof q_bound. pose proof W_bound. apply Rabs_le_inv in Bl. apply Rabs_le. rewrite big_3. lra.
Qed.
End Global.

Lemma glob_mono : forall x y : float, is_finite x = true -> is_finite y = true ->
  0 <= B2R x -> B2R x <= B2R y -> B2R y <= 1 -> B2R (axis_global x) <= B2R (axis_global y).
Proof.
  intros x y Fx Fy X XY Y. rewrite (proj1 (glob_ok x Fx X ltac:(lra))), (proj1 (glob_ok y Fy ltac:(lra) Y)).
  apply rnd_le, Rplus_le_compat_l, rnd_le, Rmult_le_compat_r; [apply W_bound|exact XY].
Qed.
Lemma glob_0 : forall x : float, is_finite x = true -> B2R x = 0 -> B2R (axis_global x) = B2R l.
Proof.
  intros x Fx X. rewrite (proj1 (glob_ok x Fx ltac:(lra) ltac:(lra))), X, Rmult_0_l, round_0, Rplus_0_r by typeclasses eauto.
  apply rnd_id, fmt.
Qed.
Lemma glob_ge : forall x : float, is_finite x = true -> 0 <= B2R x -> B2R x <= 1 -> B2R l <= B2R (axis_global x).
Proof.
  intros x Fx X0 X1. rewrite (proj1 (glob_ok x Fx X0 X1)).
  apply round_ge_generic; [typeclasses eauto..|apply fmt|]. pose proof (q_bound x X0 X1). lra.
Qed.
Lemma glob_1 : forall x : float, is_finite x = true -> B2R x = 1 -> B2R (axis_global x) = rnd (B2R l + rnd w).
Proof.
  intros x Fx X. rewrite (proj1 (glob_ok x Fx ltac:(lra) ltac:(lra))), X, Rmult_1_l, (rnd_id (B2R W)) by apply fmt.
  now rewrite (proj1 W_ok).
Qed.
Lemma glob_1_exact : forall x : float, format w -> is_finite x = true -> B2R x = 1 -> B2R (axis_global x) = B2R r.
Proof.
  intros x Fw Fx X. rewrite glob_1 by assumption. rewrite (rnd_id w Fw). unfold w.
  replace (B2R l + (B2R r - B2R l)) with (B2R r) by ring. apply rnd_id, fmt.
Qed.
Lemma glob_error : forall x : float, is_finite x = true -> 0 <= B2R x -> B2R x <= 1 ->
  let G := B2R l + B2R x * w in
  Rabs (B2R (axis_global x) - G) <= u * Rabs G + (1 + u) * (((1 + u) ^ 2 - 1) * w + eta).
Proof.
  intros x Fx X0 X1 G. destruct (glob_ok x Fx X0 X1) as (-> & _).
  destruct W_rel as (e1 & E1 & W1). destruct (rel_gen (B2R x * B2R W)) as (e2 & h & E2 & Eh & Q).
  assert (Fq : format (rnd (B2R x * B2R W))) by apply rnd_fmt.
  destruct (rel_plus (B2R l) (rnd (B2R x * B2R W)) (fmt l) Fq) as (e3 & E3 & ->).
  rewrite Q, W1. pose proof (u_pos prec) as U. pose proof w_bound as Bw. pose proof eta_pos as Pe.
  set (d := B2R x * (w * (1 + e1)) * (1 + e2) + h - B2R x * w).
  assert (D : Rabs d <= ((1 + u) ^ 2 - 1) * w + eta).
  { unfold d. replace (B2R x * (w * (1 + e1)) * (1 + e2) + h - B2R x * w)
      with (B2R x * w * (e1 + e2 + e1 * e2) + h) by ring.
    eapply Rle_trans; [apply Rabs_triang|]. apply Rplus_le_compat; [|exact Eh].
    assert (E : Rabs (e1 + e2 + e1 * e2) <= (1 + u) ^ 2 - 1).
    { replace ((1 + u) ^ 2 - 1) with (u + u + u * u) by ring.
      eapply Rle_trans; [apply Rabs_triang|]. apply Rplus_le_compat.
      - eapply Rle_trans; [apply Rabs_triang|lra].
      - rewrite Rabs_mult. apply Rmult_le_compat; auto using Rabs_pos. }
    rewrite Rabs_mult, Rmult_comm.
    apply Rmult_le_compat; auto using Rabs_pos.
    assert (P : 0 <= B2R x * w) by (apply Rmult_le_pos; lra). rewrite (Rabs_pos_eq _ P).
    assert (0 <= (1 - B2R x) * w) by (apply Rmult_le_pos; lra). lra. }
  replace (B2R l + (B2R x * (w * (1 + e1)) * (1 + e2) + h)) with (G + d) by (unfold G, d; ring).
  replace ((G + d) * (1 + e3) - G) with (d * (1 + e3) + e3 * G) by ring.
  eapply Rle_trans; [apply Rabs_triang|]. rewrite !Rabs_mult. rewrite Rplus_comm.
  apply Rplus_le_compat.
  - apply Rmult_le_compat_r; [apply Rabs_pos|exact E3].
  - rewrite Rmult_comm. apply Rmult_le_compat; auto using Rabs_pos.
    eapply Rle_trans; [apply Rabs_triang|]. rewrite Rabs_R1. lra.
Qed.

(** local *)
Section Local.
Hypothesis LT : B2R l < B2R r.
Variable y : float.
Hypotheses (Fy : is_finite y = true) (Y0 : B2R l <= B2R y) (Y1 : B2R y <= B2R r).
Lemma d_ok : B2R (sub y l) = rnd (B2R y - B2R l) /\ is_finite (sub y l) = true.
Proof. apply sub_ok; try assumption. pose proof w_bound as B. unfold w in B. rewrite Rabs_pos_eq, ?big_3; lra. Qed.
Lemma d_bound : 0 <= rnd (B2R y - B2R l) <= B2R W.
Proof.
  split.
  - apply round_ge_generic; [typeclasses eauto..|apply generic_format_0|lra].
  - rewrite (proj1 W_ok). apply rnd_le. unfold w. lra.
Qed.
Lemma quo_bound : 0 <= rnd (B2R y - B2R l) / B2R W <= 1.
Proof.
  pose proof d_bound as B. pose proof (W_pos LT) as P. split.
  - apply Rmult_le_pos; [lra|]. apply Rlt_le, Rinv_0_lt_compat, P.
  - apply div_le; lra.
Qed.
Lemma loc_ok : B2R (axis_local y) = rnd (rnd (B2R y - B2R l) / B2R W) /\ is_finite (axis_local y) = true.
Proof.
  destruct d_ok as (D1 & D2). unfold axis_local. rewrite <- D1. apply div_ok; [exact D2|pose proof (W_pos LT); lra|].
  rewrite D1. pose proof quo_bound. pose proof big_1. rewrite Rabs_pos_eq, ?big_3; lra.
Qed.
Lemma loc_range : 0 <= B2R (axis_local y) <= 1.
Proof.
  rewrite (proj1 loc_ok). pose proof quo_bound. split.
  - apply round_ge_generic; [typeclasses eauto..|apply generic_format_0|lra].
  - apply round_le_generic; [typeclasses eauto..|apply format_1; assumption|lra].
Qed.
End Local.

Lemma loc_mono : B2R l < B2R r -> forall y z : float, is_finite y = true -> is_finite z = true ->
  B2R l <= B2R y -> B2R y <= B2R z -> B2R z <= B2R r -> B2R (axis_local y) <= B2R (axis_local z).
Proof.
  intros LT y z Fy Fz Y YZ Z. rewrite (proj1 (loc_ok LT y Fy Y ltac:(lra))), (proj1 (loc_ok LT z Fz ltac:(lra) Z)).
  apply rnd_le. apply Rmult_le_compat_r; [apply Rlt_le, Rinv_0_lt_compat, W_pos, LT|]. apply rnd_le. lra.
Qed.
Lemma loc_l : B2R l < B2R r -> B2R (axis_local l) = 0.
Proof.
  intros LT. rewrite (proj1 (loc_ok LT l Fl ltac:(lra) ltac:(lra))).
  replace (B2R l - B2R l) with 0 by ring. rewrite round_0 by typeclasses eauto.
  replace (0 / B2R W) with 0 by (unfold Rdiv; ring). apply round_0; typeclasses eauto.
Qed.
Lemma loc_r : B2R l < B2R r -> B2R (axis_local r) = 1.
Proof.
  intros LT. rewrite (proj1 (loc_ok LT r Fr ltac:(lra) ltac:(lra))). fold w. rewrite <- (proj1 W_ok).
  replace (B2R W / B2R W) with 1 by (field; pose proof (W_pos LT); lra). apply rnd_id, format_1; assumption.
Qed.

(** there and back *)
Lemma loc_glob : B2R l < B2R r -> forall y : float, is_finite y = true -> B2R l <= B2R y -> B2R y <= B2R r ->
  Rabs (B2R (axis_global (axis_local y)) - B2R y)
  <= u * Rabs (B2R y) + (1 + u) * (((1 + u) ^ 3 - 1) * w + (1 + u) * ((1 + u) * eta * w) + eta).
Proof.
  intros LT y Fy Y0 Y1. destruct (loc_ok LT y Fy Y0 Y1) as (T1 & T2). destruct (loc_range LT y Fy Y0 Y1) as (R0 & R1).
  destruct (glob_ok (axis_local y) T2 R0 R1) as (-> & _). rewrite T1.
  set (t := rnd (rnd (B2R y - B2R l) / B2R W)).
  destruct W_rel as (e0 & E0 & W1). pose proof (W_pos LT) as PW.
  destruct (rel_minus (B2R y) (B2R l) (fmt y) (fmt l)) as (e1 & E1 & D).
  destruct (rel_gen (rnd (B2R y - B2R l) / B2R W)) as (e2 & h2 & E2 & Eh2 & T). fold t in T.
  destruct (rel_gen (t * B2R W)) as (e3 & h3 & E3 & Eh3 & Q).
  assert (Fq : format (rnd (t * B2R W))) by apply rnd_fmt.
  destruct (rel_plus (B2R l) (rnd (t * B2R W)) (fmt l) Fq) as (e4 & E4 & ->).
  pose proof (u_pos prec) as U. pose proof w_bound as Bw. pose proof eta_pos as Pe.
  assert (Bd : 0 <= B2R y - B2R l <= w) by (unfold w; lra).
  set (dy := B2R y - B2R l) in *.
  set (d := rnd (t * B2R W) - dy).
  assert (Ed : d = dy * ((1 + e1) * (1 + e2) * (1 + e3) - 1) + h2 * (1 + e3) * B2R W + h3).
  { unfold d. rewrite Q, T, D. field. lra. }
  assert (Up : forall e, Rabs e <= u -> Rabs (1 + e) <= 1 + u).
  { intros e E. eapply Rle_trans; [apply Rabs_triang|]. rewrite Rabs_R1. lra. }
  assert (B3 : Rabs ((1 + e1) * (1 + e2) * (1 + e3) - 1) <= (1 + u) ^ 3 - 1).
  { replace ((1 + e1) * (1 + e2) * (1 + e3) - 1)
      with (e1 * ((1 + e2) * (1 + e3)) + (e2 * (1 + e3) + e3)) by ring.
    replace ((1 + u) ^ 3 - 1) with (u * ((1 + u) * (1 + u)) + (u * (1 + u) + u)) by ring.
    eapply Rle_trans; [apply Rabs_triang|]. apply Rplus_le_compat.
    - rewrite !Rabs_mult. apply Rmult_le_compat; auto using Rabs_pos.
      + apply Rmult_le_pos; apply Rabs_pos.
      + apply Rmult_le_compat; auto using Rabs_pos.
    - eapply Rle_trans; [apply Rabs_triang|]. apply Rplus_le_compat; [|exact E3].
      rewrite Rabs_mult. apply Rmult_le_compat; auto using Rabs_pos. }
  assert (BW : Rabs (B2R W) <= (1 + u) * w).
  { rewrite W1, Rabs_mult, Rmult_comm. apply Rmult_le_compat; auto using Rabs_pos. rewrite Rabs_pos_eq; lra. }
  assert (Dd : Rabs d <= ((1 + u) ^ 3 - 1) * w + (1 + u) * ((1 + u) * eta * w) + eta).
  { rewrite Ed. eapply Rle_trans; [apply Rabs_triang|]. apply Rplus_le_compat; [|exact Eh3].
    eapply Rle_trans; [apply Rabs_triang|]. apply Rplus_le_compat.
    - rewrite Rabs_mult, Rmult_comm. apply Rmult_le_compat; auto using Rabs_pos. rewrite Rabs_pos_eq; lra.
    - rewrite !Rabs_mult.
      replace ((1 + u) * ((1 + u) * eta * w)) with (eta * (1 + u) * ((1 + u) * w)) by ring.
      apply Rmult_le_compat; auto using Rabs_pos.
      + apply Rmult_le_pos; apply Rabs_pos.
      + apply Rmult_le_compat; auto using Rabs_pos. }
  replace ((B2R l + rnd (t * B2R W)) * (1 + e4) - B2R y) with (d * (1 + e4) + e4 * B2R y) by (unfold d, dy; ring).
  eapply Rle_trans; [apply Rabs_triang|]. rewrite !Rabs_mult. rewrite Rplus_comm.
  apply Rplus_le_compat.
  - apply Rmult_le_compat_r; [apply Rabs_pos|exact E4].
  - rewrite Rmult_comm. apply Rmult_le_compat; auto using Rabs_pos.
Qed.

(** the centre *)
Lemma half_val : B2R (fhalf prec emax Hp He) = / 2 /\ is_finite (fhalf prec emax Hp He) = true.
Proof.
  pose proof (binary_normalize_correct prec emax Hp He mode_NE 1 (-1) false) as C. cbn zeta in C.
  replace (F2R {| Fnum := 1; Fexp := -1 |} : R) with (bpow radix2 (-1)) in C by (unfold F2R; cbn [Fnum Fexp]; ring).
  rewrite rnd_id in C.
  - rewrite Rlt_bool_true in C.
    + destruct C as (C1 & C2 & _). split; [|exact C2]. unfold fhalf. rewrite C1. reflexivity.
    + rewrite Rabs_pos_eq by apply bpow_ge_0. apply bpow_lt. pose proof (prec_emax prec emax He). lia.
  - apply format_bpow; try assumption. pose proof (prec_emax prec emax He). lia.
Qed.
Lemma format_double : forall v, format v -> format (2 * v).
Proof.
  intros v F. rewrite Rmult_comm. change 2 with (bpow radix2 1).
  apply (@mult_bpow_pos_exact_FLT radix2 (3 - emax - prec) prec v 1 F). lia.
Qed.
Lemma mid_in : let c := mul (fhalf prec emax Hp He) (add l r) in
  is_finite c = true /\ B2R l <= B2R c <= B2R r.
Proof.
  intros c. destruct half_val as (H & FH).
  assert (A : B2R (add l r) = rnd (B2R l + B2R r) /\ is_finite (add l r) = true).
  { apply add_ok; try assumption. apply Rabs_le_inv in Bl, Br. apply Rabs_le. rewrite big_3. lra. }
  destruct A as (A1 & A2).
  assert (B : 2 * B2R l <= rnd (B2R l + B2R r) <= 2 * B2R r).
  { split.
    - apply round_ge_generic; [typeclasses eauto..|apply format_double, fmt|lra].
    - apply round_le_generic; [typeclasses eauto..|apply format_double, fmt|lra]. }
  assert (M : B2R c = rnd (/ 2 * rnd (B2R l + B2R r)) /\ is_finite c = true).
  { unfold c. rewrite <- H, <- A1. apply mul_ok; try assumption. rewrite H, A1.
    apply Rabs_le_inv in Bl, Br. apply Rabs_le. rewrite big_3. lra. }
  destruct M as (M1 & M2). split; [exact M2|]. rewrite M1. split.
  - apply round_ge_generic; [typeclasses eauto..|apply fmt|lra].
  - apply round_le_generic; [typeclasses eauto..|apply fmt|lra].
Qed.
End Axis.
End FP.
