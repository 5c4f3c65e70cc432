(** Floating point operations with a finite result: operands and value; backward form of the
    rounding errors; the error of the inner loops s -= l_j * r_j and s += l_j * r_j. *)
From Coq Require Import PeanoNat ZArith Bool List Reals Lra Lia.
From Flocq Require Import Core Plus_error Relative IEEE754.BinarySingleNaN.
From Verif Require Import M_Matrix M_Float M_FloatGlobal M_FloatLocal S_RefGeo P_Float P_Float2.
Import ListNotations.
Local Open Scope R_scope.

Section FE.
Variables (prec emax : Z).
Context (Hp : Prec_gt_0 prec) (He : Prec_lt_emax prec emax).
Notation float := (binary_float prec emax).
Notation fexp := (SpecFloat.fexp prec emax).
Notation rnd := (round radix2 fexp (round_mode mode_NE)).
Notation format := (generic_format radix2 fexp).
Notation u := (bpow radix2 (- prec)).
Notation eta := (bpow radix2 (2 - emax - prec)).
Notation add := (fadd prec emax Hp He).
Notation sub := (fsub prec emax Hp He).
Notation mul := (fmul prec emax Hp He).
Notation div := (fdiv prec emax Hp He).
Notation sqr := (fsqrt prec emax Hp He).
Local Instance vexpE : Valid_exp fexp := fexp_correct prec emax Hp.

(** ** operations with finite results *)
Lemma not_over (x : float) s : B2SF x = binary_overflow prec emax mode_NE s -> is_finite x = true -> False.
Proof. intros E F. destruct x; cbn in E; try discriminate. Qed.

Lemma add_fin a b : is_finite (add a b) = true -> is_finite a = true /\ is_finite b = true /\ B2R (add a b) = rnd (B2R a + B2R b).
Proof.
  intro F. assert (Fa : is_finite a = true) by (destruct a as [|[]| |], b as [|[]| |]; cbn in F |- *; try discriminate; reflexivity).
  assert (Fb : is_finite b = true) by (destruct a as [|[]| |], b as [|[]| |]; cbn in F |- *; try discriminate; reflexivity).
  split; [exact Fa|split; [exact Fb|]]. pose proof (Bplus_correct prec emax Hp He mode_NE a b Fa Fb) as C.
  destruct (Rlt_bool _ _); [exact (proj1 C)|]. exfalso. exact (not_over _ _ (proj1 C) F).
Qed.
Lemma sub_fin a b : is_finite (sub a b) = true -> is_finite a = true /\ is_finite b = true /\ B2R (sub a b) = rnd (B2R a - B2R b).
Proof.
  intro F. assert (Fa : is_finite a = true) by (destruct a as [|[]| |], b as [|[]| |]; cbn in F |- *; try discriminate; reflexivity).
  assert (Fb : is_finite b = true) by (destruct a as [|[]| |], b as [|[]| |]; cbn in F |- *; try discriminate; reflexivity).
  split; [exact Fa|split; [exact Fb|]]. pose proof (Bminus_correct prec emax Hp He mode_NE a b Fa Fb) as C.
  destruct (Rlt_bool _ _); [exact (proj1 C)|]. exfalso. exact (not_over _ _ (proj1 C) F).
Qed.
Lemma mul_fin a b : is_finite (mul a b) = true -> is_finite a = true /\ is_finite b = true /\ B2R (mul a b) = rnd (B2R a * B2R b).
Proof.
  intro F. assert (Fa : is_finite a = true) by (destruct a as [|[]| |], b as [|[]| |]; cbn in F |- *; try discriminate; reflexivity).
  assert (Fb : is_finite b = true) by (destruct a as [|[]| |], b as [|[]| |]; cbn in F |- *; try discriminate; reflexivity).
  split; [exact Fa|split; [exact Fb|]]. pose proof (Bmult_correct prec emax Hp He mode_NE a b) as C.
  destruct (Rlt_bool _ _); [exact (proj1 C)|]. exfalso. exact (not_over _ _ C F).
Qed.
Lemma div_fin a b : is_finite (div a b) = true -> is_finite b = true -> is_finite a = true /\ B2R b <> 0 /\ B2R (div a b) = rnd (B2R a / B2R b).
Proof.
  intros F Fb. assert (Nb : B2R b <> 0).
  { destruct b as [s|s| |s m e B]; try discriminate Fb; [destruct a as [|[]| |]; discriminate F|].
    cbn. apply F2R_neq_0. now destruct s. }
  assert (Fa : is_finite a = true) by (destruct a as [|[]| |], b as [|[]| |]; cbn in F |- *; try discriminate; reflexivity).
  split; [exact Fa|split; [exact Nb|]]. pose proof (Bdiv_correct prec emax Hp He mode_NE a b Nb) as C.
  destruct (Rlt_bool _ _); [exact (proj1 C)|]. exfalso. exact (not_over _ _ C F).
Qed.
Lemma sqr_fin a : is_finite (sqr a) = true -> is_finite a = true /\ 0 <= B2R a /\ B2R (sqr a) = rnd (sqrt (B2R a)).
Proof.
  intro F. destruct (Bsqrt_correct prec emax Hp He mode_NE a) as (V & Fi & _). unfold fsqrt in *. rewrite F in Fi.
  destruct a as [s|s| |[] m e B]; try discriminate; (split; [reflexivity|]; split; [|exact V]); cbn; [lra|].
  apply F2R_ge_0. cbn. lia.
Qed.

(** ** backward rounding errors *)
Lemma u_gt0 : 0 < u. Proof. apply bpow_gt_0. Qed.
Lemma eta_gt0 : 0 < eta. Proof. apply bpow_gt_0. Qed.
Lemma u_le_half : u <= / 2.
Proof. change (/ 2) with (bpow radix2 (-1)). apply bpow_le. unfold Prec_gt_0 in Hp. lia. Qed.
Lemma back_plus a b : format a -> format b -> Rabs (a + b - rnd (a + b)) <= u * Rabs (rnd (a + b)).
Proof.
  intros Fa Fb. destruct (@FLT_plus_error_N_round_ex radix2 (3 - emax - prec) prec Hp (fun x => negb (Z.even x)) a b Fa Fb) as (e & E & R).
  assert (R' : a + b - rnd (a + b) = rnd (a + b) * e).
  { transitivity (rnd (a + b) * (1 + e) - rnd (a + b)); [|ring]. f_equal. exact R. }
  rewrite R', Rabs_mult, Rmult_comm. apply Rmult_le_compat_r; [apply Rabs_pos|]. rewrite <- u_ro_u. exact E.
Qed.
Lemma back_minus a b : format a -> format b -> Rabs (a - b - rnd (a - b)) <= u * Rabs (rnd (a - b)).
Proof. intros Fa Fb. apply back_plus; [exact Fa|now apply generic_format_opp]. Qed.
Lemma back_normal v : bpow radix2 (2 - emax) <= Rabs v -> Rabs (v - rnd v) <= u * Rabs (rnd v).
Proof.
  intro H. rewrite Rabs_minus_sym. pose proof (relative_error_N_FLT_round radix2 (3 - emax - prec) prec Hp (fun x => negb (Z.even x)) v) as E.
  replace (3 - emax - prec + prec - 1)%Z with (2 - emax)%Z in E by lia. specialize (E H).
  replace (/ 2 * bpow radix2 (- prec + 1)) with u in E; [exact E|].
  rewrite <- u_ro_u. reflexivity.
Qed.
Lemma back_any v : Rabs (v - rnd v) <= u * Rabs (rnd v) + eta.
Proof.
  destruct (Rle_lt_dec (bpow radix2 (2 - emax)) (Rabs v)) as [H|H].
  - pose proof (back_normal v H). pose proof eta_gt0. lra.
  - assert (B : Rabs (v - rnd v) <= eta).
    { rewrite Rabs_minus_sym. pose proof (error_le_half_ulp radix2 fexp (fun x => negb (Z.even x)) v) as E.
      assert (U : ulp radix2 fexp v = bpow radix2 (3 - emax - prec)).
      { apply (ulp_FLT_small radix2 (3 - emax - prec) prec). replace (3 - emax - prec + prec)%Z with (3 - emax)%Z by lia.
        eapply Rlt_le_trans; [exact H|]. apply bpow_le. lia. }
      rewrite U in E. replace (/ 2 * bpow radix2 (3 - emax - prec)) with eta in E; [exact E|].
      replace (3 - emax - prec)%Z with (1 + (2 - emax - prec))%Z by lia. rewrite bpow_plus. change (bpow radix2 1) with 2. lra. }
    pose proof (Rabs_pos (rnd v)). pose proof u_gt0. nra.
Qed.
(** the usual form *)
Lemma forw_any v : Rabs (rnd v - v) <= u * Rabs v + eta.
Proof.
  destruct (rel_gen prec emax Hp v) as (e & h & E & H & R). rewrite R. replace (v * (1 + e) + h - v) with (e * v + h) by ring.
  eapply Rle_trans; [apply Rabs_triang|]. rewrite Rabs_mult. pose proof (Rabs_pos v).
  replace eta with (/ 2 * bpow radix2 (3 - emax - prec)).
  - apply Rplus_le_compat; [apply Rmult_le_compat_r; assumption|exact H].
  - replace (3 - emax - prec)%Z with (1 + (2 - emax - prec))%Z by lia. rewrite bpow_plus. change (bpow radix2 1) with 2. lra.
Qed.

(** ** the loops *)
Lemma Rabs_le2 a b : Rabs a <= b -> - b <= a <= b. Proof. apply Rabs_le_inv. Qed.
Lemma pow1u n : 1 <= (1 + u) ^ n. Proof. apply pow_R1_Rle. pose proof u_gt0. lra. Qed.

Lemma Ssum_pos n f : (forall j, (j < n)%nat -> 0 <= f j) -> 0 <= Ssum n f.
Proof. induction n; intro H; cbn [Ssum]; [lra|]. assert (0 <= f n) by (apply H; lia). assert (0 <= Ssum n f) by (apply IHn; intros; apply H; lia). lra. Qed.

Lemma sub_loop (l r : nat -> float) s0 : forall m, let s := forN m (fun j s => sub s (mul (l j) (r j))) s0 in
  is_finite s = true -> is_finite s0 = true /\ (forall j, (j < m)%nat -> is_finite (l j) = true /\ is_finite (r j) = true) /\
  Rabs (B2R s0 - B2R s - Ssum m (fun j => B2R (l j) * B2R (r j)))
    <= ((1 + u) ^ m - 1) * (Rabs (B2R s) + Ssum m (fun j => Rabs (B2R (l j) * B2R (r j)))) + INR m * (1 + u) ^ m * eta.
Proof.
  induction m; intros s F.
  - unfold s in *. cbn [forN] in *. split; [exact F|]. split; [intros; lia|]. cbn. replace (B2R s0 - B2R s0 - 0) with 0 by ring. rewrite Rabs_R0. lra.
  - unfold s in F. cbn [forN] in F. apply sub_fin in F. destruct F as (F1 & F2 & V). apply mul_fin in F2. destruct F2 as (Fl & Fr & W).
    destruct (IHm F1) as (F0 & Fj & B). split; [exact F0|]. split.
    { intros j Hj. destruct (Nat.eq_dec j m) as [->|N]; [auto|apply Fj; lia]. }
    fold (forN m (fun j s => sub s (mul (l j) (r j))) s0) in *. set (sm := forN m (fun j s => sub s (mul (l j) (r j))) s0) in *.
    assert (Es : s = sub sm (mul (l m) (r m))) by reflexivity. rewrite <- Es in V. clearbody s. clear Es.
    cbn [Ssum]. rewrite S_INR. set (T := Ssum m (fun j => B2R (l j) * B2R (r j))) in *.
    set (A := Ssum m (fun j => Rabs (B2R (l j) * B2R (r j)))) in *. assert (0 <= A) by (apply Ssum_pos; intros; apply Rabs_pos).
    set (lr := B2R (l m) * B2R (r m)) in *. set (p := B2R (mul (l m) (r m))) in *.
    pose proof (back_minus (B2R sm) p (generic_format_B2R _ _ _) (generic_format_B2R _ _ _)) as E1. rewrite <- V in E1.
    pose proof (forw_any lr) as E2. rewrite <- W in E2.
    pose proof u_gt0 as U. pose proof eta_gt0 as Et. pose proof (pow1u m) as P1. set (q := (1 + u) ^ m) in *.
    change ((1 + u) ^ S m) with ((1 + u) * q). set (e := u) in *. set (h := eta) in *. clearbody e h q A T.
    assert (K1 : Rabs (B2R sm - B2R s - lr) <= e * Rabs (B2R s) + e * Rabs lr + h).
    { replace (B2R sm - B2R s - lr) with ((B2R sm - p - B2R s) + (p - lr)) by ring. eapply Rle_trans; [apply Rabs_triang|]. lra. }
    assert (K2 : Rabs (B2R sm) <= (1 + e) * Rabs (B2R s) + (1 + e) * Rabs lr + h).
    { replace (B2R sm) with ((B2R sm - B2R s - lr) + B2R s + lr) by ring. eapply Rle_trans; [apply Rabs_triang|].
      pose proof (Rabs_triang (B2R sm - B2R s - lr) (B2R s)). lra. }
    replace (B2R s0 - B2R s - (T + lr)) with ((B2R s0 - B2R sm - T) + (B2R sm - B2R s - lr)) by ring.
    eapply Rle_trans; [apply Rabs_triang|].
    assert (K3 : (q - 1) * (Rabs (B2R sm) + A) <= (q - 1) * ((1 + e) * Rabs (B2R s) + (1 + e) * Rabs lr + h + A)) by (apply Rmult_le_compat_l; lra).
    assert (Nm := pos_INR m).
    assert (K4 : (q - 1) * A <= ((1 + e) * q - 1) * A) by (apply Rmult_le_compat_r; nra).
    assert (K5 : INR m * q * h + q * h <= (INR m + 1) * ((1 + e) * q) * h).
    { replace (INR m * q * h + q * h) with ((INR m + 1) * q * h) by ring. apply Rmult_le_compat_r; [lra|]. apply Rmult_le_compat_l; nra. }
    nra.
Qed.

Lemma add_loop (l r : nat -> float) s0 T0 A0 q c0 :
  Rabs T0 <= A0 -> 1 + u <= q -> 0 <= c0 -> (is_finite s0 = true -> Rabs (B2R s0 - T0) <= (q - 1) * A0 + c0) ->
  forall m, let s := forN m (fun j s => add s (mul (l j) (r j))) s0 in
  is_finite s = true -> is_finite s0 = true /\ (forall j, (j < m)%nat -> is_finite (l j) = true /\ is_finite (r j) = true) /\
  Rabs (B2R s - (T0 + Ssum m (fun j => B2R (l j) * B2R (r j))))
    <= ((1 + u) ^ m * q - 1) * (A0 + Ssum m (fun j => Rabs (B2R (l j) * B2R (r j)))) + (1 + u) ^ m * (c0 + INR m * eta).
Proof.
  intros HT Hq Hc H0. induction m; intros s F.
  - unfold s in *. cbn [forN] in *. split; [exact F|]. split; [intros; lia|]. cbn. rewrite !Rplus_0_r, Rmult_0_l, Rplus_0_r, !Rmult_1_l. now apply H0.
  - unfold s in F. cbn [forN] in F. apply add_fin in F. destruct F as (F1 & F2 & V). apply mul_fin in F2. destruct F2 as (Fl & Fr & W).
    destruct (IHm F1) as (F0 & Fj & B). split; [exact F0|]. split.
    { intros j Hj. destruct (Nat.eq_dec j m) as [->|N]; [auto|apply Fj; lia]. }
    set (sm := forN m (fun j s => add s (mul (l j) (r j))) s0) in *.
    assert (Es : s = add sm (mul (l m) (r m))) by reflexivity. rewrite <- Es in V. clearbody s. clear Es.
    cbn [Ssum]. rewrite S_INR. set (T := Ssum m (fun j => B2R (l j) * B2R (r j))) in *.
    set (A := Ssum m (fun j => Rabs (B2R (l j) * B2R (r j)))) in *. assert (HA : 0 <= A) by (apply Ssum_pos; intros; apply Rabs_pos).
    assert (HTA : Rabs T <= A).
    { unfold T, A. clear. induction m; cbn [Ssum]; [rewrite Rabs_R0; lra|]. eapply Rle_trans; [apply Rabs_triang|]. lra. }
    set (lr := B2R (l m) * B2R (r m)) in *. set (p := B2R (mul (l m) (r m))) in *.
    destruct (rel_plus prec emax Hp (B2R sm) p (generic_format_B2R _ _ _) (generic_format_B2R _ _ _)) as (d & D & E1). rewrite <- V in E1.
    pose proof (forw_any lr) as E2. rewrite <- W in E2.
    pose proof u_gt0 as U. pose proof eta_gt0 as Et. pose proof (pow1u m) as P1. set (w := (1 + u) ^ m) in *.
    change ((1 + u) ^ S m) with ((1 + u) * w). set (e := u) in *. set (h := eta) in *. clearbody e h w A T.
    rewrite E1. replace ((B2R sm + p) * (1 + d) - (T0 + (T + lr))) with ((B2R sm - (T0 + T)) * (1 + d) + (p - lr) * (1 + d) + (T0 + (T + lr)) * d) by ring.
    assert (D1 : Rabs (1 + d) <= 1 + e) by (eapply Rle_trans; [apply Rabs_triang|]; rewrite Rabs_R1; lra).
    eapply Rle_trans; [apply Rabs_triang|]. eapply Rle_trans; [apply Rplus_le_compat_r, Rabs_triang|]. rewrite !Rabs_mult.
    assert (K1 : Rabs (B2R sm - (T0 + T)) * Rabs (1 + d) <= ((w * q - 1) * (A0 + A) + w * (c0 + INR m * h)) * (1 + e)) by (apply Rmult_le_compat; auto using Rabs_pos).
    assert (K2 : Rabs (p - lr) * Rabs (1 + d) <= (e * Rabs lr + h) * (1 + e)) by (apply Rmult_le_compat; auto using Rabs_pos).
    assert (K3 : Rabs (T0 + (T + lr)) * Rabs d <= (A0 + A + Rabs lr) * e).
    { apply Rmult_le_compat; auto using Rabs_pos. eapply Rle_trans; [apply Rabs_triang|]. pose proof (Rabs_triang T lr). lra. }
    pose proof (Rabs_pos lr). pose proof (Rabs_pos T0). pose proof (pos_INR m).
    assert (K4 : (1 + e) * (1 + e) <= (1 + e) * w * q) by (rewrite Rmult_assoc; apply Rmult_le_compat_l; nra).
    assert (K5 : h * (1 + e) <= (1 + e) * w * h) by (rewrite (Rmult_comm h); apply Rmult_le_compat_r; [lra|]; nra).
    assert (K6 : (1 + e) * (1 + e) * Rabs lr <= (1 + e) * w * q * Rabs lr) by (apply Rmult_le_compat_r; assumption).
    lra.
Qed.
End FE.
