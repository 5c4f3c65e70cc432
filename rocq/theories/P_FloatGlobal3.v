(** C68: rounding errors of the weights; topologies with at most one cone. *)
From Coq Require Import PeanoNat NArith ZArith Lia Bool List Reals Lra FunctionalExtensionality.
From Flocq Require Import Core Relative IEEE754.BinarySingleNaN.
From Verif Require Import M_Type M_RefTopo M_RefGeo M_Matrix M_MultiLinear M_Float M_FloatGlobal S_Topo S_MultiLinear
  P_Type P_RefTopo P_RSum P_RefGeo2 P_ML1 P_ML2 P_Float P_FloatNear P_FloatGlobal P_FloatGlobal2.
Import ListNotations.
Local Open Scope R_scope.

Lemma abs_le a b : Rabs a <= b <-> - b <= a <= b.
Proof. split; [apply Rabs_le_inv|apply Rabs_le]. Qed.
Lemma prod_err a a0 b b0 e g : Rabs (a - a0) <= e -> Rabs (b - b0) <= g -> Rabs (a * b - a0 * b0) <= e * Rabs b + Rabs a0 * g.
Proof.
  intros A B. replace (a * b - a0 * b0) with ((a - a0) * b + a0 * (b - b0)) by ring.
  eapply Rle_trans; [apply Rabs_triang|]. rewrite !Rabs_mult. apply Rplus_le_compat.
  - apply Rmult_le_compat_r; [apply Rabs_pos|exact A].
  - apply Rmult_le_compat_l; [apply Rabs_pos|exact B].
Qed.
Lemma near_abs a b e : Rabs (a - b) <= e -> Rabs a <= Rabs b + e.
Proof. intro H. replace a with (b + (a - b)) by ring. eapply Rle_trans; [apply Rabs_triang|]. lra. Qed.
(** one rounded product *)
Lemma step_err u h r' r c' c q eps g : 0 <= u -> 0 <= r -> 0 <= c ->
  Rabs (r' - r) <= eps -> Rabs (c' - c) <= g -> Rabs (q - r' * c') <= u * Rabs (r' * c') + h ->
  Rabs (q - r * c) <= (1 + u) * (eps * (c + g) + r * g) + u * (r * c) + h.
Proof.
  intros U R0 C0 E G Q.
  pose proof (prod_err r' r c' c eps g E G) as P. rewrite (Rabs_pos_eq r) in P by assumption.
  pose proof (near_abs _ _ _ G) as C. rewrite (Rabs_pos_eq c) in C by assumption.
  assert (E0 : 0 <= eps) by (eapply Rle_trans; [apply Rabs_pos|exact E]).
  assert (P' : Rabs (r' * c' - r * c) <= eps * (c + g) + r * g).
  { eapply Rle_trans; [exact P|]. apply Rplus_le_compat_r, Rmult_le_compat_l; assumption. }
  pose proof (near_abs _ _ _ P') as N. rewrite (Rabs_pos_eq (r * c)) in N by now apply Rmult_le_pos.
  replace (q - r * c) with ((q - r' * c') + (r' * c' - r * c)) by ring.
  eapply Rle_trans; [apply Rabs_triang|].
  assert (u * Rabs (r' * c') <= u * (r * c + (eps * (c + g) + r * g))) by now apply Rmult_le_compat_l.
  lra.
Qed.

(** distance of a list of floating point numbers to a list of real numbers *)
Section D.
Variables (prec emax : Z).
Notation float := (binary_float prec emax).
Fixpoint wdist (l : list float) (m : list R) : R :=
  match l, m with
  | a :: l, b :: m => Rabs (B2R a - b) + wdist l m
  | _, _ => 0
  end.
Lemma wdist_app l : forall l' m m', length l = length m -> wdist (l ++ l') (m ++ m') = wdist l m + wdist l' m'.
Proof.
  induction l as [|a l IH]; intros l' [|b m] m' H; try discriminate H.
  - cbn [app wdist]. ring.
  - cbn [app wdist]. rewrite IH by (simpl in H; lia). ring.
Qed.
Fixpoint lsumR (m : list R) : R := match m with [] => 0 | b :: m => b + lsumR m end.
Lemma lsumR_app m m' : lsumR (m ++ m') = lsumR m + lsumR m'.
Proof. induction m as [|a m IH]; cbn [app lsumR]; [ring|rewrite IH; ring]. Qed.
Lemma wdist_zero l : forall m, length l = length m -> (forall a, In a l -> B2R a = 0) -> (forall b, In b m -> 0 <= b) ->
  wdist l m = lsumR m.
Proof.
  induction l as [|a l IH]; intros [|b m] H Z P; try discriminate H; [reflexivity|].
  cbn [wdist lsumR]. rewrite IH.
  - rewrite (Z a) by now left. replace (0 - b) with (- b) by ring. rewrite Rabs_Ropp, Rabs_pos_eq; [ring|apply P; now left].
  - simpl in H. lia.
  - intros; apply Z; now right.
  - intros; apply P; now right.
Qed.
End D.

(** exact weights; quotients by zero occur only with weight zero *)
Fixpoint ew (T : Topo) (df : R) (x : nat -> R) (rf : R) : list R :=
  match T with
  | Pt => [rf]
  | Pri b => ew b df x (rf * (1 - df * x (tdim b))) ++ ew b df x (rf * (df * x (tdim b)))
  | Pyr b => ew b (df / (1 - df * x (tdim b))) x (rf * (1 - df * x (tdim b))) ++ [rf * (df * x (tdim b))]
  end.
Lemma ew_length T : forall df x rf, length (ew T df x rf) = nv T.
Proof. induction T as [|b IH|b IH]; intros df x rf; cbn [ew nv]; [reflexivity| |]; rewrite app_length, !IH; reflexivity. Qed.
Lemma ew_shape T : forall df x rf i, (i < nv T)%nat -> nth i (ew T df x rf) 0 = rf * shape T (fun k => df * x k) i.
Proof.
  induction T as [|b IH|b IH]; intros df x rf i Hi; cbn [ew nv shape] in *.
  - replace i with 0%nat by lia. cbn. ring.
  - destruct (Nat.ltb_spec i (nv b)).
    + rewrite app_nth1 by (rewrite ew_length; lia). rewrite IH by lia. ring.
    + rewrite app_nth2 by (rewrite ew_length; lia). rewrite ew_length, IH by lia. ring.
  - destruct (Nat.ltb_spec i (nv b)).
    + rewrite app_nth1 by (rewrite ew_length; lia). rewrite IH by lia.
      replace (fun k => df / (1 - df * x (tdim b)) * x k) with (fun k => df * x k / (1 - df * x (tdim b)))
        by (apply functional_extensionality; intro; unfold Rdiv; ring). ring.
    + rewrite app_nth2 by (rewrite ew_length; lia). rewrite ew_length. replace (i - nv b)%nat with 0%nat by lia. reflexivity.
Qed.
Lemma ew_sum T : (forall df x, lsumR (ew T df x 0) = 0) /\ forall df x rf, lsumR (ew T df x rf) = rf.
Proof.
  assert (A : forall df x rf, lsumR (ew T df x rf) = rf); [|split; auto].
  induction T as [|b IH|b IH]; intros df x rf; cbn [ew]; [cbn; ring| |]; rewrite lsumR_app, !IH; cbn [lsumR]; ring.
Qed.

Section V.
Variables (prec emax : Z).
Context (Hp : Prec_gt_0 prec) (He : Prec_lt_emax prec emax).
Hypothesis H2 : (7 <= prec)%Z.
Notation float := (binary_float prec emax).
Notation FVec := (nat -> float).
Notation fexp := (SpecFloat.fexp prec emax).
Notation rnd := (round radix2 fexp (round_mode mode_NE)).
Notation u := (bpow radix2 (- prec)).
Notation eta := (eta prec emax).
Notation add' := (fadd prec emax Hp He).
Notation sub' := (fsub prec emax Hp He).
Notation mul' := (fmul prec emax Hp He).
Notation div' := (fdiv prec emax Hp He).
Notation one := (ofZ prec emax Hp He 1).
Notation zero := (ofZ prec emax Hp He 0).
Notation away' := (faway prec emax Hp He).
Notation is := (is prec emax).
Notation fw := (fw prec emax Hp He).
Notation wdist := (wdist prec emax).

Lemma u_small : 0 < u <= / 128.
Proof.
  split; [apply bpow_gt_0|]. apply Rle_trans with (bpow radix2 (-7)); [apply bpow_le; lia|].
  cbn. lra.
Qed.
Lemma eta_small : 0 < eta <= u / 32.
Proof.
  split; [apply bpow_gt_0|]. unfold eta. pose proof (prec_emax prec emax He).
  apply Rle_trans with (bpow radix2 (- prec + -5)); [apply bpow_le; lia|]. rewrite bpow_plus.
  replace (bpow radix2 (-5)) with (/ 32) by (cbn; lra). lra.
Qed.
Lemma rnd_normal v : bpow radix2 (2 - emax) <= Rabs v -> Rabs (rnd v - v) <= u * Rabs v.
Proof.
  intros L. eapply Rle_trans.
  - apply (relative_error_N_FLT radix2 (SpecFloat.emin prec emax) prec Hp (fun x => negb (Z.even x)) v).
    eapply Rle_trans; [|exact L]. apply bpow_le. unfold SpecFloat.emin. lia.
  - apply Req_le. replace (/ 2) with (bpow radix2 (-1)) by reflexivity. rewrite <- bpow_plus. do 2 f_equal. lia.
Qed.
Lemma rnd_pow v e : (3 - emax - prec <= e)%Z -> Rabs v <= bpow radix2 e -> Rabs (rnd v) <= bpow radix2 e.
Proof. intros E H. apply abs_round_le_generic; [typeclasses eauto..| |exact H]. apply format_bpow; try assumption; lia. Qed.
Lemma rnd_pow_ge v e : (3 - emax - prec <= e)%Z -> bpow radix2 e <= Rabs v -> bpow radix2 e <= Rabs (rnd v).
Proof. intros E H. apply abs_round_ge_generic; [typeclasses eauto..| |exact H]. apply format_bpow; try assumption; lia. Qed.

Lemma fsub_ok (a b : float) : is_finite a = true -> is_finite b = true -> Rabs (B2R a - B2R b) <= bpow radix2 (emax - 1) ->
  B2R (sub' a b) = rnd (B2R a - B2R b) /\ is_finite (sub' a b) = true.
Proof.
  intros Fa Fb L. unfold fsub. pose proof (Bminus_correct prec emax Hp He mode_NE a b Fa Fb) as C.
  rewrite Rlt_bool_true in C by (apply rnd_bound2; first [assumption | lia]). destruct C as (C1 & C2 & _). auto.
Qed.
Lemma fadd_ok (a b : float) : is_finite a = true -> is_finite b = true -> Rabs (B2R a + B2R b) <= bpow radix2 (emax - 1) ->
  B2R (add' a b) = rnd (B2R a + B2R b) /\ is_finite (add' a b) = true.
Proof.
  intros Fa Fb L. unfold fadd. pose proof (Bplus_correct prec emax Hp He mode_NE a b Fa Fb) as C.
  rewrite Rlt_bool_true in C by (apply rnd_bound2; first [assumption | lia]). destruct C as (C1 & C2 & _). auto.
Qed.
Lemma fdiv_ok (a b : float) : is_finite a = true -> B2R b <> 0 -> Rabs (B2R a / B2R b) <= bpow radix2 (emax - 1) ->
  B2R (div' a b) = rnd (B2R a / B2R b) /\ is_finite (div' a b) = true.
Proof.
  intros Fa Nb L. unfold fdiv. pose proof (Bdiv_correct prec emax Hp He mode_NE a b Nb) as C.
  rewrite Rlt_bool_true in C by (apply rnd_bound2; first [assumption | lia]). destruct C as (C1 & C2 & _). split; [exact C1|congruence].
Qed.
Lemma big1 e : 0 <= IZR e -> (e <= emax - 1)%Z -> forall v, Rabs v <= bpow radix2 e -> Rabs v <= bpow radix2 (emax - 1).
Proof. intros _ H v L. eapply Rle_trans; [exact L|now apply bpow_le]. Qed.

(** ** weight zero *)
Fixpoint cones (T : Topo) : nat := match T with Pt => 0 | Pri b => cones b | Pyr b => S (cones b) end.
Lemma fw_zero T : forall df x rf e, is rf 0 -> is_finite df = true -> Rabs (B2R df) <= bpow radix2 e ->
  (0 <= e)%Z -> (e + (prec - 5) * Z.of_nat (cones T) + 2 <= emax)%Z ->
  (forall k, (k < tdim T)%nat -> is_finite (x k) = true /\ 0 <= B2R (x k) <= 1) ->
  forall a, In a (fw T df x rf) -> is a 0.
Proof.
  induction T as [|b IH|b IH]; intros df x rf e Hrf Fdf Ldf E0 E Hx a Ha; cbn [P_FloatGlobal.fw] in Ha.
  - destruct Ha as [<-|[]]. exact Hrf.
  - cbn [cones tdim] in *. cbv zeta in Ha.
    assert (E1 : (e + 2 <= emax)%Z).
    { pose proof (Zle_0_nat (cones b)). nia. }
    destruct (Hx (tdim b) (Nat.lt_succ_diag_r _)) as (Fx & X0).
    assert (Lv : Rabs (B2R df * B2R (x (tdim b))) <= bpow radix2 e).
    { rewrite Rabs_mult, (Rabs_pos_eq (B2R (x _))) by lra. pose proof (Rabs_pos (B2R df)). nra. }
    destruct (fmul_ok prec emax Hp He ltac:(lia) df (x (tdim b)) Fdf Fx) as (M1 & M2).
    { eapply Rle_trans; [exact Lv|apply bpow_le; lia]. }
    pose proof (prec_emax prec emax He) as PE.
    assert (Lx : Rabs (B2R (mul' df (x (tdim b)))) <= bpow radix2 e) by (rewrite M1; apply rnd_pow; [lia|exact Lv]).
    destruct (is_one prec emax Hp He ltac:(lia)) as (F1 & O1).
    destruct (fsub_ok one (mul' df (x (tdim b))) F1 M2) as (_ & S2).
    { rewrite O1. assert (1 <= bpow radix2 e) by (change 1 with (bpow radix2 0); apply bpow_le; lia).
      assert (bpow radix2 (e + 1) <= bpow radix2 (emax - 1)) by (apply bpow_le; lia).
      rewrite bpow_plus in H0. change (bpow radix2 1) with 2 in H0.
      apply abs_le. apply abs_le in Lx. lra. }
    pose proof (is_zero prec emax Hp He) as O0.
    assert (Hx' : forall k, (k < tdim b)%nat -> is_finite (x k) = true /\ 0 <= B2R (x k) <= 1) by (intros; apply Hx; lia).
    apply in_app_or in Ha. destruct Ha as [Ha|Ha]; revert Ha; apply (IH _ _ _ e); auto.
    + eapply mul_exact; [exact Hrf|split; [exact S2|reflexivity]|exact O0|ring].
    + eapply mul_exact; [exact Hrf|split; [exact M2|reflexivity]|exact O0|ring].
  - cbn [cones tdim] in *. cbv zeta in Ha.
    assert (E1 : (e + (prec - 5) + 2 <= emax)%Z).
    { pose proof (Zle_0_nat (cones b)). rewrite Nat2Z.inj_succ in E. nia. }
    destruct (Hx (tdim b) (Nat.lt_succ_diag_r _)) as (Fx & X0).
    assert (Lv : Rabs (B2R df * B2R (x (tdim b))) <= bpow radix2 e).
    { rewrite Rabs_mult, (Rabs_pos_eq (B2R (x _))) by lra. pose proof (Rabs_pos (B2R df)). nra. }
    destruct (fmul_ok prec emax Hp He ltac:(lia) df (x (tdim b)) Fdf Fx) as (M1 & M2).
    { eapply Rle_trans; [exact Lv|apply bpow_le; lia]. }
    pose proof (prec_emax prec emax He) as PE.
    assert (Lx : Rabs (B2R (mul' df (x (tdim b)))) <= bpow radix2 e) by (rewrite M1; apply rnd_pow; [lia|exact Lv]).
    destruct (is_one prec emax Hp He ltac:(lia)) as (F1 & O1).
    destruct (fsub_ok one (mul' df (x (tdim b))) F1 M2) as (S1 & S2).
    { rewrite O1. assert (1 <= bpow radix2 e) by (change 1 with (bpow radix2 0); apply bpow_le; lia).
      assert (bpow radix2 (e + 1) <= bpow radix2 (emax - 1)) by (apply bpow_le; lia).
      rewrite bpow_plus in H0. change (bpow radix2 1) with 2 in H0.
      apply abs_le. apply abs_le in Lx. lra. }
    pose proof (is_zero prec emax Hp He) as O0.
    assert (Hx' : forall k, (k < tdim b)%nat -> is_finite (x k) = true /\ 0 <= B2R (x k) <= 1) by (intros; apply Hx; lia).
    assert (Z1 : is (mul' rf (sub' one (mul' df (x (tdim b))))) 0)
      by (eapply mul_exact; [exact Hrf|split; [exact S2|reflexivity]|exact O0|ring]).
    assert (Z2 : is (mul' rf (mul' df (x (tdim b)))) 0)
      by (eapply mul_exact; [exact Hrf|split; [exact M2|reflexivity]|exact O0|ring]).
    apply in_app_or in Ha. destruct Ha as [Ha|[<-|[]]]; [|exact Z2].
    destruct (away' (sub' one (mul' df (x (tdim b))))) eqn:AW; revert Ha.
    + apply away_spec in AW; try assumption; try lia.
      set (c := sub' one (mul' df (x (tdim b)))) in *.
      pose proof (bpow_gt_0 radix2 (- prec)) as U.
      assert (Nc : B2R c <> 0) by (intro Q; rewrite Q, Rabs_R0 in AW; lra).
      assert (Lq : Rabs (B2R df / B2R c) <= bpow radix2 (e + (prec - 5))).
      { unfold Rdiv. rewrite Rabs_mult, Rabs_inv, bpow_plus. apply Rmult_le_compat; [apply Rabs_pos| |exact Ldf|].
        - apply Rlt_le, Rinv_0_lt_compat, Rabs_pos_lt. exact Nc.
        - replace (prec - 5)%Z with (- (5 + - prec))%Z by lia. rewrite bpow_opp.
          apply Rinv_le_contravar; [apply bpow_gt_0|]. rewrite bpow_plus.
          replace (bpow radix2 5) with 32 by (cbn; lra). lra. }
      destruct (fdiv_ok df c Fdf Nc) as (D1 & D2).
      { eapply Rle_trans; [exact Lq|apply bpow_le; lia]. }
      apply (IH _ _ _ (e + (prec - 5))%Z); auto; try lia.
      rewrite D1. apply rnd_pow; [lia|exact Lq].
    + apply (IH _ _ _ e); auto. lia.
Qed.

(** ** prisms: the factor is nearly right *)
Lemma bern b : 0 <= b -> forall d, (1 + b) ^ d * (1 - INR d * b) <= 1.
Proof.
  intros B. induction d as [|d IH]; [simpl; lra|]. rewrite S_INR. cbn [pow].
  pose proof (pow_le (1 + b) d ltac:(lra)) as P. pose proof (pos_INR d) as Q.
  apply Rle_trans with ((1 + b) ^ d * (1 - INR d * b)); [|exact IH].
  replace ((1 + b) * (1 + b) ^ d * (1 - (INR d + 1) * b)) with ((1 + b) ^ d * ((1 + b) * (1 - (INR d + 1) * b))) by ring.
  apply Rmult_le_compat_l; [exact P|]. nra.
Qed.

Definition Ebound (b kap : R) (d : nat) (eps rf : R) : R :=
  (1 + b) ^ d * (eps + kap * rf) + INR d * 2 ^ d * (1 + b) ^ d * eta.

(** two branches *)
Lemma Ebound_split b kap d eps eps1 eps2 rf rf1 rf2 : 0 <= b -> 0 <= kap -> 0 <= eps -> 0 <= rf ->
  rf1 + rf2 = rf -> eps1 + eps2 <= eps * (1 + b) + b * rf + 2 * eta ->
  Ebound b kap d eps1 rf1 + Ebound b kap d eps2 rf2 <= Ebound b (kap + b) (S d) eps rf.
Proof.
  intros B K E0 R0 RR EE. unfold Ebound. set (G := (1 + b) ^ d).
  assert (G1 : 1 <= G) by (apply pow_R1_Rle; lra). cbn [pow]. fold G.
  assert (P : 1 <= 2 ^ d) by (apply pow_R1_Rle; lra). rewrite S_INR.
  pose proof (pos_INR d) as Q. destruct eta_small as (N0 & _). set (P2 := 2 ^ d) in *. clearbody P2.
  replace (G * (eps1 + kap * rf1) + INR d * P2 * G * eta + (G * (eps2 + kap * rf2) + INR d * P2 * G * eta))
    with (G * (eps1 + eps2 + kap * rf) + 2 * (INR d * P2 * G * eta)) by (rewrite <- RR; ring).
  apply Rle_trans with (G * (eps * (1 + b) + b * rf + 2 * eta + kap * rf) + 2 * (INR d * P2 * G * eta)).
  - apply Rplus_le_compat_r, Rmult_le_compat_l; lra.
  - assert (G0 : 0 <= G) by lra.
    replace ((1 + b) * G * (eps + (kap + b) * rf)) with (G * (eps * (1 + b) + (1 + b) * ((kap + b) * rf))) by ring.
    assert (X1 : (kap + b) * rf <= (1 + b) * ((kap + b) * rf)).
    { assert (0 <= (kap + b) * rf) by (apply Rmult_le_pos; lra). nra. }
    assert (X2 : G * (eps * (1 + b) + b * rf + 2 * eta + kap * rf) <= G * (eps * (1 + b) + (1 + b) * ((kap + b) * rf)) + 2 * (P2 * (G * eta))).
    { assert (G * eta <= P2 * (G * eta)).
      { assert (0 <= G * eta) by (apply Rmult_le_pos; lra). nra. }
      assert (G * ((kap + b) * rf) <= G * ((1 + b) * ((kap + b) * rf))) by (apply Rmult_le_compat_l; lra).
      lra. }
    replace ((INR d + 1) * (2 * P2) * ((1 + b) * G) * eta) with (2 * ((INR d + 1) * P2 * (G * eta)) + 2 * b * ((INR d + 1) * P2 * (G * eta))) by ring.
    assert (0 <= 2 * b * ((INR d + 1) * P2 * (G * eta))).
    { repeat apply Rmult_le_pos; try lra. }
    replace (2 * (INR d * P2 * G * eta)) with (2 * (INR d * P2 * (G * eta))) by ring.
    lra.
Qed.

(** the two errors of one level of the recursion *)
Lemma level_err (r' r c' c x' x q1 q2 eps a : R) : 0 <= r -> 0 <= x <= 1 -> c = 1 - x -> 0 <= eps -> 0 <= a <= / 16 ->
  Rabs (r' - r) <= eps -> Rabs (c' - c) <= a + u -> Rabs (x' - x) <= a ->
  Rabs (q1 - r' * c') <= u * Rabs (r' * c') + eta -> Rabs (q2 - r' * x') <= u * Rabs (r' * x') + eta ->
  exists eps1 eps2, Rabs (q1 - r * c) <= eps1 /\ Rabs (q2 - r * x) <= eps2 /\ 0 <= eps1 /\ 0 <= eps2 /\
    eps1 + eps2 <= eps * (1 + (2 * a + 3 * u)) + (2 * a + 3 * u) * r + 2 * eta.
Proof.
  intros R0 X C E0 A0 E Ec Ex Q1 Q2. destruct u_small as (U0 & U1).
  assert (C0 : 0 <= c) by lra.
  pose proof (step_err u eta r' r c' c q1 eps (a + u) ltac:(lra) R0 C0 E Ec Q1) as S1.
  pose proof (step_err u eta r' r x' x q2 eps a ltac:(lra) R0 ltac:(lra) E Ex Q2) as S2.
  eexists. eexists. split; [exact S1|]. split; [exact S2|].
  split; [eapply Rle_trans; [apply Rabs_pos|exact S1]|]. split; [eapply Rle_trans; [apply Rabs_pos|exact S2]|].
  subst c.
  replace ((1 + u) * (eps * (1 - x + (a + u)) + r * (a + u)) + u * (r * (1 - x)) + eta +
    ((1 + u) * (eps * (x + a) + r * a) + u * (r * x) + eta))
    with (eps * ((1 + u) * (1 + 2 * a + u)) + r * ((1 + u) * (2 * a + u) + u) + 2 * eta) by ring.
  assert (B1 : (1 + u) * (1 + 2 * a + u) <= 1 + (2 * a + 3 * u)) by nra.
  assert (B2 : (1 + u) * (2 * a + u) + u <= 2 * a + 3 * u) by nra.
  assert (eps * ((1 + u) * (1 + 2 * a + u)) <= eps * (1 + (2 * a + 3 * u))) by (apply Rmult_le_compat_l; lra).
  assert (r * ((1 + u) * (2 * a + u) + u) <= r * (2 * a + 3 * u)) by (apply Rmult_le_compat_l; lra).
  lra.
Qed.

(** evaluation of one level in floating point arithmetic *)
Lemma level_fp (rf xn : float) e : is_finite rf = true -> is_finite xn = true -> Rabs (B2R rf) <= bpow radix2 e ->
  (0 <= e)%Z -> (e + 2 <= emax)%Z -> Rabs (B2R xn) <= 3 / 2 -> Rabs (1 - B2R xn) <= 3 / 2 ->
  let c := sub' one xn in
  is_finite c = true /\ Rabs (B2R c - (1 - B2R xn)) <= u /\
  is_finite (mul' rf c) = true /\ is_finite (mul' rf xn) = true /\
  Rabs (B2R (mul' rf c) - B2R rf * B2R c) <= u * Rabs (B2R rf * B2R c) + eta /\
  Rabs (B2R (mul' rf xn) - B2R rf * B2R xn) <= u * Rabs (B2R rf * B2R xn) + eta /\
  Rabs (B2R (mul' rf c)) <= bpow radix2 (e + 1) /\ Rabs (B2R (mul' rf xn)) <= bpow radix2 (e + 1).
Proof.
  intros Fr Fx Lr E0 E1 Lx Lc c. destruct u_small as (U0 & U1). pose proof (prec_emax prec emax He) as PE.
  destruct (is_one prec emax Hp He ltac:(lia)) as (F1 & O1).
  destruct (fsub_small prec emax Hp He ltac:(lia) one xn F1 Fx) as (S1 & S2); [rewrite O1; lra|]. fold c in S1, S2. rewrite O1 in S1.
  pose proof (rnd_err prec emax Hp He ltac:(lia) (1 - B2R xn) ltac:(lra)) as S3. rewrite <- S1 in S3.
  assert (C2 : Rabs (B2R c) <= 2) by (pose proof (near_abs _ _ _ S3); lra).
  assert (B0 : 0 < bpow radix2 e) by apply bpow_gt_0.
  assert (EB : bpow radix2 (e + 1) = 2 * bpow radix2 e) by (rewrite bpow_plus; change (bpow radix2 1) with 2; ring).
  assert (L1 : Rabs (B2R rf * B2R c) <= bpow radix2 (e + 1)).
  { rewrite Rabs_mult, EB. pose proof (Rabs_pos (B2R rf)). pose proof (Rabs_pos (B2R c)). nra. }
  assert (L2 : Rabs (B2R rf * B2R xn) <= bpow radix2 (e + 1)).
  { rewrite Rabs_mult, EB. pose proof (Rabs_pos (B2R rf)). pose proof (Rabs_pos (B2R xn)). nra. }
  assert (LM : bpow radix2 (e + 1) <= bpow radix2 (emax - 1)) by (apply bpow_le; lia).
  destruct (fmul_ok prec emax Hp He ltac:(lia) rf c Fr S2) as (M1 & M2); [lra|].
  destruct (fmul_ok prec emax Hp He ltac:(lia) rf xn Fr Fx) as (M3 & M4); [lra|].
  repeat split; auto.
  - rewrite M1. now apply rnd_rel.
  - rewrite M3. now apply rnd_rel.
  - rewrite M1. apply rnd_pow; [lia|exact L1].
  - rewrite M3. apply rnd_pow; [lia|exact L2].
Qed.

Lemma prisms_err a : 0 <= a <= / 16 -> forall T, cones T = 0%nat -> forall df dfR (x : FVec) rf r eps e,
  (forall k, (k < tdim T)%nat -> is_finite (mul' df (x k)) = true /\ 0 <= dfR * B2R (x k) <= 1 /\
     Rabs (B2R (mul' df (x k)) - dfR * B2R (x k)) <= a) ->
  is_finite rf = true -> Rabs (B2R rf) <= bpow radix2 e -> (0 <= e)%Z -> (e + Z.of_nat (tdim T) + 1 <= emax)%Z ->
  0 <= r -> 0 <= eps -> Rabs (B2R rf - r) <= eps ->
  Forall (fun w => is_finite w = true) (fw T df x rf) /\
  wdist (fw T df x rf) (ew T dfR (fun k => B2R (x k)) r) <= Ebound (2 * a + 3 * u) (INR (tdim T) * (2 * a + 3 * u)) (tdim T) eps r.
Proof.
  intros A. destruct u_small as (U0 & U1).
  induction T as [|b IH|b IH]; intros Z df dfR x rf r eps e Hx Fr Lr E0 E1 R0 P0 Ee; cbn [cones] in Z; [| |discriminate Z].
  - cbn [P_FloatGlobal.fw ew P_FloatGlobal3.wdist tdim]. split; [repeat constructor; exact Fr|]. unfold Ebound. cbn [INR pow]. lra.
  - cbn [P_FloatGlobal.fw ew tdim] in *. cbv zeta.
    destruct (Hx (tdim b) (Nat.lt_succ_diag_r _)) as (Fx & X & Ex).
    set (xn := mul' df (x (tdim b))) in *. set (xr := dfR * B2R (x (tdim b))) in *.
    pose proof Ex as Ex'. apply abs_le in Ex'.
    destruct (level_fp rf xn e Fr Fx Lr E0 ltac:(lia)) as (Fc & Ec & F1 & F2 & Q1 & Q2 & L1 & L2); [apply abs_le; lra|apply abs_le; lra|].
    set (c := sub' one xn) in *.
    assert (Ec' : Rabs (B2R c - (1 - xr)) <= a + u) by (apply abs_le; apply abs_le in Ec; lra).
    destruct (level_err _ _ _ (1 - xr) _ xr _ _ eps a R0 X eq_refl P0 A Ee Ec' Ex Q1 Q2) as (e1 & e2 & W1 & W2 & P1 & P2 & SE).
    assert (Hx' : forall k, (k < tdim b)%nat -> is_finite (mul' df (x k)) = true /\ 0 <= dfR * B2R (x k) <= 1 /\
      Rabs (B2R (mul' df (x k)) - dfR * B2R (x k)) <= a) by (intros; apply Hx; lia).
    destruct (IH Z df dfR x (mul' rf c) (r * (1 - xr)) e1 (e + 1)%Z Hx' F1 L1 ltac:(lia) ltac:(lia)) as (G1 & D1); auto;
      [apply Rmult_le_pos; lra|].
    destruct (IH Z df dfR x (mul' rf xn) (r * xr) e2 (e + 1)%Z Hx' F2 L2 ltac:(lia) ltac:(lia)) as (G2 & D2); auto;
      [apply Rmult_le_pos; lra|].
    split; [apply Forall_app; now split|].
    rewrite wdist_app by (rewrite fw_length, ew_length; reflexivity).
    eapply Rle_trans; [apply Rplus_le_compat; [exact D1|exact D2]|].
    rewrite S_INR. replace ((INR (tdim b) + 1) * (2 * a + 3 * u)) with (INR (tdim b) * (2 * a + 3 * u) + (2 * a + 3 * u)) by ring.
    apply Ebound_split; auto; try lra.
    + apply Rmult_le_pos; [apply pos_INR|lra].
Qed.
End V.
