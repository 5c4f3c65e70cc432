(** C68: rounding errors of the weights of topologies with at most one cone. *)
From Coq Require Import PeanoNat NArith ZArith Lia Bool List Reals Lra FunctionalExtensionality.
From Flocq Require Import Core Relative IEEE754.BinarySingleNaN.
From Verif Require Import M_Type M_RefTopo M_RefGeo M_Matrix M_MultiLinear M_Float M_FloatGlobal S_Topo S_MultiLinear
  P_Type P_RefTopo P_RSum P_RefGeo2 P_ML1 P_ML2 P_Float P_FloatNear P_FloatGlobal P_FloatGlobal2 P_FloatGlobal3.
Import ListNotations.
Local Open Scope R_scope.

Lemma insideT_bounds T : forall x a, insideT T x a -> forall k, (k < tdim T)%nat -> 0 <= x k <= a.
Proof.
  induction T as [|b IH|b IH]; intros x a H k Hk; cbn [insideT tdim] in *; [lia| |]; destruct H as (H1 & H).
  - destruct (Nat.eq_dec k (tdim b)) as [->|N]; [exact H1|]. apply (IH x a H). lia.
  - destruct (Nat.eq_dec k (tdim b)) as [->|N]; [exact H1|]. pose proof (IH x _ H k ltac:(lia)). lra.
Qed.
Lemma ew_nonneg T : forall df x rf, 0 <= rf -> insideT T (fun k => df * x k) 1 -> forall b, In b (ew T df x rf) -> 0 <= b.
Proof.
  intros df x rf R0 H b Hb. destruct (In_nth _ _ 0 Hb) as (i & Hi & <-). rewrite ew_length in Hi.
  rewrite ew_shape by assumption. apply Rmult_le_pos; [exact R0|]. now apply shape_nonneg.
Qed.

Section V.
Variables (prec emax : Z).
Context (Hp : Prec_gt_0 prec) (He : Prec_lt_emax prec emax).
Hypothesis H2 : (7 <= prec)%Z.
Notation float := (binary_float prec emax).
Notation FVec := (nat -> float).
Notation fexp := (SpecFloat.fexp prec emax).
Notation rnd := (round radix2 fexp (round_mode mode_NE)).
Notation u := (bpow radix2 (- prec)).
Notation eta := (eta prec emax).
Notation add' := (fadd prec emax Hp He).
Notation sub' := (fsub prec emax Hp He).
Notation mul' := (fmul prec emax Hp He).
Notation div' := (fdiv prec emax Hp He).
Notation one := (ofZ prec emax Hp He 1).
Notation zero := (ofZ prec emax Hp He 0).
Notation away' := (faway prec emax Hp He).
Notation is := (is prec emax).
Notation fw := (fw prec emax Hp He).
Notation wdist := (wdist prec emax).
Notation Eb := (Ebound prec emax).

Lemma Ebound_ge b kap d eps r : 0 <= b -> 0 <= kap -> 0 <= eps -> 0 <= r -> eps <= Eb b kap d eps r.
Proof.
  intros B K E R0. unfold Ebound. assert (G1 : 1 <= (1 + b) ^ d) by (apply pow_R1_Rle; lra).
  set (G := (1 + b) ^ d) in *. clearbody G.
  assert (0 <= INR d * 2 ^ d * G * eta).
  { repeat apply Rmult_le_pos; try lra; [apply pos_INR|apply pow_le; lra|]. apply Rlt_le, bpow_gt_0. }
  assert (0 <= kap * r) by now apply Rmult_le_pos. nra.
Qed.
Lemma Ebound_mono b kap kap' d eps r : 0 <= b -> 0 <= r -> kap <= kap' -> Eb b kap d eps r <= Eb b kap' d eps r.
Proof.
  intros B R0 K. unfold Ebound. apply Rplus_le_compat_r, Rmult_le_compat_l; [apply pow_le; lra|].
  apply Rplus_le_compat_l, Rmult_le_compat_r; assumption.
Qed.

(** the factor of the base of the cone: 1 / (1 - x) *)
Lemma cone_factor (df xn : float) (xr : R) : is df 1 -> is xn xr -> 0 <= xr <= 1 -> away' (sub' one xn) = true ->
  0 < 1 - xr /\ is_finite (div' df (sub' one xn)) = true /\
  Rabs (B2R (div' df (sub' one xn)) - 1 / (1 - xr)) <= 3 * u * (1 / (1 - xr)).
Proof.
  intros (Fd & Ed) (Fx & Ex) X AW. destruct (u_small prec H2) as (U0 & U1).
  pose proof (prec_emax prec emax He) as PE.
  destruct (is_one prec emax Hp He ltac:(lia)) as (F1 & O1).
  destruct (fsub_small prec emax Hp He ltac:(lia) one xn F1 Fx) as (S1 & S2); [rewrite O1, Ex; apply abs_le; lra|].
  rewrite O1, Ex in S1. set (c := sub' one xn) in *.
  apply away_spec in AW; try assumption; try lia.
  pose proof (rnd_err prec emax Hp He ltac:(lia) (1 - xr) ltac:(apply Rabs_def1; lra)) as S3. rewrite <- S1 in S3.
  pose proof (near_abs _ _ _ S3) as NA. rewrite (Rabs_pos_eq (1 - xr)) in NA by lra.
  assert (C0 : 31 * u < 1 - xr) by lra.
  assert (S4 : Rabs (B2R c - (1 - xr)) <= u * (1 - xr)).
  { rewrite S1. replace (u * (1 - xr)) with (u * Rabs (1 - xr)) by (rewrite Rabs_pos_eq by lra; reflexivity).
    apply rnd_normal; try assumption. rewrite Rabs_pos_eq by lra.
    apply Rle_trans with (bpow radix2 (4 + - prec)); [apply bpow_le; lia|]. rewrite bpow_plus.
    replace (bpow radix2 4) with 16 by (cbn; lra). lra. }
  apply abs_le in S4. set (w := 1 - xr) in *.
  assert (W0 : 0 < w) by lra. assert (W1 : w <= 1) by (unfold w; lra).
  assert (Cp : 0 < B2R c) by nra.
  set (q := 1 / B2R c).
  assert (Q0 : 0 < q) by (unfold q; apply Rdiv_lt_0_compat; lra).
  assert (Qc : q * B2R c = 1) by (unfold q; field; lra).
  set (v := 1 / w). assert (V0 : 0 < v) by (unfold v; apply Rdiv_lt_0_compat; lra).
  assert (Vw : v * w = 1) by (unfold v; field; lra).
  assert (V1 : 1 <= v) by nra.
  (* q / v = w / c *)
  assert (Qv : q * (1 - u) <= v /\ v <= q * (1 + u)).
  { assert (E1 : q * w = q * w * (q * B2R c)) by (rewrite Qc; ring).
    split.
    - apply Rmult_le_reg_r with w; [exact W0|]. rewrite Vw. replace (q * (1 - u) * w) with (q * (w - u * w)) by ring.
      rewrite <- Qc. apply Rmult_le_compat_l; lra.
    - apply Rmult_le_reg_r with w; [exact W0|]. rewrite Vw. replace (q * (1 + u) * w) with (q * (w + u * w)) by ring.
      rewrite <- Qc. apply Rmult_le_compat_l; lra. }
  destruct Qv as (Qv1 & Qv2).
  assert (Qhalf : / 2 <= q) by nra.
  assert (Lq : q <= bpow radix2 (prec - 5)).
  { unfold q. replace (prec - 5)%Z with (- (5 + - prec))%Z by lia. rewrite bpow_opp. unfold Rdiv. rewrite Rmult_1_l.
    apply Rinv_le_contravar; [apply bpow_gt_0|]. rewrite bpow_plus. replace (bpow radix2 5) with 32 by (cbn; lra).
    rewrite Rabs_pos_eq in AW by lra. lra. }
  destruct (fdiv_ok prec emax Hp He H2 df c Fd ltac:(lra)) as (D1 & D2).
  { rewrite Ed. fold q. rewrite Rabs_pos_eq by lra. eapply Rle_trans; [exact Lq|apply bpow_le; lia]. }
  split; [exact W0|]. split; [exact D2|]. rewrite D1, Ed. fold q. fold v.
  pose proof (rnd_normal prec emax Hp q) as N. rewrite Rabs_pos_eq in N by lra.
  assert (N' : Rabs (rnd q - q) <= u * q).
  { apply N. apply Rle_trans with (/ 2); [|exact Qhalf]. replace (/ 2) with (bpow radix2 (-1)) by reflexivity. apply bpow_le. lia. }
  apply abs_le in N'. apply abs_le.
  assert (q <= v + 3 / 2 * u * v) by nra. assert (v - u * v <= q) by nra.
  split; nra.
Qed.

Lemma onecone_err : forall T, (cones T <= 1)%nat -> forall df (x : FVec) rf r eps e,
  is df 1 -> (forall k, (k < tdim T)%nat -> is_finite (x k) = true) -> insideT T (fun k => B2R (x k)) 1 ->
  is_finite rf = true -> Rabs (B2R rf) <= bpow radix2 e -> (0 <= e)%Z -> (e + Z.of_nat (tdim T) + 1 <= emax)%Z ->
  0 <= r -> 0 <= eps -> Rabs (B2R rf - r) <= eps ->
  Forall (fun w => is_finite w = true) (fw T df x rf) /\
  wdist (fw T df x rf) (ew T 1 (fun k => B2R (x k)) r) <= Eb (13 * u) (INR (tdim T) * (13 * u) + 33 * u) (tdim T) eps r.
Proof.
  destruct (u_small prec H2) as (U0 & U1). destruct (eta_small prec emax He H2) as (N0 & N1).
  induction T as [|b IH|b IH]; intros Z df x rf r eps e Hdf Fxs Hin Fr Lr E0 E1 R0 P0 Ee.
  - cbn [P_FloatGlobal.fw ew P_FloatGlobal3.wdist tdim]. split; [repeat constructor; exact Fr|]. unfold Ebound. cbn [INR pow].
    assert (0 <= 33 * u * r) by (apply Rmult_le_pos; lra). lra.
  - cbn [cones P_FloatGlobal.fw ew tdim insideT] in *. cbv zeta. destruct Hin as (X & Hin). cbn beta in X.
    assert (Hxn : is (mul' df (x (tdim b))) (B2R (x (tdim b)))).
    { assert (Fx0 : is (x (tdim b)) (B2R (x (tdim b)))) by (split; [apply Fxs; lia|reflexivity]).
      eapply mul_exact; [exact Hdf|exact Fx0|exact Fx0|ring]. }
    set (xn := mul' df (x (tdim b))) in *. replace (1 * B2R (x (tdim b))) with (B2R (x (tdim b))) by ring.
    set (xr := B2R (x (tdim b))) in *. destruct Hxn as (Fx & Exn).
    destruct (level_fp prec emax Hp He H2 rf xn e Fr Fx Lr E0 ltac:(lia)) as (Fc & Ec & F1 & F2 & Q1 & Q2 & L1 & L2); [apply abs_le; lra|apply abs_le; lra|].
    set (c := sub' one xn) in *. rewrite Exn in Ec, Q2.
    assert (A : 0 <= 5 * u <= / 16) by lra.
    assert (Ec' : Rabs (B2R c - (1 - xr)) <= 5 * u + u) by lra.
    assert (Ex : Rabs (xr - xr) <= 5 * u) by (rewrite Rminus_diag_eq, Rabs_R0 by reflexivity; lra).
    destruct (level_err prec emax H2 _ _ _ (1 - xr) _ xr _ _ eps (5 * u) R0 X eq_refl P0 A Ee Ec' Ex Q1 Q2) as (e1 & e2 & W1 & W2 & P1 & P2 & SE).
    replace (2 * (5 * u) + 3 * u) with (13 * u) in SE by ring.
    assert (Fxs' : forall k, (k < tdim b)%nat -> is_finite (x k) = true) by (intros; apply Fxs; lia).
    destruct (IH Z df x (mul' rf c) (r * (1 - xr)) e1 (e + 1)%Z Hdf Fxs' Hin F1 L1 ltac:(lia) ltac:(lia)) as (G1 & D1); auto;
      [apply Rmult_le_pos; lra|].
    destruct (IH Z df x (mul' rf xn) (r * xr) e2 (e + 1)%Z Hdf Fxs' Hin F2 L2 ltac:(lia) ltac:(lia)) as (G2 & D2); auto;
      [apply Rmult_le_pos; lra|].
    split; [apply Forall_app; now split|].
    rewrite wdist_app by (rewrite fw_length, ew_length; reflexivity).
    eapply Rle_trans; [apply Rplus_le_compat; [exact D1|exact D2]|].
    rewrite S_INR. replace ((INR (tdim b) + 1) * (13 * u) + 33 * u) with (INR (tdim b) * (13 * u) + 33 * u + 13 * u) by ring.
    pose proof (pos_INR (tdim b)).
    apply Ebound_split; auto; try lra; try ring. assert (0 <= INR (tdim b) * (13 * u)) by (apply Rmult_le_pos; lra). lra.
  - cbn [cones P_FloatGlobal.fw ew tdim insideT] in *. cbv zeta. destruct Hin as (X & Hin). cbn beta in X, Hin.
    assert (Z' : cones b = 0%nat) by lia.
    assert (Hxn : is (mul' df (x (tdim b))) (B2R (x (tdim b)))).
    { assert (Fx0 : is (x (tdim b)) (B2R (x (tdim b)))) by (split; [apply Fxs; lia|reflexivity]).
      eapply mul_exact; [exact Hdf|exact Fx0|exact Fx0|ring]. }
    pose proof Hxn as Hxn'.
    set (xn := mul' df (x (tdim b))) in *. replace (1 * B2R (x (tdim b))) with (B2R (x (tdim b))) by ring.
    set (xr := B2R (x (tdim b))) in *. destruct Hxn as (Fx & Exn).
    destruct (level_fp prec emax Hp He H2 rf xn e Fr Fx Lr E0 ltac:(lia)) as (Fc & Ec & F1 & F2 & Q1 & Q2 & L1 & L2); [apply abs_le; lra|apply abs_le; lra|].
    set (c := sub' one xn) in *. rewrite Exn in Ec, Q2.
    assert (A : 0 <= 5 * u <= / 16) by lra.
    assert (Ec' : Rabs (B2R c - (1 - xr)) <= 5 * u + u) by lra.
    assert (Ex : Rabs (xr - xr) <= 5 * u) by (rewrite Rminus_diag_eq, Rabs_R0 by reflexivity; lra).
    destruct (level_err prec emax H2 _ _ _ (1 - xr) _ xr _ _ eps (5 * u) R0 X eq_refl P0 A Ee Ec' Ex Q1 Q2) as (e1 & e2 & W1 & W2 & P1 & P2 & SE).
    assert (Fxs' : forall k, (k < tdim b)%nat -> is_finite (x k) = true) by (intros; apply Fxs; lia).
    pose proof (insideT_bounds b _ _ Hin) as HB. cbn beta in HB.
    pose proof (pos_INR (tdim b)) as Pd.
    assert (Kb : 0 <= INR (tdim b) * (13 * u)) by (apply Rmult_le_pos; lra).
    destruct (away' c) eqn:AW.
    + destruct (cone_factor df xn xr Hdf Hxn' X AW) as (W0 & Fq & Eq). fold c in Fq, Eq.
      set (v := 1 / (1 - xr)) in *.
      assert (Vw : v * (1 - xr) = 1) by (unfold v; field; lra).
      assert (V0 : 0 < v) by (unfold v; apply Rdiv_lt_0_compat; lra).
      assert (HX : forall k, (k < tdim b)%nat -> is_finite (mul' (div' df c) (x k)) = true /\ 0 <= v * B2R (x k) <= 1 /\
        Rabs (B2R (mul' (div' df c) (x k)) - v * B2R (x k)) <= 5 * u).
      { intros k Hk. specialize (HB k Hk). specialize (Fxs' k Hk).
        assert (VX : 0 <= v * B2R (x k) <= 1) by (split; nra).
        assert (Er : Rabs (B2R (div' df c) * B2R (x k) - v * B2R (x k)) <= 3 * u).
        { replace (B2R (div' df c) * B2R (x k) - v * B2R (x k)) with ((B2R (div' df c) - v) * B2R (x k)) by ring.
          rewrite Rabs_mult, (Rabs_pos_eq (B2R (x k))) by lra.
          apply Rle_trans with (3 * u * v * B2R (x k)); [apply Rmult_le_compat_r; [lra|exact Eq]|].
          replace (3 * u * v * B2R (x k)) with (3 * u * (v * B2R (x k))) by ring. nra. }
        pose proof (near_abs _ _ _ Er) as Lp. rewrite (Rabs_pos_eq (v * B2R (x k))) in Lp by lra.
        destruct (fmul_ok prec emax Hp He ltac:(lia) (div' df c) (x k) Fq Fxs') as (M1 & M2).
        { apply Rle_trans with 2; [lra|]. change 2 with (bpow radix2 1). apply bpow_le. pose proof (prec_emax prec emax He). lia. }
        split; [exact M2|]. split; [exact VX|].
        pose proof (rnd_rel prec emax Hp (B2R (div' df c) * B2R (x k))) as RR. rewrite <- M1 in RR.
        assert (u * Rabs (B2R (div' df c) * B2R (x k)) <= u * (1 + 3 * u)) by (apply Rmult_le_compat_l; lra).
        assert (u * (1 + 3 * u) + eta <= 2 * u) by nra.
        apply abs_le. apply abs_le in Er. apply abs_le in RR. lra. }
      destruct (prisms_err prec emax Hp He H2 (5 * u) A b Z' (div' df c) v x (mul' rf c) (r * (1 - xr)) e1 (e + 1)%Z HX F1 L1
        ltac:(lia) ltac:(lia)) as (G1 & D1); auto; [apply Rmult_le_pos; lra|].
      replace (2 * (5 * u) + 3 * u) with (13 * u) in SE, D1 by ring.
      split; [apply Forall_app; split; [exact G1|repeat constructor; exact F2]|].
      rewrite wdist_app by (rewrite fw_length, ew_length; reflexivity).
      cbn [P_FloatGlobal3.wdist]. rewrite Rplus_0_r.
      apply Rle_trans with (Eb (13 * u) (INR (tdim b) * (13 * u)) (tdim b) e1 (r * (1 - xr)) + Eb (13 * u) (INR (tdim b) * (13 * u)) (tdim b) e2 (r * xr)).
      * apply Rplus_le_compat; [exact D1|]. eapply Rle_trans; [exact W2|]. apply Ebound_ge; try lra. apply Rmult_le_pos; lra.
      * eapply Rle_trans; [apply (Ebound_split prec emax He H2 (13 * u) _ (tdim b) eps e1 e2 r); auto; try lra; try ring|].
        apply Ebound_mono; try lra. rewrite S_INR. lra.
    + assert (Lc : 1 - xr <= 33 * u).
      { apply Rnot_lt_le. intro Q. assert (away' c = true); [|congruence]. apply away_spec; try assumption; try lia.
        apply abs_le in Ec. rewrite Rabs_pos_eq; lra. }
      pose proof (prec_emax prec emax He) as PE.
      assert (ZZ : forall a, In a (fw b df x zero) -> is a 0).
      { apply (fw_zero prec emax Hp He H2 b df x zero 0).
        - apply is_zero.
        - apply Hdf.
        - destruct Hdf as (_ & ->). rewrite Rabs_R1. cbn. lra.
        - lia.
        - rewrite Z'. lia.
        - intros k Hk. split; [now apply Fxs'|]. specialize (HB k Hk). lra. }
      assert (Hpos : forall q, In q (ew b (1 / (1 - xr)) (fun k => B2R (x k)) (r * (1 - xr))) -> 0 <= q).
      { destruct (Req_dec (1 - xr) 0) as [Q|Q].
        - rewrite Q. intros q Hq. destruct (In_nth _ _ 0 Hq) as (i & Hi & <-). rewrite ew_length in Hi.
          rewrite ew_shape by assumption. apply Req_le. ring.
        - apply ew_nonneg; [apply Rmult_le_pos; lra|].
          assert (W0 : 0 < 1 - xr) by lra. pose proof (insideT_div b _ _ _ W0 Hin) as I1.
          replace ((1 - xr) / (1 - xr)) with 1 in I1 by (field; lra).
          replace (fun k => 1 / (1 - xr) * B2R (x k)) with (fun k => B2R (x k) / (1 - xr)); [exact I1|].
          apply functional_extensionality. intro. unfold Rdiv. ring. }
      split.
      { apply Forall_app; split; [|repeat constructor; exact F2]. apply Forall_forall. intros a Ha. now apply ZZ. }
      rewrite wdist_app by (rewrite fw_length, ew_length; reflexivity).
      cbn [P_FloatGlobal3.wdist]. rewrite Rplus_0_r.
      rewrite (wdist_zero prec emax _ _ ltac:(rewrite fw_length, ew_length; reflexivity)); [|intros a Ha; now apply ZZ|exact Hpos].
      rewrite (proj2 (ew_sum b)).
      replace (2 * (5 * u) + 3 * u) with (13 * u) in SE by ring.
      unfold Ebound. cbn [pow]. rewrite S_INR.
      assert (G1 : 1 <= (1 + 13 * u) ^ tdim b) by (apply pow_R1_Rle; lra). set (G := (1 + 13 * u) ^ tdim b) in *. clearbody G.
      assert (P3 : 1 <= 2 ^ tdim b) by (apply pow_R1_Rle; lra). set (P := 2 ^ tdim b) in *. clearbody P.
      assert (T1 : r * (1 - xr) <= 33 * u * r) by nra.
      assert (T2 : eps * (1 + 13 * u) + 13 * u * r + 33 * u * r <= (1 + 13 * u) * G * (eps + ((INR (tdim b) + 1) * (13 * u) + 33 * u) * r)).
      { assert (K1 : 13 * u * r + 33 * u * r <= ((INR (tdim b) + 1) * (13 * u) + 33 * u) * r).
        { assert (0 <= INR (tdim b) * (13 * u) * r) by (apply Rmult_le_pos; lra). lra. }
        assert (K2 : 0 <= 13 * u * r + 33 * u * r) by (assert (0 <= u * r) by (apply Rmult_le_pos; lra); lra).
        set (K := ((INR (tdim b) + 1) * (13 * u) + 33 * u) * r) in *. clearbody K.
        assert (GG : 1 + 13 * u <= (1 + 13 * u) * G) by nra. set (g := (1 + 13 * u) * G) in *. clearbody g. nra. }
      assert (T3 : 2 * eta <= (INR (tdim b) + 1) * (2 * P) * ((1 + 13 * u) * G) * eta).
      { apply Rmult_le_compat_r; [lra|].
        assert (2 <= (INR (tdim b) + 1) * (2 * P)) by nra.
        assert (1 <= (1 + 13 * u) * G) by nra. nra. }
      lra.
Qed.
End V.
