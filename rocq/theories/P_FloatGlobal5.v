(** C68: rounding errors of the weights of simplices. *)
From Coq Require Import PeanoNat NArith ZArith Lia Bool List Reals Lra FunctionalExtensionality.
From Flocq Require Import Core Relative IEEE754.BinarySingleNaN.
From Verif Require Import M_Type M_RefTopo M_RefGeo M_Matrix M_MultiLinear M_Float M_FloatGlobal S_Topo S_MultiLinear
  P_Type P_RefTopo P_RSum P_RefGeo2 P_ML1 P_ML2 P_Float P_FloatNear P_FloatGlobal P_FloatGlobal2 P_FloatGlobal3 P_FloatGlobal4.
Import ListNotations.
Local Open Scope R_scope.

(** simplices as the code reads them *)
Fixpoint chainT (n : nat) : Topo :=
  match n with O => Pt | S O => Pri Pt | S n => Pyr (chainT n) end.
Lemma tdim_chain n : tdim (chainT n) = n.
Proof. induction n as [|[|n] IH]; [reflexivity..|]. cbn [chainT tdim] in *. now rewrite IH. Qed.
Lemma nv_chain n : nv (chainT n) = S n.
Proof. induction n as [|[|n] IH]; [reflexivity..|]. change (nv (chainT (S (S n)))) with (nv (chainT (S n)) + 1)%nat. rewrite IH. lia. Qed.
Lemma cones_chain n : (cones (chainT n) <= n)%nat.
Proof. induction n as [|[|n] IH]; [simpl; lia..|]. change (cones (chainT (S (S n)))) with (S (cones (chainT (S n)))). lia. Qed.

(** barycentric coordinates *)
Fixpoint sw (n : nat) (f : R) (x : nat -> R) : list R :=
  match n with O => [f] | S n => sw n (f - x n) x ++ [x n] end.
Lemma sw_length n : forall f x, length (sw n f x) = S n.
Proof. induction n as [|n IH]; intros; [reflexivity|]. cbn [sw]. rewrite app_length, IH. simpl. lia. Qed.
Lemma sw_sum n : forall f x, lsumR (sw n f x) = f.
Proof. induction n as [|n IH]; intros f x; cbn [sw]; [cbn; ring|]. rewrite lsumR_app, IH. cbn [lsumR]. ring. Qed.
Lemma sw_nonneg n : forall f x, (forall k, (k < n)%nat -> 0 <= x k) -> rsum n x <= f -> forall b, In b (sw n f x) -> 0 <= b.
Proof.
  induction n as [|n IH]; intros f x Hx Hs b Hb; cbn [sw] in Hb; rewrite ?rsum_S in Hs.
  - cbn [rsum] in Hs. destruct Hb as [<-|[]]. exact Hs.
  - apply in_app_or in Hb. destruct Hb as [Hb|[<-|[]]]; [|apply Hx; lia].
    apply (IH (f - x n) x); auto. lra.
Qed.
Lemma app_inj1 {A} (l l' : list A) a b : l = l' -> a = b -> l ++ [a] = l' ++ [b].
Proof. now intros -> ->. Qed.
Lemma ew_0 T df x : ew T df x 0 = repeat 0 (nv T).
Proof.
  apply nth_ext with 0 0; rewrite ew_length; [now rewrite repeat_length|]. intros i Hi. rewrite ew_shape, nth_repeat by assumption. ring.
Qed.
Lemma sw_0 n x : (forall k, (k < n)%nat -> x k = 0) -> sw n 0 x = repeat 0 (S n).
Proof.
  induction n as [|n IH]; intro H; [reflexivity|]. cbn [sw]. rewrite (H n) by lia. replace (0 - 0) with 0 by ring.
  rewrite IH by (intros; apply H; lia). change [0] with (repeat 0 1). rewrite <- repeat_app. f_equal. lia.
Qed.
Lemma term_le_sum : forall n x, (forall k, (k < n)%nat -> 0 <= x k) -> forall k, (k < n)%nat -> x k <= rsum n x.
Proof.
  induction n as [|n IH]; intros x H k Hk; [lia|]. rewrite rsum_S. destruct (Nat.eq_dec k n) as [->|N].
  - pose proof (rsum_nonneg n x (fun k Hk => H k ltac:(lia))). lra.
  - pose proof (IH x (fun k Hk => H k ltac:(lia)) k ltac:(lia)). pose proof (H n ltac:(lia)). lra.
Qed.
Lemma ew_sw n : forall f x, 0 < f -> (forall k, (k < n)%nat -> 0 <= x k) -> rsum n x <= f -> ew (chainT n) (/ f) x f = sw n f x.
Proof.
  induction n as [|n IH]; intros f x F Hx Hs; [reflexivity|].
  destruct n as [|n].
  - cbn [chainT ew sw tdim app]. f_equal; [field; lra|]. f_equal. field. lra.
  - change (chainT (S (S n))) with (Pyr (chainT (S n))). remember (S n) as m. cbn [ew sw]. rewrite tdim_chain. rewrite rsum_S in Hs.
    apply app_inj1; [|field; lra].
    replace (f * (1 - / f * x m)) with (f - x m) by (field; lra).
    pose proof (rsum_nonneg m x (fun k Hk => Hx k ltac:(lia))) as P.
    destruct (Req_dec (f - x m) 0) as [Q|Q].
    + rewrite Q, ew_0, sw_0, nv_chain; [reflexivity|]. intros k Hk.
      assert (Z : rsum m x = 0) by lra. 
      assert (x k <= rsum m x); [|specialize (Hx k ltac:(lia)); lra].
      apply term_le_sum; [intros; apply Hx; lia|exact Hk].
    + replace (/ f / (1 - / f * x m)) with (/ (f - x m)) by (field; lra).
      apply IH; [lra|intros; apply Hx; lia|lra].
Qed.

Section V.
Variables (prec emax : Z).
Context (Hp : Prec_gt_0 prec) (He : Prec_lt_emax prec emax).
Hypothesis H2 : (7 <= prec)%Z.
Notation float := (binary_float prec emax).
Notation FVec := (nat -> float).
Notation fexp := (SpecFloat.fexp prec emax).
Notation rnd := (round radix2 fexp (round_mode mode_NE)).
Notation u := (bpow radix2 (- prec)).
Notation eta := (eta prec emax).
Notation add' := (fadd prec emax Hp He).
Notation sub' := (fsub prec emax Hp He).
Notation mul' := (fmul prec emax Hp He).
Notation div' := (fdiv prec emax Hp He).
Notation one := (ofZ prec emax Hp He 1).
Notation zero := (ofZ prec emax Hp He 0).
Notation away' := (faway prec emax Hp He).
Notation is := (is prec emax).
Notation fw := (fw prec emax Hp He).
Notation wdist := (wdist prec emax).
Notation m := (prec - 5)%Z.

Lemma rel_form q v : v <> 0 -> Rabs (q - v) <= u * Rabs v -> exists e, Rabs e <= u /\ q = v * (1 + e).
Proof.
  intros N L. exists ((q - v) / v). split; [|field; assumption].
  unfold Rdiv. rewrite Rabs_mult, Rabs_inv. apply Rmult_le_reg_r with (Rabs v); [now apply Rabs_pos_lt|].
  rewrite Rmult_assoc, Rinv_l, Rmult_1_r by (now apply Rabs_no_R0). exact L.
Qed.

(** real numbers only *)
Lemma tau_bound (r d X xn f eps del : R) : Rabs (r * d - 1) <= del -> Rabs (r - f) <= eps -> 0 <= f <= 1 -> 0 <= X <= f ->
  del <= / 8 -> eps <= / 8 -> Rabs (xn - d * X) <= u * Rabs (d * X) + eta ->
  Rabs (r * xn - X) <= (del + 9 / 8 * u) * X + 9 / 8 * eta.
Proof.
  intros Hrd Hr F X0 D E Q. destruct (u_small prec H2) as (U0 & U1). destruct (eta_small prec emax He H2) as (N0 & N1).
  assert (R1 : Rabs r <= 9 / 8) by (pose proof (near_abs _ _ _ Hr) as A; rewrite (Rabs_pos_eq f) in A by lra; lra).
  assert (RD : Rabs (r * d) <= 9 / 8) by (pose proof (near_abs _ _ _ Hrd) as A; rewrite Rabs_R1 in A; lra).
  replace (r * xn - X) with ((r * d - 1) * X + r * (xn - d * X)) by ring.
  eapply Rle_trans; [apply Rabs_triang|]. rewrite !Rabs_mult, (Rabs_pos_eq X) by lra.
  assert (A1 : Rabs (r * d - 1) * X <= del * X) by (apply Rmult_le_compat_r; lra).
  assert (A2 : Rabs r * Rabs (xn - d * X) <= Rabs r * (u * Rabs (d * X) + eta)) by (apply Rmult_le_compat_l; [apply Rabs_pos|exact Q]).
  replace (Rabs r * (u * Rabs (d * X) + eta)) with (u * (Rabs (r * d) * X) + Rabs r * eta) in A2
    by (rewrite !Rabs_mult, (Rabs_pos_eq X) by lra; ring).
  assert (A3 : u * (Rabs (r * d) * X) <= u * (9 / 8 * X)) by (apply Rmult_le_compat_l; [lra|]; apply Rmult_le_compat_r; lra).
  assert (A4 : Rabs r * eta <= 9 / 8 * eta) by (apply Rmult_le_compat_r; lra).
  lra.
Qed.

Lemma chain_level (rf df x : float) f eps del j : is_finite rf = true -> is_finite df = true -> is_finite x = true ->
  0 <= f <= 1 -> 0 <= B2R x <= f -> 0 <= del <= / 8 -> 0 <= eps <= / 8 ->
  Rabs (B2R rf * B2R df - 1) <= del -> Rabs (B2R rf - f) <= eps ->
  Rabs (B2R df) <= bpow radix2 (m * j) -> bpow radix2 (- (m * j)) <= Rabs (B2R rf) -> (0 <= j)%Z -> (m * j + 4 <= emax)%Z ->
  let xn := mul' df x in let c := sub' one xn in let X := B2R x in
  is_finite c = true /\ is_finite (mul' rf c) = true /\ is_finite (mul' rf xn) = true /\
  Rabs (B2R (mul' rf xn) - X) <= (del + 3 * u) * X + 4 * eta /\
  Rabs (B2R (mul' rf c) - (f - X)) <= eps + del * X + 7 * u /\
  (Rabs (B2R c) <= 32 * u -> f - X <= 39 * u + eps + (del + 2 * u) * X) /\
  (32 * u < Rabs (B2R c) -> (m * (j + 1) + 2 <= emax)%Z ->
     is_finite (div' df c) = true /\ Rabs (B2R (mul' rf c) * B2R (div' df c) - 1) <= del + 3 * u /\
     Rabs (B2R (div' df c)) <= bpow radix2 (m * (j + 1)) /\ bpow radix2 (- (m * (j + 1))) <= Rabs (B2R (mul' rf c))).
Proof.
  intros Fr Fd Fx F X0 D E Hrd Hr Ld Lr J0 J1 xn c X.
  destruct (u_small prec H2) as (U0 & U1). destruct (eta_small prec emax He H2) as (N0 & N1). pose proof (prec_emax prec emax He) as PE.
  fold X in X0. set (r := B2R rf) in *. set (d := B2R df) in *.
  assert (M0 : (0 <= m * j)%Z) by nia.
  set (e := (m * j)%Z) in *.
  assert (EB : bpow radix2 (e + 1) = 2 * bpow radix2 e) by (rewrite bpow_plus; change (bpow radix2 1) with 2; ring).
  assert (EB2 : bpow radix2 (e + 2) = 4 * bpow radix2 e) by (rewrite bpow_plus; change (bpow radix2 2) with 4; ring).
  assert (EB0 : 1 <= bpow radix2 e) by (change 1 with (bpow radix2 0); apply bpow_le; lia).
  assert (LM : bpow radix2 (e + 2) <= bpow radix2 (emax - 1)) by (apply bpow_le; lia).
  assert (R1 : Rabs r <= 9 / 8) by (pose proof (near_abs _ _ _ Hr) as A; rewrite (Rabs_pos_eq f) in A by lra; lra).
  (* xn *)
  assert (Lv : Rabs (d * X) <= bpow radix2 e).
  { rewrite Rabs_mult, (Rabs_pos_eq X) by lra. pose proof (Rabs_pos d). nra. }
  destruct (fmul_ok prec emax Hp He ltac:(lia) df x Fd Fx) as (M1 & M2); [fold d X; lra|]. fold d X xn in M1, M2.
  pose proof (rnd_rel prec emax Hp (d * X)) as Q. rewrite <- M1 in Q.
  assert (Lx : Rabs (B2R xn) <= bpow radix2 e) by (rewrite M1; apply rnd_pow; try assumption; lia).
  pose proof (tau_bound r d X (B2R xn) f eps del Hrd Hr F X0 ltac:(lra) ltac:(lra) Q) as T.
  (* c *)
  destruct (is_one prec emax Hp He ltac:(lia)) as (F1 & O1).
  assert (Lc : Rabs (1 - B2R xn) <= bpow radix2 (e + 1)) by (apply abs_le; apply abs_le in Lx; lra).
  destruct (fsub_ok prec emax Hp He H2 one xn F1 M2) as (S1 & S2); [rewrite O1; lra|]. fold c in S1, S2. rewrite O1 in S1.
  pose proof (rnd_rel prec emax Hp (1 - B2R xn)) as Qc. rewrite <- S1 in Qc.
  assert (Lcv : Rabs (B2R c) <= bpow radix2 (e + 1)) by (rewrite S1; apply rnd_pow; try assumption; lia).
  (* the two products *)
  assert (Rc : Rabs (r * (1 - B2R xn) - (f - X)) <= eps + ((del + 9 / 8 * u) * X + 9 / 8 * eta)).
  { replace (r * (1 - B2R xn) - (f - X)) with ((r - f) - (r * B2R xn - X)) by ring.
    apply abs_le. apply abs_le in Hr. apply abs_le in T. lra. }
  set (tau := (del + 9 / 8 * u) * X + 9 / 8 * eta) in *.
  assert (Tau : tau <= / 2 * X + / 32) by (unfold tau; nra).
  assert (Rc1 : Rabs (r * (1 - B2R xn)) <= 3 / 2).
  { pose proof (near_abs _ _ _ Rc) as A. rewrite (Rabs_pos_eq (f - X)) in A by lra. lra. }
  assert (Rcc : Rabs (r * B2R c - r * (1 - B2R xn)) <= 3 / 2 * u + 9 / 8 * eta).
  { replace (r * B2R c - r * (1 - B2R xn)) with (r * (B2R c - (1 - B2R xn))) by ring. rewrite Rabs_mult.
    apply Rle_trans with (Rabs r * (u * Rabs (1 - B2R xn) + eta)); [apply Rmult_le_compat_l; [apply Rabs_pos|exact Qc]|].
    replace (Rabs r * (u * Rabs (1 - B2R xn) + eta)) with (u * Rabs (r * (1 - B2R xn)) + Rabs r * eta) by (rewrite Rabs_mult; ring).
    assert (u * Rabs (r * (1 - B2R xn)) <= u * (3 / 2)) by (apply Rmult_le_compat_l; lra).
    assert (Rabs r * eta <= 9 / 8 * eta) by (apply Rmult_le_compat_r; lra). lra. }
  assert (Rc2 : Rabs (r * B2R c) <= 2) by (pose proof (near_abs _ _ _ Rcc); lra).
  assert (B2 : 2 <= bpow radix2 (emax - 1)) by (change 2 with (bpow radix2 1); apply bpow_le; lia).
  destruct (fmul_ok prec emax Hp He ltac:(lia) rf c Fr S2) as (P1 & P2); [fold r; lra|]. fold r in P1.
  assert (Tx : Rabs (r * B2R xn) <= 2) by (pose proof (near_abs _ _ _ T) as A; rewrite (Rabs_pos_eq X) in A by lra; lra).
  destruct (fmul_ok prec emax Hp He ltac:(lia) rf xn Fr M2) as (P3 & P4); [fold r; lra|]. fold r in P3.
  pose proof (rnd_rel prec emax Hp (r * B2R c)) as Qp. rewrite <- P1 in Qp.
  pose proof (rnd_rel prec emax Hp (r * B2R xn)) as Qt. rewrite <- P3 in Qt.
  split; [exact S2|]. split; [exact P2|]. split; [exact P4|].
  split; [|split; [|split]].
  - pose proof (near_abs _ _ _ T) as A. rewrite (Rabs_pos_eq X) in A by lra.
    assert (u * Rabs (r * B2R xn) <= u * (X + tau)) by (apply Rmult_le_compat_l; lra).
    assert (u * (X + tau) <= u * X + (/ 4 * u * X + eta)).
    { unfold tau. assert (u * ((del + 9 / 8 * u) * X) <= u * (/ 4 * X)).
      { apply Rmult_le_compat_l; [lra|]. apply Rmult_le_compat_r; lra. }
      assert (u * (9 / 8 * eta) <= eta) by nra. lra. }
    apply abs_le. apply abs_le in T. apply abs_le in Qt. unfold tau in *.
    assert (0 <= u * X) by (apply Rmult_le_pos; lra). lra.
  - assert (u * Rabs (r * B2R c) <= u * 2) by (apply Rmult_le_compat_l; lra).
    assert (u * X <= u) by nra.
    apply abs_le. apply abs_le in Qp. apply abs_le in Rcc. apply abs_le in Rc. unfold tau in *. lra.
  - intros Lc0.
    assert (K : Rabs (1 - B2R xn) <= 33 * u).
    { assert (A : Rabs (1 - B2R xn) <= Rabs (B2R c) + (u * Rabs (1 - B2R xn) + eta)).
      { apply near_abs. replace (1 - B2R xn - B2R c) with (- (B2R c - (1 - B2R xn))) by ring. now rewrite Rabs_Ropp. }
      pose proof (Rabs_pos (1 - B2R xn)). nra. }
    assert (K2 : Rabs (r * (1 - B2R xn)) <= 38 * u).
    { rewrite Rabs_mult. pose proof (Rabs_pos r). pose proof (Rabs_pos (1 - B2R xn)).
      apply Rle_trans with (9 / 8 * (33 * u)); [apply Rmult_le_compat; assumption|lra]. }
    apply abs_le in K2. apply abs_le in Rc. unfold tau in *. assert (0 <= u * X) by (apply Rmult_le_pos; lra). lra.
  - intros AW J2. assert (J3 : (m * (j + 1) = e + m)%Z) by (unfold e; ring). rewrite J3 in *.
    pose proof (bpow_gt_0 radix2 e) as BE.
    assert (Lc5 : bpow radix2 (- m) <= Rabs (B2R c)).
    { replace (- m)%Z with (5 + - prec)%Z by lia. rewrite bpow_plus. replace (bpow radix2 5) with 32 by (cbn; lra). lra. }
    assert (Nc : B2R c <> 0) by (intro Z; rewrite Z, Rabs_R0 in AW; lra).
    assert (Lrc : bpow radix2 (- (e + m)) <= Rabs (r * B2R c)).
    { replace (- (e + m))%Z with (- e + - m)%Z by ring. rewrite bpow_plus, Rabs_mult.
      apply Rmult_le_compat; try apply bpow_ge_0; assumption. }
    assert (Nrc : r * B2R c <> 0) by (intro Z; rewrite Z, Rabs_R0 in Lrc; pose proof (bpow_gt_0 radix2 (- (e + m))); lra).
    assert (V1 : Rabs (B2R (mul' rf c) - r * B2R c) <= u * Rabs (r * B2R c)).
    { rewrite P1. apply rnd_normal; try assumption. eapply Rle_trans; [|exact Lrc]. apply bpow_le. lia. }
    destruct (rel_form _ _ Nrc V1) as (e1 & B1 & G1).
    assert (Lq : Rabs (d / B2R c) <= bpow radix2 (e + m)).
    { unfold Rdiv. rewrite Rabs_mult, Rabs_inv, bpow_plus. apply Rmult_le_compat; [apply Rabs_pos| |exact Ld|].
      - apply Rlt_le, Rinv_0_lt_compat, Rabs_pos_lt. exact Nc.
      - assert (BM : bpow radix2 m = / bpow radix2 (- m)) by (rewrite <- bpow_opp; f_equal; lia). rewrite BM. apply Rinv_le_contravar; [apply bpow_gt_0|exact Lc5]. }
    destruct (fdiv_ok prec emax Hp He H2 df c Fd Nc) as (D1 & D2).
    { fold d. eapply Rle_trans; [exact Lq|apply bpow_le; lia]. }
    fold d in D1.
    assert (Dlow : / 2 <= Rabs d).
    { assert (7 / 8 <= Rabs (r * d)).
      { apply abs_le in Hrd. destruct (Rle_dec 0 (r * d)); [rewrite Rabs_pos_eq; lra|lra]. }
      rewrite Rabs_mult in H. pose proof (Rabs_pos d). nra. }
    assert (Nd : d / B2R c <> 0).
    { unfold Rdiv. apply Rmult_integral_contrapositive_currified; [intro Z; rewrite Z, Rabs_R0 in Dlow; lra|now apply Rinv_neq_0_compat]. }
    assert (V2 : Rabs (B2R (div' df c) - d / B2R c) <= u * Rabs (d / B2R c)).
    { rewrite D1. apply rnd_normal; try assumption. apply Rle_trans with (bpow radix2 (-1 + - (e + 1))); [apply bpow_le; lia|].
      unfold Rdiv. rewrite Rabs_mult, Rabs_inv, bpow_plus. apply Rmult_le_compat; try apply bpow_ge_0.
      - exact Dlow.
      - rewrite bpow_opp. apply Rinv_le_contravar; [now apply Rabs_pos_lt|exact Lcv]. }
    destruct (rel_form _ _ Nd V2) as (e2 & B3 & G2).
    split; [exact D2|]. split; [|split].
    + rewrite G1, G2. replace (r * B2R c * (1 + e1) * (d / B2R c * (1 + e2))) with (r * d * ((1 + e1) * (1 + e2))) by (field; exact Nc).
      set (z := r * d) in *. clearbody z. apply abs_le in B1. apply abs_le in B3. apply abs_le in Hrd.
      assert (Y : - (2 * u + u * u) <= (1 + e1) * (1 + e2) - 1 <= 2 * u + u * u) by (split; nra).
      set (y := (1 + e1) * (1 + e2) - 1) in *. replace ((1 + e1) * (1 + e2)) with (1 + y) by (unfold y; ring). clearbody y.
      replace (z * (1 + y) - 1) with ((z - 1) + z * y) by ring.
      assert (UU : u * u <= / 128 * u) by nra.
      assert (Yz : Rabs (z * y) <= 3 * u).
      { rewrite Rabs_mult. apply Rle_trans with (9 / 8 * (2 * u + u * u)); [|lra].
        apply Rmult_le_compat; try apply Rabs_pos; apply abs_le; lra. }
      apply abs_le in Yz. apply abs_le. lra.
    + rewrite D1. apply rnd_pow; try assumption. lia.
    + rewrite P1. apply rnd_pow_ge; try assumption. lia.
Qed.

Lemma chain_err : forall n (x : FVec) rf df f eps del j,
  (forall k, (k < n)%nat -> is_finite (x k) = true /\ 0 <= B2R (x k)) -> rsum n (fun k => B2R (x k)) <= f -> f <= 1 ->
  is_finite rf = true -> is_finite df = true -> Rabs (B2R rf * B2R df - 1) <= del -> Rabs (B2R rf - f) <= eps ->
  Rabs (B2R df) <= bpow radix2 (m * j) -> bpow radix2 (- (m * j)) <= Rabs (B2R rf) -> (0 <= j)%Z ->
  (m * (j + Z.of_nat n) + 4 <= emax)%Z -> 0 <= del -> 0 <= eps ->
  del + 3 * INR n * u <= / 8 -> eps + (del + 3 * INR n * u) * f + 7 * INR n * u <= / 8 ->
  Forall (fun w => is_finite w = true) (fw (chainT n) df x rf) /\ wdist (fw (chainT n) df x rf) (sw n f (fun k => B2R (x k))) <= eps + 2 * (del + 3 * INR n * u) * f + 8 * INR n * u + 40 * u.
Proof.
  destruct (u_small prec H2) as (U0 & U1). destruct (eta_small prec emax He H2) as (N0 & N1). pose proof (prec_emax prec emax He) as PE.
  induction n as [|n IH]; intros x rf df f eps del j Hx Hs F1 Fr Fd Hrd Hr Ld Lr J0 J1 D0 E0 A1 A2.
  - cbn [chainT P_FloatGlobal.fw sw P_FloatGlobal3.wdist INR rsum] in *. split; [repeat constructor; exact Fr|]. nra.
  - rewrite rsum_S in Hs. rewrite S_INR in *. pose proof (pos_INR n) as Pn.
    destruct (Hx n (Nat.lt_succ_diag_r n)) as (Fx & X0).
    assert (Hx' : forall k, (k < n)%nat -> is_finite (x k) = true /\ 0 <= B2R (x k)) by (intros; apply Hx; lia).
    pose proof (rsum_nonneg n (fun k => B2R (x k)) (fun k Hk => proj2 (Hx' k Hk))) as S0.
    assert (Pnu : 0 <= INR n * u) by (apply Rmult_le_pos; lra).
    assert (Pf : 0 <= (del + 3 * (INR n + 1) * u) * f) by (apply Rmult_le_pos; lra).
    destruct (chain_level rf df (x n) f eps del j Fr Fd Fx) as (Fc & Fq & Ft & Et & Eq & Na & Aw); auto; try lra; try nia.
    set (xn := mul' df (x n)) in *. set (c := sub' one xn) in *. set (X := B2R (x n)) in *.
    assert (PX : 0 <= INR n * u * X) by (apply Rmult_le_pos; lra).
    assert (PfX : 0 <= INR n * u * (f - X)) by (apply Rmult_le_pos; lra).
    assert (PDX : 0 <= del * X) by (apply Rmult_le_pos; lra).
    assert (PDf : 0 <= del * (f - X)) by (apply Rmult_le_pos; lra).
    assert (PUX : 0 <= u * X) by (apply Rmult_le_pos; lra).
    assert (PUf : 0 <= u * (f - X)) by (apply Rmult_le_pos; lra).
    destruct n as [|n].
    + cbn [chainT P_FloatGlobal.fw sw tdim app]. cbv zeta. fold xn c X. cbn [P_FloatGlobal3.wdist].
      split; [repeat constructor; assumption|]. cbn [INR] in *. lra.
    + remember (S n) as n' eqn:En. assert (Ech : chainT (S n') = Pyr (chainT n')) by (rewrite En; reflexivity).
      rewrite Ech. cbn [P_FloatGlobal.fw sw]. cbv zeta. rewrite tdim_chain. fold xn c X.
      assert (Lsw : length (fw (chainT n') df x zero) = length (sw n' (f - X) (fun k => B2R (x k))))
        by (rewrite fw_length, sw_length, nv_chain; reflexivity).
      destruct (away' c) eqn:AW.
      * apply away_spec in AW; try assumption; try lia.
        destruct (Aw AW ltac:(nia)) as (Fd' & Hrd' & Ld' & Lr').
        destruct (IH x (mul' rf c) (div' df c) (f - X) (eps + del * X + 7 * u) (del + 3 * u) (j + 1)%Z) as (G & W); auto; try lra; try nia.
        split; [apply Forall_app; split; [exact G|repeat constructor; exact Ft]|].
        rewrite wdist_app by (rewrite fw_length, sw_length, nv_chain; reflexivity).
        cbn [P_FloatGlobal3.wdist]. rewrite Rplus_0_r. lra.
      * assert (Lc : Rabs (B2R c) <= 32 * u).
        { apply Rnot_lt_le. intro Q. assert (away' c = true); [|congruence]. apply away_spec; try assumption; lia. }
        specialize (Na Lc).
        assert (XB : forall k, (k < n')%nat -> B2R (x k) <= 1).
        { intros k Hk. assert (B2R (x k) <= rsum n' (fun k => B2R (x k))); [|lra].
          apply (term_le_sum n' (fun k => B2R (x k))); [intros i Hi; now apply Hx'|exact Hk]. }
        assert (ZZ : forall a, In a (fw (chainT n') df x zero) -> is a 0).
        { apply (fw_zero prec emax Hp He H2 (chainT n') df x zero (m * j)).
          - apply is_zero.
          - exact Fd.
          - exact Ld.
          - nia.
          - pose proof (cones_chain n'). nia.
          - intros k Hk. rewrite tdim_chain in Hk. split; [now apply Hx'|]. split; [now apply Hx'|now apply XB]. }
        split.
        { apply Forall_app; split; [|repeat constructor; exact Ft]. apply Forall_forall. intros a Ha. now apply ZZ. }
        rewrite wdist_app by exact Lsw. cbn [P_FloatGlobal3.wdist]. rewrite Rplus_0_r.
        rewrite (wdist_zero prec emax _ _ Lsw); [|intros a Ha; now apply ZZ|apply sw_nonneg; [intros k Hk; now apply Hx'|lra]].
        rewrite sw_sum. lra.
Qed.
End V.
