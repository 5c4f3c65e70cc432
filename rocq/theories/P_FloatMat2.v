(** Error bounds of the triangular solves and of the Cholesky decomposition. *)
From Coq Require Import PeanoNat ZArith Bool List Reals Lra Lia.
From Flocq Require Import Core Plus_error Relative IEEE754.BinarySingleNaN.
From Verif Require Import M_RefTopo M_Matrix M_Float M_FloatGlobal M_FloatLocal S_RefGeo S_FloatMat P_Matrix P_Float P_Float2 P_FloatErr P_FloatMat1 P_FloatRef.
Import ListNotations.
Local Open Scope R_scope.

(** ** sums *)
Lemma Ssum_ext n f g : (forall j, (j < n)%nat -> f j = g j) -> Ssum n f = Ssum n g.
Proof. induction n; intro H; [reflexivity|]. cbn [Ssum]. rewrite IHn, H by (intros; try apply H; lia). reflexivity. Qed.
Lemma Ssum_tail n m f : (m <= n)%nat -> (forall j, (m <= j < n)%nat -> f j = 0) -> Ssum n f = Ssum m f.
Proof.
  intros L H. induction n; [now replace m with 0%nat by lia|]. destruct (Nat.eq_dec m (S n)) as [->|N]; [reflexivity|].
  cbn [Ssum]. rewrite IHn by (try lia; intros; apply H; lia). rewrite H by lia. ring.
Qed.
Lemma Ssum_shift n m f : Ssum (m + n) f = Ssum m f + Ssum n (fun t => f (m + t)%nat).
Proof. induction n; [rewrite Nat.add_0_r; cbn [Ssum]; ring|]. rewrite Nat.add_succ_r. cbn [Ssum]. rewrite IHn. ring. Qed.
Lemma Ssum_head n m f : (m <= n)%nat -> (forall j, (j < m)%nat -> f j = 0) -> Ssum n f = Ssum (n - m) (fun t => f (m + t)%nat).
Proof.
  intros L H. replace n with (m + (n - m))%nat at 1 by lia. rewrite Ssum_shift.
  rewrite (Ssum_tail m 0) by (try lia; intros; apply H; lia). cbn [Ssum]. ring.
Qed.
Lemma Ssum_le n f g : (forall j, (j < n)%nat -> f j <= g j) -> Ssum n f <= Ssum n g.
Proof. induction n; intro H; cbn [Ssum]; [lra|]. assert (f n <= g n) by (apply H; lia). assert (Ssum n f <= Ssum n g) by (apply IHn; intros; apply H; lia). lra. Qed.
Lemma Ssum_abs n f : Rabs (Ssum n f) <= Ssum n (fun j => Rabs (f j)).
Proof. induction n; cbn [Ssum]; [rewrite Rabs_R0; lra|]. eapply Rle_trans; [apply Rabs_triang|]. lra. Qed.
Lemma Ssum_scal n a f : Ssum n (fun j => a * f j) = a * Ssum n f.
Proof. induction n; cbn [Ssum]; [ring|]. rewrite IHn. ring. Qed.
Lemma Ssum_plus n f g : Ssum n (fun j => f j + g j) = Ssum n f + Ssum n g.
Proof. induction n; cbn [Ssum]; [ring|]. rewrite IHn. ring. Qed.
Lemma Ssum_swap n m f : Ssum n (fun i => Ssum m (fun j => f i j)) = Ssum m (fun j => Ssum n (fun i => f i j)).
Proof.
  induction n; cbn [Ssum].
  - symmetry. rewrite (Ssum_ext m _ (fun _ => 0 * 0)) by (intros; ring). rewrite Ssum_scal. ring.
  - rewrite IHn, <- Ssum_plus. reflexivity.
Qed.

(** the error of a loop followed by one more operation *)
Lemma chain b s T A q c g w h : 1 <= q -> 1 <= g -> 0 <= h -> 0 <= A ->
  Rabs (b - s - T) <= (q - 1) * (Rabs s + A) + c -> Rabs (s - w) <= (g - 1) * Rabs w + h ->
  Rabs (b - (T + w)) <= (q * g - 1) * (A + Rabs w) + (c + q * h).
Proof.
  intros Hq Hg Hh HA H1 H2. replace (b - (T + w)) with ((b - s - T) + (s - w)) by ring. eapply Rle_trans; [apply Rabs_triang|].
  assert (S1 : Rabs s <= g * Rabs w + h) by (replace s with ((s - w) + w) by ring; eapply Rle_trans; [apply Rabs_triang|]; lra).
  assert (K1 : (q - 1) * (Rabs s + A) <= (q - 1) * (g * Rabs w + h + A)) by (apply Rmult_le_compat_l; lra).
  assert (K2 : (q - 1) * A <= (q * g - 1) * A) by (apply Rmult_le_compat_r; nra).
  lra.
Qed.

Section FM2.
Variables (prec emax : Z).
Context (Hp : Prec_gt_0 prec) (He : Prec_lt_emax prec emax).
Notation float := (binary_float prec emax).
Notation FVec := (nat -> float).
Notation FMat := (nat -> nat -> float).
Notation fexp := (SpecFloat.fexp prec emax).
Notation rnd := (round radix2 fexp (round_mode mode_NE)).
Notation u := (uro prec).
Notation eta := (tiny prec emax).
Notation grow := (grow prec).
Notation gam := (gam prec).
Notation add := (fadd prec emax Hp He).
Notation sub := (fsub prec emax Hp He).
Notation mul := (fmul prec emax Hp He).
Notation div := (fdiv prec emax Hp He).
Notation sqr := (fsqrt prec emax Hp He).
Notation one := (ofZ prec emax Hp He 1).
Notation zero := (ofZ prec emax Hp He 0).
Notation low := (low prec emax).
Notation low_finite := (low_finite prec emax).
Notation all_finite := (all_finite prec emax).

Lemma u_pos' : 0 < u. Proof. apply bpow_gt_0. Qed.
Lemma eta_pos' : 0 < eta. Proof. apply bpow_gt_0. Qed.
Lemma grow1 k : 1 <= grow k. Proof. apply (pow1u prec). Qed.
Lemma grow_le a b : (a <= b)%nat -> grow a <= grow b.
Proof. intro H. apply Rle_pow; [pose proof u_pos'; lra|exact H]. Qed.
Lemma grow_mul a b : grow a * grow b = grow (a + b). Proof. unfold S_FloatMat.grow. now rewrite pow_add. Qed.
Lemma gam_pos k : 0 <= gam k. Proof. unfold S_FloatMat.gam. pose proof (grow1 k). lra. Qed.
Lemma gam_le a b : (a <= b)%nat -> gam a <= gam b. Proof. intro H. unfold S_FloatMat.gam. pose proof (grow_le a b H). lra. Qed.

(** one row of a triangular solve *)
Lemma quot_row (l r : nat -> float) b d m : let x := div (forN m (fun j s => sub s (mul (l j) (r j))) b) d in
  is_finite x = true -> is_finite d = true ->
  is_finite b = true /\
  Rabs (B2R b - (Ssum m (fun j => B2R (l j) * B2R (r j)) + B2R d * B2R x))
    <= gam (S m) * (Ssum m (fun j => Rabs (B2R (l j) * B2R (r j))) + Rabs (B2R d * B2R x)) + grow m * (INR m + Rabs (B2R d)) * eta.
Proof.
  intros x F Fd. destruct (div_fin prec emax Hp He _ _ F Fd) as (Fs & Nd & V). fold x in V.
  destruct (sub_loop prec emax Hp He l r b m Fs) as (Fb & _ & B). split; [exact Fb|].
  set (s := B2R (forN m (fun j s => sub s (mul (l j) (r j))) b)) in *.
  assert (W : Rabs (s - B2R d * B2R x) <= ((1 + u) - 1) * Rabs (B2R d * B2R x) + eta * Rabs (B2R d)).
  { replace (s - B2R d * B2R x) with (B2R d * (s / B2R d - B2R x)) by (field; exact Nd). rewrite !Rabs_mult.
    pose proof (back_any prec emax Hp (s / B2R d)) as E. rewrite <- V in E. pose proof (Rabs_pos (B2R d)).
    replace ((1 + u - 1) * (Rabs (B2R d) * Rabs (B2R x)) + eta * Rabs (B2R d)) with (Rabs (B2R d) * (u * Rabs (B2R x) + eta)) by ring.
    now apply Rmult_le_compat_l. }
  pose proof u_pos'. pose proof eta_pos'. pose proof (Rabs_pos (B2R d)).
  eapply Rle_trans; [apply (chain _ s _ (Ssum m (fun j => Rabs (B2R (l j) * B2R (r j)))) (grow m) (INR m * grow m * eta) (1 + u) _ (eta * Rabs (B2R d)))|].
  - apply grow1.
  - lra.
  - nra.
  - apply Ssum_pos. intros. apply Rabs_pos.
  - exact B.
  - exact W.
  - apply Req_le. unfold S_FloatMat.gam. replace (grow (S m)) with (grow m * (1 + u)) by (unfold S_FloatMat.grow; cbn [pow]; ring). ring.
Qed.

Lemma low_in L i j : (j <= i)%nat -> low L i j = B2R (L i j).
Proof. intro H. unfold S_FloatMat.low. now rewrite (proj2 (Nat.leb_le j i) H). Qed.
Lemma low_out L i j : (i < j)%nat -> low L i j = 0.
Proof. intro H. unfold S_FloatMat.low. now rewrite (proj2 (Nat.leb_gt j i) H). Qed.

Section Tri.
Variables (n : nat) (L : FMat) (b : FVec).
Hypothesis FL : low_finite n L.
Lemma invLx_err : all_finite n (finvLx prec emax Hp He n L b) -> forall i, (i < n)%nat ->
  let x := fun j => B2R (finvLx prec emax Hp He n L b j) in
  is_finite (b i) = true /\
  Rabs (B2R (b i) - rdot n (low L i) x) <= gam (S i) * adot n (low L i) x + grow i * (INR i + Rabs (B2R (L i i))) * eta.
Proof.
  intros Fx i Hi x. pose proof (Fx i Hi) as F. rewrite (finvLx_row prec emax Hp He n L b i Hi) in F.
  destruct (quot_row (L i) (finvLx prec emax Hp He n L b) (b i) (L i i) i F (FL i i ltac:(lia))) as (Fb & B). split; [exact Fb|].
  rewrite <- (finvLx_row prec emax Hp He n L b i Hi) in B. fold (x i) in B.
  unfold rdot, adot. rewrite !(Ssum_tail n (S i)) by (try lia; intros; rewrite low_out by lia; rewrite Rmult_0_l, ?Rabs_R0; reflexivity).
  cbn [Ssum]. rewrite (low_in L i i) by lia.
  rewrite (Ssum_ext i (fun j => low L i j * x j) (fun j => B2R (L i j) * x j)) by (intros; now rewrite low_in by lia).
  rewrite (Ssum_ext i (fun j => Rabs (low L i j * x j)) (fun j => Rabs (B2R (L i j) * x j))) by (intros; now rewrite low_in by lia).
  exact B.
Qed.
Lemma invLTx_err : all_finite n (finvLTx prec emax Hp He n L b) -> forall i, (i < n)%nat ->
  let x := fun j => B2R (finvLTx prec emax Hp He n L b j) in
  is_finite (b i) = true /\
  Rabs (B2R (b i) - rdot n (fun k => low L k i) x) <= gam (n - i) * adot n (fun k => low L k i) x + grow (n - S i) * (INR (n - S i) + Rabs (B2R (L i i))) * eta.
Proof.
  intros Fx i Hi x. pose proof (Fx i Hi) as F. rewrite (finvLTx_row prec emax Hp He n L b i Hi) in F.
  destruct (quot_row (fun j => L (S i + j)%nat i) (fun j => finvLTx prec emax Hp He n L b (S i + j)%nat) (b i) (L i i) (n - S i) F (FL i i ltac:(lia))) as (Fb & B). split; [exact Fb|].
  rewrite <- (finvLTx_row prec emax Hp He n L b i Hi) in B. fold (x i) in B.
  replace (S (n - S i)) with (n - i)%nat in B by lia.
  assert (K : forall f : R -> R, f 0 = 0 -> Ssum n (fun k => f (low L k i * x k)) = Ssum (n - S i) (fun j => f (B2R (L (S i + j)%nat i) * x (S i + j)%nat)) + f (B2R (L i i) * x i)).
  { intros f f0. rewrite (Ssum_head n i) by (try lia; intros; rewrite low_out by lia; now rewrite Rmult_0_l).
    replace (n - i)%nat with (1 + (n - S i))%nat by lia. rewrite Ssum_shift. cbn [Ssum]. rewrite Nat.add_0_r, low_in by lia.
    rewrite (Ssum_ext (n - S i) _ (fun j => f (B2R (L (S i + j)%nat i) * x (S i + j)%nat))); [ring|].
    intros j Hj. replace (i + (1 + j))%nat with (S i + j)%nat by lia. now rewrite low_in by lia. }
  unfold rdot, adot. rewrite (K (fun r => r) eq_refl), (K Rabs Rabs_R0). exact B.
Qed.
End Tri.

(** ** Cholesky *)
Section Chol.
Hypothesis H2 : (2 <= prec)%Z.
Hypothesis H4 : (4 <= emax)%Z.
Lemma u_quarter : u <= / 4. Proof. unfold uro. change (/ 4) with (bpow radix2 (-2)). apply bpow_le. lia. Qed.
Lemma is0 : is_finite zero = true /\ B2R zero = 0. Proof. split; reflexivity. Qed.
Lemma is1 : is_finite one = true /\ B2R one = 1.
Proof. pose proof (ofZ_nn prec emax Hp He H2 1 ltac:(lia)) as (F & _ & V); [|auto]. change (IZR 1) with (bpow radix2 0). apply bpow_le. lia. Qed.

Lemma pivot_root p : fgt prec emax p zero = true -> is_finite (sqr p) = true ->
  is_finite p = true /\ 0 < B2R (sqr p) /\ bpow radix2 (2 - emax) <= / B2R (sqr p) /\
  Rabs (B2R p - B2R (sqr p) * B2R (sqr p)) <= (grow 2 - 1) * Rabs (B2R (sqr p) * B2R (sqr p)).
Proof.
  intros G F. destruct (sqr_fin prec emax Hp He _ F) as (Fp & P0 & V). split; [exact Fp|].
  unfold fgt in G. rewrite Bltb_correct in G by (exact Fp || exact (proj1 is0)). rewrite (proj2 is0) in G.
  assert (PP : 0 < B2R p) by (destruct (Rlt_bool_spec 0 (B2R p)); [assumption|discriminate]).
  assert (Low : bpow radix2 (3 - emax - prec) <= B2R p).
  { rewrite <- (Rabs_pos_eq (B2R p)) by lra. destruct p as [s|s| |s m e Bd]; try discriminate Fp; [cbn in PP; lra|].
    exact (abs_B2R_ge_emin prec emax (B754_finite s m e Bd) eq_refl). }
  assert (Up : B2R p < bpow radix2 emax) by (rewrite <- (Rabs_pos_eq (B2R p)) by lra; apply abs_B2R_lt_emax).
  assert (SL : bpow radix2 (2 - emax) <= sqrt (B2R p)).
  { rewrite <- (sqrt_square (bpow radix2 (2 - emax))) by apply bpow_ge_0. apply sqrt_le_1_alt. rewrite <- bpow_plus.
    eapply Rle_trans; [|exact Low]. apply bpow_le. pose proof (prec_emax prec emax He). lia. }
  assert (SU : sqrt (B2R p) <= bpow radix2 (emax - 2)).
  { rewrite <- (sqrt_square (bpow radix2 (emax - 2))) by apply bpow_ge_0. apply sqrt_le_1_alt. rewrite <- bpow_plus.
    apply Rlt_le. eapply Rlt_le_trans; [exact Up|]. apply bpow_le. lia. }
  pose proof (sqrt_sqrt (B2R p) ltac:(lra)) as SS.
  pose proof (back_normal prec emax Hp (sqrt (B2R p))) as E. rewrite Rabs_pos_eq in E by apply sqrt_pos. specialize (E SL). rewrite <- V in E.
  assert (RL : bpow radix2 (2 - emax) <= B2R (sqr p)).
  { rewrite V. apply round_ge_generic; [typeclasses eauto..| |exact SL]. apply format_bpow; try assumption. lia. }
  assert (RU : B2R (sqr p) <= bpow radix2 (emax - 2)).
  { rewrite V. apply round_le_generic; [typeclasses eauto..| |exact SU]. apply format_bpow; try assumption. pose proof (prec_emax prec emax He). lia. }
  pose proof (bpow_gt_0 radix2 (2 - emax)) as BP. set (a := B2R (sqr p)) in *. set (t := sqrt (B2R p)) in *.
  split; [lra|]. split.
  - replace (2 - emax)%Z with (- (emax - 2))%Z by lia. rewrite bpow_opp. apply Rinv_le_contravar; lra.
  - rewrite <- SS. rewrite (Rabs_pos_eq a) in E by lra. fold u in E. apply Rabs_le_inv in E. pose proof u_pos' as U.
    rewrite (Rabs_pos_eq (a * a)) by nra. unfold S_FloatMat.grow. cbn [pow]. rewrite Rmult_1_r.
    assert (T1 : t <= a * (1 + u)) by lra. assert (T0 : a * (1 - u) <= t) by lra. pose proof u_quarter.
    assert (T2 : t * t <= (a * (1 + u)) * (a * (1 + u))) by (apply Rmult_le_compat; lra).
    assert (T3 : (a * (1 - u)) * (a * (1 - u)) <= t * t) by (apply Rmult_le_compat; nra).
    apply Rabs_le. split; nra.
Qed.
Lemma column_div r s : 0 < B2R r -> bpow radix2 (2 - emax) <= / B2R r -> is_finite r = true -> is_finite (mul (div one r) s) = true ->
  is_finite s = true /\ Rabs (B2R s - B2R (mul (div one r) s) * B2R r) <= (grow 3 - 1) * Rabs (B2R (mul (div one r) s) * B2R r) + 2 * B2R r * eta.
Proof.
  intros Pr Lr Fr F. destruct (mul_fin prec emax Hp He _ _ F) as (Fi & Fs & V). split; [exact Fs|].
  destruct (div_fin prec emax Hp He _ _ Fi Fr) as (_ & _ & W). rewrite (proj2 is1) in W. replace (1 / B2R r) with (/ B2R r) in W by lra.
  destruct (rel_normal prec emax Hp (/ B2R r)) as (d & D & R).
  { rewrite Rabs_pos_eq; [exact Lr|]. left. now apply Rinv_0_lt_compat. }
  rewrite R in W. pose proof (back_any prec emax Hp (B2R (div one r) * B2R s)) as E. rewrite <- V in E. fold u eta in D, E.
  set (M := B2R (mul (div one r) s)) in *. set (v := B2R s) in *. set (a := B2R r) in *.
  pose proof u_pos' as U. pose proof u_quarter as U4. pose proof eta_pos' as Et. apply Rabs_le_inv in D.
  assert (K1 : Rabs ((1 + d) * v - M * a) <= u * Rabs (M * a) + eta * a).
  { replace ((1 + d) * v - M * a) with (a * (B2R (div one r) * v - M)) by (rewrite W; field; lra).
    rewrite !Rabs_mult, (Rabs_pos_eq a) by lra. replace (u * (Rabs M * a) + eta * a) with (a * (u * Rabs M + eta)) by ring.
    apply Rmult_le_compat_l; [lra|exact E]. }
  assert (K2 : (1 - u) * Rabs (v - M * a) <= 2 * u * Rabs (M * a) + eta * a).
  { apply Rle_trans with (Rabs ((1 + d) * (v - M * a))).
    - rewrite Rabs_mult, (Rabs_pos_eq (1 + d)) by lra. apply Rmult_le_compat_r; [apply Rabs_pos|lra].
    - replace ((1 + d) * (v - M * a)) with (((1 + d) * v - M * a) + (- d) * (M * a)) by ring. eapply Rle_trans; [apply Rabs_triang|].
      rewrite (Rabs_mult (- d)), Rabs_Ropp. assert (Rabs d <= u) by (apply Rabs_le; lra). pose proof (Rabs_pos (M * a)).
      assert (Rabs d * Rabs (M * a) <= u * Rabs (M * a)) by (apply Rmult_le_compat_r; assumption). lra. }
  unfold S_FloatMat.grow. cbn [pow]. pose proof (Rabs_pos (M * a)) as P1. set (w := Rabs (M * a)) in *. set (y := Rabs (v - M * a)) in *.
  assert (P2 : 0 <= y) by apply Rabs_pos. assert (Ea : 0 < eta * a) by nra. clearbody w y.
  assert (K3 : 3 / 4 * y <= 2 * u * w + eta * a) by nra.
  assert (K4 : 0 <= u * w) by nra. assert (K5 : 0 <= u * u * w) by nra. assert (K6 : 0 <= u * u * u * w) by nra. nra.
Qed.
Lemma cholesky_err n A ret cs Q : fcholesky_L prec emax Hp He n A ret cs = Some (true, Q) -> low_finite n Q ->
  forall i j, (j <= i < n)%nat -> is_finite (A i j) = true /\ 0 < B2R (Q j j) /\
  Rabs (B2R (A i j) - rdot n (low Q i) (low Q j)) <= gam (j + 3) * adot n (low Q i) (low Q j) + grow j * (INR j + 2 * B2R (Q j j)) * eta.
Proof.
  intros E FR i j Hij. pose proof (fcholesky_spec prec emax Hp He n A ret cs Q E j ltac:(lia)) as (G & D & C).
  pose proof (FR j j ltac:(lia)) as Fjj. rewrite D in Fjj. destruct (pivot_root _ G Fjj) as (Fp & P1 & P2 & P3).
  set (pv := forN j (fun k s => sub s (mul (Q j k) (Q j k))) (A j j)) in *. rewrite <- D in P1, P2, P3, Fjj.
  assert (U1 := u_pos'). assert (U2 := eta_pos').
  assert (K : forall f : R -> R, f 0 = 0 -> Ssum n (fun k => f (low Q i k * low Q j k)) = Ssum j (fun k => f (B2R (Q i k) * B2R (Q j k))) + f (B2R (Q i j) * B2R (Q j j))).
  { intros f f0. rewrite (Ssum_tail n (S j)) by (try lia; intros; rewrite (low_out Q j) by lia; now rewrite Rmult_0_r). cbn [Ssum]. rewrite !low_in by lia.
    rewrite (Ssum_ext j _ (fun k => f (B2R (Q i k) * B2R (Q j k)))); [ring|]. intros k Hk. now rewrite !low_in by lia. }
  unfold rdot, adot. rewrite (K (fun r => r) eq_refl), (K Rabs Rabs_R0).
  assert (SP : 0 <= Ssum j (fun k => Rabs (B2R (Q i k) * B2R (Q j k)))) by (apply Ssum_pos; intros; apply Rabs_pos).
  destruct (Nat.eq_dec i j) as [->|N].
  - destruct (sub_loop prec emax Hp He (Q j) (Q j) (A j j) j Fp) as (Fa & _ & B). fold pv in B. split; [exact Fa|]. split; [exact P1|].
    eapply Rle_trans; [apply (chain _ (B2R pv) _ (Ssum j (fun k => Rabs (B2R (Q j k) * B2R (Q j k)))) (grow j) (INR j * grow j * eta) (grow 2) _ 0)|]; try apply grow1; try lra; try exact B.
    rewrite grow_mul. pose proof (gam_le (j + 2) (j + 3) ltac:(lia)) as GL. unfold S_FloatMat.gam in *. pose proof (Rabs_pos (B2R (Q j j) * B2R (Q j j))).
    assert (GJ := grow1 j). assert (0 <= grow j * (2 * B2R (Q j j)) * eta) by (apply Rmult_le_pos; nra).
    apply Rle_trans with ((grow (j + 3) - 1) * (Ssum j (fun k => Rabs (B2R (Q j k) * B2R (Q j k))) + Rabs (B2R (Q j j) * B2R (Q j j))) + (INR j * grow j * eta + grow j * 0)).
    + apply Rplus_le_compat_r. apply Rmult_le_compat_r; lra.
    + lra.
  - assert (Fij := FR i j ltac:(lia)). assert (Cij := C i ltac:(lia)). set (s := forN j (fun k s => sub s (mul (Q j k) (Q i k))) (A i j)) in *.
    rewrite Cij in Fij. destruct (column_div (Q j j) s P1 P2 Fjj Fij) as (Fs & W). rewrite <- Cij in W.
    destruct (sub_loop prec emax Hp He (Q j) (Q i) (A i j) j Fs) as (Fa & _ & B). fold s in B. split; [exact Fa|]. split; [exact P1|].
    rewrite (Ssum_ext j (fun k => B2R (Q j k) * B2R (Q i k)) (fun k => B2R (Q i k) * B2R (Q j k))) in B by (intros; ring).
    rewrite (Ssum_ext j (fun k => Rabs (B2R (Q j k) * B2R (Q i k))) (fun k => Rabs (B2R (Q i k) * B2R (Q j k)))) in B by (intros; f_equal; ring).
    eapply Rle_trans; [apply (chain _ (B2R s) _ (Ssum j (fun k => Rabs (B2R (Q i k) * B2R (Q j k)))) (grow j) (INR j * grow j * eta) (grow 3) _ (2 * B2R (Q j j) * eta))|]; try apply grow1; try exact B; try exact W; try exact SP; [nra|].
    rewrite grow_mul. unfold S_FloatMat.gam. apply Req_le. ring.
Qed.
End Chol.
End FM2.
