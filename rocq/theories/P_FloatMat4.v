(** Error bounds of products, determinants and inverses. *)
From Coq Require Import PeanoNat ZArith Bool List Reals Lra Lia.
From Flocq Require Import Core Plus_error Relative IEEE754.BinarySingleNaN.
From Verif Require Import M_RefTopo M_Matrix M_Float M_FloatGlobal M_FloatLocal S_RefGeo S_FloatMat P_Matrix P_Float P_Float2 P_FloatErr P_FloatMat1 P_FloatMat2 P_FloatMat3 P_FloatRef.
Import ListNotations.
Local Open Scope R_scope.

Section FM4.
Variables (prec emax : Z).
Context (Hp : Prec_gt_0 prec) (He : Prec_lt_emax prec emax).
Notation float := (binary_float prec emax).
Notation FVec := (nat -> float).
Notation FMat := (nat -> nat -> float).
Notation fexp := (SpecFloat.fexp prec emax).
Notation rnd := (round radix2 fexp (round_mode mode_NE)).
Notation u := (uro prec).
Notation eta := (tiny prec emax).
Notation grow := (grow prec).
Notation gam := (gam prec).
Notation add := (fadd prec emax Hp He).
Notation sub := (fsub prec emax Hp He).
Notation mul := (fmul prec emax Hp He).
Notation div := (fdiv prec emax Hp He).
Notation sqr := (fsqrt prec emax Hp He).
Notation one := (ofZ prec emax Hp He 1).
Notation zero := (ofZ prec emax Hp He 0).
Notation low := (low prec emax).
Notation symm := (symm prec emax).
Notation low_finite := (low_finite prec emax).
Notation all_finite := (all_finite prec emax).

Lemma growS k : grow (S k) = (1 + u) * grow k. Proof. reflexivity. Qed.
Lemma dot_err (l r : nat -> float) m : let s := forN m (fun j s => add s (mul (l j) (r j))) zero in
  is_finite s = true -> (forall j, (j < m)%nat -> is_finite (l j) = true /\ is_finite (r j) = true) /\
  Rabs (B2R s - Ssum m (fun j => B2R (l j) * B2R (r j))) <= gam (S m) * Ssum m (fun j => Rabs (B2R (l j) * B2R (r j))) + grow m * INR m * eta.
Proof.
  intros s F. pose proof (u_pos' prec) as U.
  destruct (add_loop prec emax Hp He l r zero 0 0 (1 + bpow radix2 (- prec)) 0) with (m := m) as (_ & K & B); try (rewrite ?Rabs_R0; lra).
  - change (bpow radix2 (- prec)) with u. intros _. change (B2R zero) with 0. rewrite Rminus_0_r, Rabs_R0. lra.
  - exact F.
  - split; [exact K|]. rewrite Rplus_0_l, Rplus_0_l, Rplus_0_l in B. eapply Rle_trans; [exact B|]. apply Req_le.
    unfold S_FloatMat.gam. rewrite growS. unfold S_FloatMat.grow, uro, tiny. ring.
Qed.
Lemma dot1_err (l r : nat -> float) m : let s := forN m (fun j s => add s (mul (l (1 + j)%nat) (r (1 + j)%nat))) (mul (l 0%nat) (r 0%nat)) in
  is_finite s = true -> (forall j, (j < S m)%nat -> is_finite (l j) = true /\ is_finite (r j) = true) /\
  Rabs (B2R s - Ssum (S m) (fun j => B2R (l j) * B2R (r j))) <= gam (S m) * Ssum (S m) (fun j => Rabs (B2R (l j) * B2R (r j))) + grow m * INR (S m) * eta.
Proof.
  intros s F. pose proof (u_pos' prec) as U. pose proof (eta_pos' prec emax) as Et.
  destruct (add_loop prec emax Hp He (fun j => l (1 + j)%nat) (fun j => r (1 + j)%nat) (mul (l 0%nat) (r 0%nat)) (B2R (l 0%nat) * B2R (r 0%nat)) (Rabs (B2R (l 0%nat) * B2R (r 0%nat))) (1 + bpow radix2 (- prec)) eta) with (m := m) as (F0 & K & B).
  - lra.
  - lra.
  - lra.
  - intro F0. destruct (mul_fin prec emax Hp He _ _ F0) as (_ & _ & V). rewrite V. eapply Rle_trans; [apply (forw_any prec emax Hp)|]. fold eta. lra.
  - exact F.
  - destruct (mul_fin prec emax Hp He _ _ F0) as (Fl & Fr & _). split.
    + intros [|j] Hj; [auto|]. apply (K j). lia.
    + change (S m) with (1 + m)%nat at 1 3. rewrite !Ssum_shift. cbn [Ssum]. rewrite !Rplus_0_l. eapply Rle_trans; [exact B|]. apply Req_le.
      unfold S_FloatMat.gam. rewrite growS, S_INR. unfold S_FloatMat.grow, uro, tiny. ring.
Qed.

Lemma fmv_err n A x i : is_finite (fmv prec emax Hp He n A x i) = true ->
  (forall j, (j < n)%nat -> is_finite (A i j) = true /\ is_finite (x j) = true) /\
  Rabs (B2R (fmv prec emax Hp He n A x i) - rdot n (fun j => B2R (A i j)) (fun j => B2R (x j)))
    <= gam (S n) * adot n (fun j => B2R (A i j)) (fun j => B2R (x j)) + grow n * INR n * eta.
Proof. exact (dot_err (A i) x n). Qed.
Lemma fmtv_err m A x j : is_finite (fmtv prec emax Hp He m A x j) = true ->
  (forall i, (i < m)%nat -> is_finite (A i j) = true /\ is_finite (x i) = true) /\
  Rabs (B2R (fmtv prec emax Hp He m A x j) - rdot m (fun i => B2R (A i j)) (fun i => B2R (x i)))
    <= gam (S m) * adot m (fun i => B2R (A i j)) (fun i => B2R (x i)) + grow m * INR m * eta.
Proof. exact (dot_err (fun i => A i j) x m). Qed.
Lemma fATBT_err m n p A B ret i j : (i < n)%nat -> (j < p)%nat -> is_finite (fATBT prec emax Hp He m n p A B ret i j) = true ->
  (forall k, (k < m)%nat -> is_finite (A k i) = true /\ is_finite (B j k) = true) /\
  Rabs (B2R (fATBT prec emax Hp He m n p A B ret i j) - rdot m (fun k => B2R (A k i)) (fun k => B2R (B j k)))
    <= gam (S m) * adot m (fun k => B2R (A k i)) (fun k => B2R (B j k)) + grow m * INR m * eta.
Proof. intros Hi Hj. rewrite fATBT_entry by assumption. exact (dot_err (fun k => A k i) (B j) m). Qed.
Lemma fAAT_err m n A ret i j : (j <= i < m)%nat -> (0 < n)%nat -> is_finite (fAAT_L prec emax Hp He m n A ret i j) = true ->
  (forall k, (k < n)%nat -> is_finite (A i k) = true /\ is_finite (A j k) = true) /\
  Rabs (B2R (fAAT_L prec emax Hp He m n A ret i j) - rdot n (fun k => B2R (A i k)) (fun k => B2R (A j k)))
    <= gam n * adot n (fun k => B2R (A i k)) (fun k => B2R (A j k)) + grow (n - 1) * INR n * eta.
Proof.
  intros Hij Hn. rewrite fAAT_entry by assumption. destruct n as [|n]; [lia|]. cbn [Nat.sub]. rewrite Nat.sub_0_r. exact (dot1_err (A i) (A j) n).
Qed.
Lemma fLTL_err n L ret i j : (j <= i < n)%nat -> is_finite (fLTL prec emax Hp He n L ret i j) = true ->
  fLTL prec emax Hp He n L ret j i = fLTL prec emax Hp He n L ret i j /\
  (forall k, (i <= k < n)%nat -> is_finite (L k i) = true /\ is_finite (L k j) = true) /\
  Rabs (B2R (fLTL prec emax Hp He n L ret i j) - rdot n (fun k => low L k i) (fun k => low L k j))
    <= gam (S (n - i)) * adot n (fun k => low L k i) (fun k => low L k j) + grow (n - i) * INR (n - i) * eta.
Proof.
  intros Hij F. destruct (fLTL_entry prec emax Hp He n L ret i j Hij) as (E & Sy). split; [exact Sy|]. rewrite E in F |- *.
  destruct (dot_err (fun k => L (i + k)%nat i) (fun k => L (i + k)%nat j) (n - i) F) as (K & B). split.
  - intros k Hk. specialize (K (k - i)%nat ltac:(lia)). now replace (i + (k - i))%nat with k in K by lia.
  - assert (Q : forall f : R -> R, f 0 = 0 -> Ssum n (fun k => f (low L k i * low L k j)) = Ssum (n - i) (fun k => f (B2R (L (i + k)%nat i) * B2R (L (i + k)%nat j)))).
    { intros f f0. rewrite (Ssum_head n i) by (try lia; intros; rewrite (low_out prec emax L _ i) by lia; now rewrite Rmult_0_l).
      apply Ssum_ext. intros k Hk. now rewrite !low_in by lia. }
    unfold rdot, adot. rewrite (Q (fun r => r) eq_refl), (Q Rabs Rabs_R0). exact B.
Qed.

(** ** determinants *)
Lemma format_B2R' (x : float) : generic_format radix2 fexp (B2R x). Proof. apply generic_format_B2R. Qed.
Lemma prod_err a b : is_finite (mul a b) = true -> Rabs (B2R (mul a b) - B2R a * B2R b) <= u * Rabs (B2R a * B2R b) + eta.
Proof. intro F. destruct (mul_fin prec emax Hp He _ _ F) as (_ & _ & ->). apply (forw_any prec emax Hp). Qed.
(** sum of two approximations *)
Lemma add_err x y X Y MX MY q c e : is_finite (add x y) = true -> 1 <= q -> 0 <= c -> 0 <= e -> Rabs X <= MX -> Rabs Y <= MY ->
  Rabs (B2R x - X) <= (q - 1) * MX + c -> Rabs (B2R y - Y) <= (q - 1) * MY + e ->
  Rabs (B2R (add x y) - (X + Y)) <= ((1 + u) * q - 1) * (MX + MY) + (1 + u) * (c + e).
Proof.
  intros F Hq Hc He0 HX HY EX EY. destruct (add_fin prec emax Hp He _ _ F) as (_ & _ & V).
  destruct (rel_plus prec emax Hp _ _ (format_B2R' x) (format_B2R' y)) as (d & D & E). rewrite V, E. fold u in D. pose proof (u_pos' prec) as U.
  replace ((B2R x + B2R y) * (1 + d) - (X + Y)) with (((B2R x - X) + (B2R y - Y)) * (1 + d) + (X + Y) * d) by ring.
  eapply Rle_trans; [apply Rabs_triang|]. rewrite !Rabs_mult.
  assert (D1 : Rabs (1 + d) <= 1 + u) by (eapply Rle_trans; [apply Rabs_triang|]; rewrite Rabs_R1; lra).
  assert (K1 : Rabs (B2R x - X + (B2R y - Y)) * Rabs (1 + d) <= ((q - 1) * MX + c + ((q - 1) * MY + e)) * (1 + u)).
  { apply Rmult_le_compat; auto using Rabs_pos. eapply Rle_trans; [apply Rabs_triang|]. lra. }
  assert (K2 : Rabs (X + Y) * Rabs d <= (MX + MY) * u).
  { apply Rmult_le_compat; auto using Rabs_pos. eapply Rle_trans; [apply Rabs_triang|]. lra. }
  lra.
Qed.
Lemma sub_err x y X Y MX MY q c e : is_finite (sub x y) = true -> 1 <= q -> 0 <= c -> 0 <= e -> Rabs X <= MX -> Rabs Y <= MY ->
  Rabs (B2R x - X) <= (q - 1) * MX + c -> Rabs (B2R y - Y) <= (q - 1) * MY + e ->
  Rabs (B2R (sub x y) - (X - Y)) <= ((1 + u) * q - 1) * (MX + MY) + (1 + u) * (c + e).
Proof.
  intros F Hq Hc He0 HX HY EX EY. destruct (sub_fin prec emax Hp He _ _ F) as (_ & _ & V).
  destruct (rel_minus prec emax Hp _ _ (format_B2R' x) (format_B2R' y)) as (d & D & E). rewrite V, E. fold u in D. pose proof (u_pos' prec) as U.
  replace ((B2R x - B2R y) * (1 + d) - (X - Y)) with (((B2R x - X) - (B2R y - Y)) * (1 + d) + (X - Y) * d) by ring.
  assert (T : forall a b, Rabs (a - b) <= Rabs a + Rabs b) by (intros a b; unfold Rminus; eapply Rle_trans; [apply Rabs_triang|]; rewrite Rabs_Ropp; lra).
  eapply Rle_trans; [apply Rabs_triang|]. rewrite !Rabs_mult.
  assert (D1 : Rabs (1 + d) <= 1 + u) by (eapply Rle_trans; [apply Rabs_triang|]; rewrite Rabs_R1; lra).
  assert (K1 : Rabs (B2R x - X - (B2R y - Y)) * Rabs (1 + d) <= ((q - 1) * MX + c + ((q - 1) * MY + e)) * (1 + u)).
  { apply Rmult_le_compat; auto using Rabs_pos. eapply Rle_trans; [apply T|]. lra. }
  assert (K2 : Rabs (X - Y) * Rabs d <= (MX + MY) * u).
  { apply Rmult_le_compat; auto using Rabs_pos. eapply Rle_trans; [apply T|]. lra. }
  lra.
Qed.
Lemma cross_err a b c d : is_finite (sub (mul a b) (mul c d)) = true ->
  Rabs (B2R (sub (mul a b) (mul c d)) - (B2R a * B2R b - B2R c * B2R d)) <= gam 2 * (Rabs (B2R a * B2R b) + Rabs (B2R c * B2R d)) + 2 * (1 + u) * eta.
Proof.
  intro F. destruct (sub_fin prec emax Hp He _ _ F) as (F1 & F2 & _). pose proof (u_pos' prec). pose proof (eta_pos' prec emax).
  eapply Rle_trans; [apply (sub_err _ _ (B2R a * B2R b) (B2R c * B2R d) (Rabs (B2R a * B2R b)) (Rabs (B2R c * B2R d)) (1 + u) eta eta F); try lra|].
  - replace (1 + u - 1) with u by ring. now apply prod_err.
  - replace (1 + u - 1) with u by ring. now apply prod_err.
  - unfold S_FloatMat.gam, S_FloatMat.grow. cbn [pow]. lra.
Qed.
(** product of an approximation with a number *)
Lemma scale_err v a V M q c : is_finite (mul v a) = true -> 1 <= q -> 0 <= c -> Rabs V <= M -> Rabs (B2R v - V) <= (q - 1) * M + c ->
  Rabs (B2R (mul v a) - V * B2R a) <= ((1 + u) * q - 1) * (M * Rabs (B2R a)) + ((1 + u) * c * Rabs (B2R a) + eta).
Proof.
  intros F Hq Hc HV E. pose proof (prod_err v a F) as P. set (va := B2R v * B2R a) in *. pose proof (u_pos' prec).
  replace (B2R (mul v a) - V * B2R a) with ((B2R (mul v a) - va) + (B2R v - V) * B2R a) by (unfold va; ring).
  eapply Rle_trans; [apply Rabs_triang|]. rewrite Rabs_mult. pose proof (Rabs_pos (B2R a)) as Pa.
  assert (K1 : Rabs (B2R v - V) * Rabs (B2R a) <= ((q - 1) * M + c) * Rabs (B2R a)) by (now apply Rmult_le_compat_r).
  assert (K0 : Rabs (B2R v) <= q * M + c) by (replace (B2R v) with (B2R v - V + V) by ring; eapply Rle_trans; [apply Rabs_triang|]; lra).
  assert (K2 : Rabs va <= (q * M + c) * Rabs (B2R a)) by (unfold va; rewrite Rabs_mult; now apply Rmult_le_compat_r).
  assert (K3 : u * Rabs va <= u * ((q * M + c) * Rabs (B2R a))) by (apply Rmult_le_compat_l; lra). lra.
Qed.

Lemma cross_abs (a b c d : float) : Rabs (B2R a * B2R b - B2R c * B2R d) <= Rabs (B2R a * B2R b) + Rabs (B2R c * B2R d).
Proof. unfold Rminus. eapply Rle_trans; [apply Rabs_triang|]. rewrite Rabs_Ropp. lra. Qed.
Lemma det3_err a0 a1 a2 b0 b1 b2 c0 c1 c2 :
  let v0 := sub (mul a1 b2) (mul b1 a2) in let v1 := sub (mul a2 b0) (mul b2 a0) in let v2 := sub (mul a0 b1) (mul b0 a1) in
  let w := add (add (mul v0 c0) (mul v1 c1)) (mul v2 c2) in
  is_finite w = true ->
  Rabs (B2R w - ((B2R a1 * B2R b2 - B2R b1 * B2R a2) * B2R c0 + (B2R a2 * B2R b0 - B2R b2 * B2R a0) * B2R c1 + (B2R a0 * B2R b1 - B2R b0 * B2R a1) * B2R c2))
   <= gam 5 * ((Rabs (B2R a1 * B2R b2) + Rabs (B2R b1 * B2R a2)) * Rabs (B2R c0) + (Rabs (B2R a2 * B2R b0) + Rabs (B2R b2 * B2R a0)) * Rabs (B2R c1) + (Rabs (B2R a0 * B2R b1) + Rabs (B2R b0 * B2R a1)) * Rabs (B2R c2))
      + grow 2 * (3 + 2 * grow 2 * (Rabs (B2R c0) + Rabs (B2R c1) + Rabs (B2R c2))) * eta.
Proof.
  intros v0 v1 v2 w F. unfold w in F |- *. destruct (add_fin prec emax Hp He _ _ F) as (F01 & F2 & _). destruct (add_fin prec emax Hp He _ _ F01) as (F0 & F1 & _).
  destruct (mul_fin prec emax Hp He _ _ F0) as (G0 & _). destruct (mul_fin prec emax Hp He _ _ F1) as (G1 & _). destruct (mul_fin prec emax Hp He _ _ F2) as (G2 & _).
  pose proof (cross_err a1 b2 b1 a2 G0) as E0. pose proof (cross_err a2 b0 b2 a0 G1) as E1. pose proof (cross_err a0 b1 b0 a1 G2) as E2. fold v0 in E0. fold v1 in E1. fold v2 in E2.
  pose proof (cross_abs a1 b2 b1 a2) as A0. pose proof (cross_abs a2 b0 b2 a0) as A1. pose proof (cross_abs a0 b1 b0 a1) as A2.
  set (M0 := Rabs (B2R a1 * B2R b2) + Rabs (B2R b1 * B2R a2)) in *. set (M1 := Rabs (B2R a2 * B2R b0) + Rabs (B2R b2 * B2R a0)) in *. set (M2 := Rabs (B2R a0 * B2R b1) + Rabs (B2R b0 * B2R a1)) in *.
  set (V0 := B2R a1 * B2R b2 - B2R b1 * B2R a2) in *. set (V1 := B2R a2 * B2R b0 - B2R b2 * B2R a0) in *. set (V2 := B2R a0 * B2R b1 - B2R b0 * B2R a1) in *.
  pose proof (u_pos' prec) as U. pose proof (eta_pos' prec emax) as Et. pose proof (grow1 prec 2) as G. unfold S_FloatMat.gam in E0, E1, E2.
  pose proof (Rabs_pos (B2R c0)) as P0. pose proof (Rabs_pos (B2R c1)) as P1. pose proof (Rabs_pos (B2R c2)) as P2.
  assert (N0 : 0 <= M0) by (pose proof (Rabs_pos V0); lra). assert (N1 : 0 <= M1) by (pose proof (Rabs_pos V1); lra). assert (N2 : 0 <= M2) by (pose proof (Rabs_pos V2); lra).
  assert (Cp : 0 <= 2 * (1 + u) * eta) by nra.
  pose proof (scale_err v0 c0 V0 M0 (grow 2) _ F0 G Cp A0 E0) as S0. pose proof (scale_err v1 c1 V1 M1 (grow 2) _ F1 G Cp A1 E1) as S1. pose proof (scale_err v2 c2 V2 M2 (grow 2) _ F2 G Cp A2 E2) as S2.
  assert (Q : (1 + u) * (2 * (1 + u) * eta) = 2 * grow 2 * eta) by (unfold S_FloatMat.grow; cbn [pow]; ring).
  rewrite Q in S0, S1, S2. rewrite <- growS in S0, S1, S2. pose proof (grow1 prec 3) as G3. pose proof (grow1 prec 4) as G4.
  assert (QM : forall V M c, Rabs V <= M -> Rabs (V * c) <= M * Rabs c) by (intros; rewrite Rabs_mult; apply Rmult_le_compat_r; [apply Rabs_pos|assumption]).
  assert (J : forall c, 0 <= c -> 0 <= 2 * grow 2 * eta * c + eta) by (intros; assert (0 <= 2 * grow 2 * eta * c) by (apply Rmult_le_pos; nra); lra).
  pose proof (add_err _ _ (V0 * B2R c0) (V1 * B2R c1) _ _ (grow 3) _ _ F01 G3 (J _ P0) (J _ P1) (QM _ _ (B2R c0) A0) (QM _ _ (B2R c1) A1) S0 S1) as T1.
  rewrite <- growS in T1.
  assert (QS : Rabs (V0 * B2R c0 + V1 * B2R c1) <= M0 * Rabs (B2R c0) + M1 * Rabs (B2R c1)).
  { eapply Rle_trans; [apply Rabs_triang|]. pose proof (QM _ _ (B2R c0) A0). pose proof (QM _ _ (B2R c1) A1). lra. }
  pose proof (J _ P0) as J0. pose proof (J _ P1) as J1. pose proof (J _ P2) as J2.
  assert (S2' : Rabs (B2R (mul v2 c2) - V2 * B2R c2) <= (grow 4 - 1) * (M2 * Rabs (B2R c2)) + (1 + u) * (2 * grow 2 * eta * Rabs (B2R c2) + eta)).
  { eapply Rle_trans; [exact S2|]. apply Rplus_le_compat; [|nra]. apply Rmult_le_compat_r; [now apply Rmult_le_pos|]. pose proof (grow_le prec 3 4 ltac:(lia)). lra. }
  assert (C01 : 0 <= (1 + u) * ((2 * grow 2 * eta * Rabs (B2R c0) + eta) + (2 * grow 2 * eta * Rabs (B2R c1) + eta))) by (apply Rmult_le_pos; lra).
  assert (C2 : 0 <= (1 + u) * (2 * grow 2 * eta * Rabs (B2R c2) + eta)) by (apply Rmult_le_pos; lra).
  pose proof (add_err _ _ (V0 * B2R c0 + V1 * B2R c1) (V2 * B2R c2) _ _ (grow 4) _ _ F G4 C01 C2 QS (QM _ _ (B2R c2) A2) T1 S2') as T2.
  eapply Rle_trans; [exact T2|]. rewrite <- growS. unfold S_FloatMat.gam. apply Req_le. unfold S_FloatMat.grow. cbn [pow]. ring.
Qed.

(** ** the 2x2 inverse *)
Section H2.
Hypothesis H2 : (2 <= prec)%Z.
Lemma inv_entry a D : is_finite D = true -> is_finite (mul a (div one D)) = true ->
  Rabs (B2R (mul a (div one D)) * B2R D - B2R a) <= gam 2 * Rabs (B2R a) + ((1 + u) * Rabs (B2R a) + 1) * Rabs (B2R D) * eta.
Proof.
  intros FD F. destruct (mul_fin prec emax Hp He _ _ F) as (Fa & Fi & V). destruct (div_fin prec emax Hp He _ _ Fi FD) as (_ & ND & W).
  rewrite (proj2 (is1 prec emax Hp He H2)) in W. pose proof (forw_any prec emax Hp (1 / B2R D)) as E. rewrite <- W in E. fold u eta in E.
  pose proof (forw_any prec emax Hp (B2R a * B2R (div one D))) as E2. rewrite <- V in E2. fold u eta in E2.
  set (r := B2R (mul a (div one D))) in *. set (i := B2R (div one D)) in *. set (d := B2R D) in *. set (x := B2R a) in *.
  pose proof (u_pos' prec) as U. pose proof (eta_pos' prec emax) as Et. pose proof (Rabs_pos d) as Pd. pose proof (Rabs_pos x) as Px.
  assert (I : Rabs (i * d - 1) <= u + eta * Rabs d).
  { replace (i * d - 1) with (d * (i - 1 / d)) by (field; exact ND). rewrite Rabs_mult.
    replace (u + eta * Rabs d) with (Rabs d * (u * Rabs (1 / d) + eta)).
    - apply Rmult_le_compat_l; assumption.
    - unfold Rdiv. rewrite Rmult_1_l. rewrite Rabs_Rinv by exact ND. field. now apply Rabs_no_R0. }
  assert (I1 : Rabs (i * d) <= 1 + u + eta * Rabs d) by (replace (i * d) with (i * d - 1 + 1) by ring; eapply Rle_trans; [apply Rabs_triang|]; rewrite Rabs_R1; lra).
  replace (r * d - x) with ((r - x * i) * d + x * (i * d - 1)) by ring. eapply Rle_trans; [apply Rabs_triang|]. rewrite !Rabs_mult.
  assert (K1 : Rabs (r - x * i) * Rabs d <= (u * Rabs (x * i) + eta) * Rabs d) by (apply Rmult_le_compat_r; assumption).
  assert (K2 : Rabs x * Rabs (i * d - 1) <= Rabs x * (u + eta * Rabs d)) by (apply Rmult_le_compat_l; assumption).
  assert (K3 : u * Rabs (x * i) * Rabs d = u * Rabs x * Rabs (i * d)) by (rewrite !Rabs_mult; ring).
  assert (K4 : u * Rabs x * Rabs (i * d) <= u * Rabs x * (1 + u + eta * Rabs d)) by (apply Rmult_le_compat_l; [nra|exact I1]).
  unfold S_FloatMat.gam, S_FloatMat.grow. cbn [pow]. lra.
Qed.

(** ** the determinant of a triangular matrix, without underflow *)
Lemma back_big v : bpow radix2 (2 - emax) <= Rabs (rnd v) -> Rabs (v - rnd v) <= u * Rabs (rnd v).
Proof.
  intro H. destruct (Rle_lt_dec (bpow radix2 (2 - emax)) (Rabs v)) as [N|N]; [apply (back_normal prec emax Hp v N)|].
  assert (B : Rabs (v - rnd v) <= eta).
  { rewrite Rabs_minus_sym. pose proof (error_le_half_ulp radix2 fexp (fun x => negb (Z.even x)) v) as E.
    assert (UL : ulp radix2 fexp v = bpow radix2 (3 - emax - prec)).
    { apply (ulp_FLT_small radix2 (3 - emax - prec) prec). replace (3 - emax - prec + prec)%Z with (3 - emax)%Z by lia.
      eapply Rlt_le_trans; [exact N|]. apply bpow_le. lia. }
    rewrite UL in E. replace (/ 2 * bpow radix2 (3 - emax - prec)) with eta in E; [exact E|].
    unfold tiny. replace (3 - emax - prec)%Z with (1 + (2 - emax - prec))%Z by lia. rewrite bpow_plus. change (bpow radix2 1) with 2. lra. }
  eapply Rle_trans; [exact B|]. replace eta with (u * bpow radix2 (2 - emax)).
  - apply Rmult_le_compat_l; [apply bpow_ge_0|exact H].
  - unfold uro, tiny. rewrite <- bpow_plus. f_equal. lia.
Qed.
Fixpoint rprodn (n : nat) (f : nat -> R) : R := match n with O => 1 | S n => rprodn n f * f n end.
Lemma detL_err n L : is_finite (fdetL prec emax Hp He n L) = true ->
  (forall m, (m <= n)%nat -> bpow radix2 (2 - emax) <= Rabs (B2R (fdetL prec emax Hp He m L))) ->
  (forall i, (i < n)%nat -> is_finite (L i i) = true) /\
  Rabs (B2R (fdetL prec emax Hp He n L) - rprodn n (fun i => B2R (L i i))) <= gam n * Rabs (B2R (fdetL prec emax Hp He n L)).
Proof.
  induction n; intros F N.
  - split; [intros; lia|]. unfold fdetL. cbn [forN rprodn]. rewrite (proj2 (is1 prec emax Hp He H2)), Rminus_diag_eq, Rabs_R0 by reflexivity. apply Rmult_le_pos; [apply gam_pos|apply Rabs_pos].
  - unfold fdetL in F |- *. cbn [forN rprodn] in F |- *. fold (fdetL prec emax Hp He n L) in F |- *.
    destruct (mul_fin prec emax Hp He _ _ F) as (F1 & Fl & V). destruct (IHn F1) as (K & B); [intros; apply N; lia|]. split.
    { intros i Hi. destruct (Nat.eq_dec i n) as [->|Ne]; [exact Fl|apply K; lia]. }
    pose proof (N (S n) (le_n _)) as NS. unfold fdetL in NS. cbn [forN] in NS. fold (fdetL prec emax Hp He n L) in NS.
    set (d := B2R (mul _ _)) in *. rewrite V in NS. pose proof (back_big _ NS) as E. rewrite <- V in E.
    set (p := B2R (fdetL prec emax Hp He n L)) in *. set (l := B2R (L n n)) in *. set (P := rprodn n (fun i => B2R (L i i))) in *.
    replace (d - P * l) with ((p - P) * l - (p * l - d)) by ring. unfold Rminus at 1. eapply Rle_trans; [apply Rabs_triang|]. rewrite Rabs_Ropp, Rabs_mult.
    assert (K1 : Rabs (p - P) * Rabs l <= gam n * Rabs p * Rabs l) by (apply Rmult_le_compat_r; [apply Rabs_pos|exact B]).
    assert (K2 : Rabs p * Rabs l <= (1 + u) * Rabs d).
    { rewrite <- Rabs_mult. replace (p * l) with (p * l - d + d) by ring. eapply Rle_trans; [apply Rabs_triang|]. lra. }
    pose proof (gam_pos prec n) as GP.
    assert (K3 : gam n * (Rabs p * Rabs l) <= gam n * ((1 + u) * Rabs d)) by (now apply Rmult_le_compat_l).
    unfold S_FloatMat.gam in *. rewrite growS. lra.
Qed.

(** ** the inverse of a triangular matrix *)
Lemma invL_err n L det N : finvL prec emax Hp He n L = (det, N) -> low_finite n L -> low_finite n N ->
  det = fdetL prec emax Hp He n L /\
  forall i j, (j <= i < n)%nat ->
    let A := adot n (low L i) (fun k => low N k j) in let t := (i - j)%nat in
    Rabs (rdot n (low L i) (fun k => low N k j) - (if Nat.eqb i j then 1 else 0))
      <= gam (S t) * A + (grow t * INR t + Rabs (B2R (L i i)) * (1 + grow t * (A + INR t * eta))) * eta.
Proof.
  intros E FL FN. pose proof (finvL_entry prec emax Hp He n L) as K. rewrite E in K. destruct K as (Ed & K). split; [exact Ed|].
  intros i j Hij A t. destruct (K i ltac:(lia)) as (D & C).
  assert (Q : forall f : R -> R, f 0 = 0 -> Ssum n (fun k => f (low L i k * low N k j)) = Ssum t (fun k => f (B2R (L i (j + k)%nat) * B2R (N (j + k)%nat j))) + f (B2R (L i i) * B2R (N i j))).
  { intros f f0. rewrite (Ssum_tail n (S i)) by (try lia; intros; rewrite (low_out prec emax L) by lia; now rewrite Rmult_0_l). cbn [Ssum]. rewrite !low_in by lia. f_equal.
    rewrite (Ssum_head i j) by (try lia; intros; rewrite (low_out prec emax N) by lia; now rewrite Rmult_0_r). apply Ssum_ext. intros k Hk. now rewrite !low_in by lia. }
  pose proof (u_pos' prec) as U. pose proof (eta_pos' prec emax) as Et. pose proof (grow1 prec t) as G1.
  assert (HA : A = Ssum t (fun k => Rabs (B2R (L i (j + k)%nat) * B2R (N (j + k)%nat j))) + Rabs (B2R (L i i) * B2R (N i j))) by (apply (Q Rabs Rabs_R0)).
  unfold rdot. rewrite (Q (fun r => r) eq_refl).
  set (B := Ssum t (fun k => Rabs (B2R (L i (j + k)%nat) * B2R (N (j + k)%nat j)))) in *.
  assert (HB : 0 <= B) by (apply Ssum_pos; intros; apply Rabs_pos).
  pose proof (FL i i ltac:(lia)) as Fl. pose proof (FN i i ltac:(lia)) as Fn. pose proof Fn as Fn'. rewrite D in Fn'.
  destruct (div_fin prec emax Hp He _ _ Fn' Fl) as (_ & Nl & W). rewrite (proj2 (is1 prec emax Hp He H2)) in W. rewrite <- D in W.
  set (l := B2R (L i i)) in *. set (r := B2R (N i i)) in *. pose proof (Rabs_pos l) as Pl.
  destruct (Nat.eqb_spec i j) as [<-|Ne].
  - assert (t = 0)%nat as T0 by (unfold t; lia). unfold B in HA. rewrite T0 in HA |- *. cbn [Ssum] in HA |- *. rewrite Rplus_0_l in HA. rewrite Rplus_0_l. fold r. fold r in HA.
    pose proof (back_any prec emax Hp (1 / l)) as BA. rewrite <- W in BA. fold u eta in BA.
    assert (Z : Rabs (l * r - 1) <= u * Rabs (l * r) + eta * Rabs l).
    { rewrite Rabs_minus_sym. replace (1 - l * r) with (l * (1 / l - r)) by (field; exact Nl). rewrite !Rabs_mult.
      replace (u * (Rabs l * Rabs r) + eta * Rabs l) with (Rabs l * (u * Rabs r + eta)) by ring. now apply Rmult_le_compat_l. }
    rewrite <- HA in Z. assert (0 <= A) by (rewrite HA; apply Rabs_pos).
    assert (0 <= eta * Rabs l * A) by (apply Rmult_le_pos; [nra|assumption]).
    unfold S_FloatMat.gam, S_FloatMat.grow. cbn [pow INR]. lra.
  - rewrite Rminus_0_r. assert (Hji : (j < i)%nat) by lia. pose proof (FN i j ltac:(lia)) as Fij. pose proof (C j Hji) as Cj. rewrite Cj in Fij.
    set (sf := forN (i - S j) (fun k x => add x (mul (L i (S j + k)%nat) (N (S j + k)%nat j))) (mul (L i j) (N j j))) in *.
    destruct (mul_fin prec emax Hp He _ _ Fij) as (_ & Fs & V). rewrite <- Cj in V. rewrite B2R_Bopp in V. fold r in V.
    set (Ls := fun k => L i (j + k)%nat). set (Ns := fun k => N (j + k)%nat j).
    assert (Es : sf = forN (i - S j) (fun k s => add s (mul (Ls (1 + k)%nat) (Ns (1 + k)%nat))) (mul (Ls 0%nat) (Ns 0%nat))).
    { unfold sf, Ls, Ns. rewrite Nat.add_0_r. apply forN_ext. intros k s Hk. now replace (j + (1 + k))%nat with (S j + k)%nat by lia. }
    rewrite Es in Fs. destruct (dot1_err Ls Ns (i - S j) Fs) as (_ & Z). rewrite <- Es in Z, Fs. replace (S (i - S j)) with t in Z by (unfold t; lia).
    assert (ZS : Ssum t (fun k => Rabs (B2R (Ls k) * B2R (Ns k))) = B) by reflexivity. rewrite ZS in Z.
    set (T := Ssum t (fun k => B2R (L i (j + k)%nat) * B2R (N (j + k)%nat j))) in *. assert (ZT : Ssum t (fun k => B2R (Ls k) * B2R (Ns k)) = T) by reflexivity. rewrite ZT in Z.
    set (c := grow (i - S j) * INR t * eta) in *. assert (Hc : (1 + u) * c = grow t * INR t * eta).
    { unfold c. replace t with (S (i - S j)) at 2 by (unfold t; lia). rewrite growS. ring. }
    assert (Hc0 : 0 <= c) by (unfold c; pose proof (grow1 prec (i - S j)); pose proof (pos_INR t); apply Rmult_le_pos; [apply Rmult_le_pos|]; lra).
    assert (Hc1 : c <= grow t * (INR t * eta)) by (rewrite <- Rmult_assoc, <- Hc; nra).
    set (s := B2R sf) in *. set (nij := B2R (N i j)) in *.
    pose proof (forw_any prec emax Hp (1 / l)) as FA. rewrite <- W in FA. fold u eta in FA.
    assert (I : Rabs (l * r - 1) <= u + eta * Rabs l).
    { replace (l * r - 1) with (l * (r - 1 / l)) by (field; exact Nl). rewrite Rabs_mult.
      replace (u + eta * Rabs l) with (Rabs l * (u * Rabs (1 / l) + eta)).
      - apply Rmult_le_compat_l; assumption.
      - unfold Rdiv. rewrite Rmult_1_l. rewrite Rabs_Rinv by exact Nl. field. now apply Rabs_no_R0. }
    pose proof (back_any prec emax Hp (- r * s)) as BA. rewrite <- V in BA. fold u eta in BA.
    assert (K1 : Rabs (l * (- r * s - nij)) <= u * Rabs (l * nij) + eta * Rabs l).
    { rewrite !Rabs_mult. replace (u * (Rabs l * Rabs nij) + eta * Rabs l) with (Rabs l * (u * Rabs nij + eta)) by ring. now apply Rmult_le_compat_l. }
    assert (K0 : Rabs s <= grow t * B + c).
    { replace s with (s - T + T) by ring. eapply Rle_trans; [apply Rabs_triang|]. assert (Rabs T <= B) by (apply Ssum_abs). unfold S_FloatMat.gam in Z. lra. }
    assert (K2 : Rabs ((l * r - 1) * s) <= (u + eta * Rabs l) * (grow t * B + c)) by (rewrite Rabs_mult; apply Rmult_le_compat; auto using Rabs_pos).
    replace (T + l * nij) with (- (s - T) - (l * r - 1) * s - l * (- r * s - nij)) by ring.
    unfold Rminus at 1 2. eapply Rle_trans; [apply Rabs_triang|]. eapply Rle_trans; [apply Rplus_le_compat_r, Rabs_triang|]. rewrite !Rabs_Ropp.
    unfold S_FloatMat.gam in *. rewrite growS. rewrite HA. pose proof (Rabs_pos (l * nij)) as Pn. set (y := Rabs (l * nij)) in *.
    assert (X1 : u * y <= ((1 + u) * grow t - 1) * y) by (apply Rmult_le_compat_r; nra).
    assert (X2 : eta * Rabs l * (grow t * B + c) <= eta * Rabs l * (grow t * (B + y + INR t * eta))) by (apply Rmult_le_compat_l; nra).
    lra.
Qed.
(** ** the 2x3 integration element *)
Lemma cross_norm_err w0 w1 w2 V0 V1 V2 B0 B1 B2 M0 M1 M2 : (4 <= emax)%Z ->
  let r := sqr (add (add (mul w0 w0) (mul w1 w1)) (mul w2 w2)) in
  is_finite r = true ->
  Rabs (B2R w0 - V0) <= B0 - M0 -> Rabs (B2R w1 - V1) <= B1 - M1 -> Rabs (B2R w2 - V2) <= B2 - M2 ->
  Rabs V0 <= M0 -> Rabs V1 <= M1 -> Rabs V2 <= M2 ->
  0 <= B2R r /\
  Rabs (B2R r * B2R r - (V0 * V0 + V1 * V1 + V2 * V2)) <=
    gam 2 * (B2R r * B2R r) + (grow 3 * (B0 * B0 + B1 * B1 + B2 * B2) - (M0 * M0 + M1 * M1 + M2 * M2)) + 3 * grow 2 * eta.
Proof.
  intros H4 r F E0 E1 E2 A0 A1 A2. unfold r in F. destruct (sqr_fin prec emax Hp He _ F) as (Fs & Ps & V). fold r in V, F.
  set (s := add (add (mul w0 w0) (mul w1 w1)) (mul w2 w2)) in *.
  set (w := fun k => match k with O => w0 | 1%nat => w1 | _ => w2 end).
  destruct (dot1_err w w 2 Fs) as (_ & D). cbn [Ssum Nat.add forN w] in D. fold s in D. rewrite !Rplus_0_l in D. cbn [INR] in D. replace (1 + 1 + 1) with 3 in D by ring.
  pose proof (u_pos' prec) as U. pose proof (eta_pos' prec emax) as Et.
  assert (Q : 0 <= B2R r /\ Rabs (B2R s - B2R r * B2R r) <= gam 2 * (B2R r * B2R r)).
  { destruct (Req_dec (B2R s) 0) as [Z|NZ].
    - rewrite Z, sqrt_0, round_0 in V by typeclasses eauto. rewrite V, Z. split; [lra|]. rewrite !Rmult_0_l, Rminus_0_r, Rabs_R0. lra.
    - assert (G : fgt prec emax s zero = true).
      { unfold fgt. rewrite Bltb_correct by (exact Fs || reflexivity). change (B2R zero) with 0. apply Rlt_bool_true. lra. }
      destruct (pivot_root prec emax Hp He H2 H4 s G F) as (_ & P1 & _ & P3). fold r in P1, P3. split; [lra|]. rewrite (Rabs_pos_eq (B2R r * B2R r)) in P3 by nra. exact P3. }
  destruct Q as (Pr & Q). split; [exact Pr|].
  assert (W : forall x X B M, Rabs (x - X) <= B - M -> Rabs X <= M -> Rabs (x * x - X * X) <= B * B - M * M /\ x * x <= B * B).
  { intros x X B M E A. apply Rabs_le_inv in E. apply Rabs_le_inv in A. split; [apply Rabs_le; split; nra|]. nra. }
  destruct (W _ _ _ _ E0 A0) as (W0 & X0). destruct (W _ _ _ _ E1 A1) as (W1 & X1). destruct (W _ _ _ _ E2 A2) as (W2 & X2).
  rewrite !(Rabs_pos_eq (_ * _)) in D by nra.
  pose proof (gam_pos prec 3) as G3. assert (GE : grow 3 = gam 3 + 1) by (unfold S_FloatMat.gam; ring). rewrite GE.
  set (p := B2R w0 * B2R w0) in *. set (q := B2R w1 * B2R w1) in *. set (t := B2R w2 * B2R w2) in *.
  assert (K : gam 3 * (p + q + t) <= gam 3 * (B0 * B0 + B1 * B1 + B2 * B2)) by (apply Rmult_le_compat_l; lra).
  set (g3 := gam 3) in *. set (g2 := gam 2) in *. clearbody g3 g2.
  apply Rabs_le_inv in D. apply Rabs_le_inv in Q. apply Rabs_le_inv in W0. apply Rabs_le_inv in W1. apply Rabs_le_inv in W2.
  apply Rabs_le. lra.
Qed.
End H2.
End FM4.
