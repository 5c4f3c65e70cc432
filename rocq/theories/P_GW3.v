(** The recurrence of jacobiNquadrature.hh belongs to the weight function (1-t)^alpha. *)
From Coq Require Import ZArith PeanoNat Lia Reals Lra List FunctionalExtensionality.
From Coquelicot Require Import Coquelicot.
From Verif Require Import M_RefGeo M_Matrix M_GolubWelsch S_Matrix P_RSum P_Det P_MxBridge S_GolubWelsch P_GW1 P_GW2.
Local Open Scope R_scope.

Section Jacobi.
Variable al : nat.
Notation a := (INR al).

Definition dJ (k : nat) : R := match k with O => - a / (2 + a) | _ => - (a * a) / ((2 * INR k + a + 2) * (2 * INR k + a)) end.
Definition bJ (k : nat) : R := sqrt (gw_a al k * gw_c al k).
Notation Q := (TQ dJ bJ).

Lemma a_pos : 0 <= a. Proof. apply pos_INR. Qed.
Lemma gw_a_val k : (1 <= k)%nat -> gw_a al k = 2 * INR k * (INR k + a) / ((2 * INR k + a - 1) * (2 * INR k + a)).
Proof.
  intros H. unfold gw_a. rewrite !mult_INR, plus_INR, minus_INR, !plus_INR, mult_INR by lia. simpl (INR 2). simpl (INR 1). reflexivity.
Qed.
Lemma gw_c_val k : gw_c al k = 2 * INR k * (INR k + a) / ((2 * INR k + a + 1) * (2 * INR k + a)).
Proof. unfold gw_c. rewrite !mult_INR, !plus_INR, mult_INR. simpl (INR 2). simpl (INR 1). reflexivity. Qed.
Lemma bJ_sq k : bJ (S k) ^ 2 = (2 * INR (S k) * (INR (S k) + a)) ^ 2 / ((2 * INR (S k) + a - 1) * (2 * INR (S k) + a) ^ 2 * (2 * INR (S k) + a + 1)).
Proof.
  unfold bJ. pose proof a_pos. pose proof (pos_INR k). assert (A : 0 < gw_a al (S k)).
  { rewrite gw_a_val by lia. rewrite S_INR. apply Rdiv_lt_0_compat; apply Rmult_lt_0_compat; lra. }
  assert (C : 0 < gw_c al (S k)).
  { rewrite gw_c_val. rewrite S_INR. apply Rdiv_lt_0_compat; apply Rmult_lt_0_compat; lra. }
  rewrite pow2_sqrt by (apply Rlt_le; now apply Rmult_lt_0_compat). rewrite gw_a_val, gw_c_val by lia. rewrite S_INR. field. lra.
Qed.
Lemma bJ_pos k : (1 <= k)%nat -> 0 < bJ k.
Proof.
  intros H. unfold bJ. apply sqrt_lt_R0. pose proof a_pos. assert (1 <= INR k) by (apply (le_INR 1); exact H).
  rewrite gw_a_val, gw_c_val by lia. apply Rmult_lt_0_compat; apply Rdiv_lt_0_compat; apply Rmult_lt_0_compat; lra.
Qed.

(** the functional: y = (1-x)/2 *)
Definition LJ (f : R -> R) : R := RInt (fun y => y ^ al * f (1 - 2 * y)) 0 1.
Lemma cts_comp_affine f p q : Cts f -> Cts (fun y => f (p + q * y)).
Proof. intros F x. apply (continuous_comp (fun y => p + q * y) f); [|apply F]. apply (cts_plus (fun _ => p) (fun y => q * y)); auto with cts. Qed.
Lemma cts_LJ f : Cts f -> Cts (fun y => y ^ al * f (1 - 2 * y)).
Proof.
  intros F. apply cts_mult; [auto with cts|]. intros x. apply (continuous_comp (fun y => 1 - 2 * y) f); [|apply F].
  apply (cts_minus (fun _ => 1) (fun y => 2 * y)); auto with cts.
Qed.
Lemma int_cts f : Cts f -> ex_RInt f 0 1.
Proof. intros F. apply (ex_RInt_continuous f). intros; apply F. Qed.
Lemma LJ_lin : LinF LJ.
Proof.
  split; intros; unfold LJ.
  - rewrite <- (RInt_plus (fun y => y ^ al * f (1 - 2 * y)) (fun y => y ^ al * g (1 - 2 * y))) by (apply int_cts; now apply cts_LJ).
    apply RInt_ext. intros y _. match goal with |- @eq _ ?u ?w => change (@eq R u w) end. unfold plus; simpl. ring.
  - change (c * RInt (fun y => y ^ al * f (1 - 2 * y)) 0 1) with (scal c (RInt (fun y => y ^ al * f (1 - 2 * y)) 0 1)).
    rewrite <- (RInt_scal (fun y => y ^ al * f (1 - 2 * y)) 0 1 c) by (apply int_cts; now apply cts_LJ).
    apply RInt_ext. intros y _. match goal with |- @eq _ ?u ?w => change (@eq R u w) end. unfold scal; simpl. unfold mult; simpl. ring.
Qed.

Lemma RInt_pow m : RInt (fun y => y ^ m) 0 1 = / (INR m + 1).
Proof.
  apply is_RInt_unique. replace (/ (INR m + 1)) with (minus ((fun y => y ^ S m / (INR m + 1)) 1) ((fun y => y ^ S m / (INR m + 1)) 0)).
  - apply (is_RInt_derive (fun y => y ^ S m / (INR m + 1))).
    + intros x _. auto_derive; [exact I|]. change (match m with O => 1 | S _ => INR m + 1 end) with (INR (S m)). rewrite S_INR. field. pose proof (pos_INR m). lra.
    + intros x _. apply (cts_pow (fun y => y)). auto with cts.
  - unfold minus, plus, opp; simpl. rewrite pow1. field. pose proof (pos_INR m). lra.
Qed.

Definition FJ (k j : nat) : R := LJ (fun x => Q k x * ((1 - x) / 2) ^ j).
Lemma cts_half j : Cts (fun x => ((1 - x) / 2) ^ j).
Proof. apply (cts_pow (fun x => (1 - x) / 2)). apply (cts_mult (fun x => 1 - x) (fun _ => / 2)); auto with cts. Qed.
Local Hint Resolve cts_half : cts.

Lemma FJ_0 j : FJ 0 j = / (INR j + a + 1).
Proof.
  unfold FJ, LJ. rewrite (RInt_ext _ (fun y => y ^ (al + j))).
  - rewrite RInt_pow, plus_INR. f_equal. ring.
  - intros y _. match goal with |- @eq _ ?u ?w => change (@eq R u w) end. cbn [TQ]. rewrite pow_add.
    replace ((1 - (1 - 2 * y)) / 2) with y by field. ring.
Qed.
Lemma FJ_1 j : FJ 1 j = (1 - dJ 0) * FJ 0 j - 2 * FJ 0 (S j).
Proof.
  unfold FJ. replace (_ - _) with ((1 - dJ 0) * LJ (fun x => Q 0 x * ((1 - x) / 2) ^ j) + (-2) * LJ (fun x => Q 0 x * ((1 - x) / 2) ^ S j)) by ring.
  rewrite <- (lf_scal _ LJ_lin (1 - dJ 0)) by auto with cts. rewrite <- (lf_comb2 _ LJ_lin) by auto 10 with cts. apply lf_ext. intros x. cbn [TQ pow]. field.
Qed.
Lemma FJ_SS k j : FJ (S (S k)) j = (1 - dJ (S k)) * FJ (S k) j - 2 * FJ (S k) (S j) - bJ (S k) ^ 2 * FJ k j.
Proof.
  unfold FJ. replace (_ - _ - _) with ((1 - dJ (S k)) * LJ (fun x => Q (S k) x * ((1 - x) / 2) ^ j)
    + (-2) * LJ (fun x => Q (S k) x * ((1 - x) / 2) ^ S j) + - (bJ (S k) ^ 2) * LJ (fun x => Q k x * ((1 - x) / 2) ^ j)) by ring.
  rewrite <- (lf_scal _ LJ_lin (1 - dJ (S k))) by auto with cts. rewrite <- (lf_comb3 _ LJ_lin) by auto 10 with cts.
  apply lf_ext. intros x. rewrite TQ_SS. cbn [pow]. field.
Qed.

(** closed form *)
Definition rJ (i : nat) : R := -2 * (INR i + 1) * (INR i + 1 + a) / ((2 * INR i + a + 1) * (2 * INR i + a + 2)).
Definition CJ (k : nat) : R := rprod k rJ.
Definition NJ (k j : nat) : R := rprod k (fun i => INR j - INR i).
Definition DJ (k j : nat) : R := rprod (S k) (fun i => INR j + a + 1 + INR i).
Lemma DJ_pos k j : 0 < DJ k j.
Proof.
  unfold DJ. generalize (S k). intros n. induction n as [|n IH]; cbn [rprod]; [lra|].
  apply Rmult_lt_0_compat; [exact IH|]. pose proof a_pos. pose proof (pos_INR j). pose proof (pos_INR n). lra.
Qed.
Lemma NJ_S k j : NJ (S k) j = NJ k j * (INR j - INR k). Proof. reflexivity. Qed.
Lemma DJ_S k j : DJ (S k) j = DJ k j * (INR j + a + 1 + INR (S k)). Proof. reflexivity. Qed.
Lemma rprod_shift n f : rprod (S n) f = f O * rprod n (fun k => f (S k)).
Proof. induction n as [|n IH]; [simpl; ring|]. rewrite rprod_S, IH. cbn [rprod]. ring. Qed.
Lemma NJ_j k j : NJ (S k) (S j) = (INR j + 1) * NJ k j.
Proof.
  unfold NJ. rewrite rprod_shift. rewrite (S_INR j). simpl (INR 0). f_equal; [ring|].
  apply rprod_ext. intros i _. rewrite S_INR. ring.
Qed.
Lemma DJ_j k j : (INR j + a + 1) * DJ k (S j) = DJ (S k) j.
Proof.
  unfold DJ. rewrite (rprod_shift (S k)). simpl (INR 0). f_equal; [ring|]. apply rprod_ext. intros i _. rewrite !S_INR. ring.
Qed.
Lemma CJ_S k : CJ (S k) = CJ k * rJ k. Proof. reflexivity. Qed.

Lemma key1 J K A : 0 <= J -> 0 <= K -> 0 <= A ->
  (1 + A * A / ((2 * K + A + 4) * (2 * K + A + 2))) * (J - K) / (J + A + K + 2)
  - 2 * (J + 1) * (J + A + 1) / ((J + A + K + 2) * (J + A + K + 3))
  + 2 * (K + 1) * (K + 1 + A) / ((2 * K + A + 2) * (2 * K + A + 3))
  = -2 * (K + 2) * (K + 2 + A) / ((2 * K + A + 3) * (2 * K + A + 4)) * (J - K) * (J - K - 1) / ((J + A + K + 2) * (J + A + K + 3)).
Proof. intros. field. repeat split; lra. Qed.
Lemma dJ_S k : 1 - dJ (S k) = 1 + a * a / ((2 * INR k + a + 4) * (2 * INR k + a + 2)).
Proof. unfold dJ. rewrite S_INR. pose proof a_pos. pose proof (pos_INR k). field. lra. Qed.
Lemma bJ_rJ k : bJ (S k) ^ 2 = - rJ k * (2 * (INR k + 1) * (INR k + 1 + a) / ((2 * INR k + a + 2) * (2 * INR k + a + 3))).
Proof. rewrite bJ_sq. unfold rJ. rewrite S_INR. pose proof a_pos. pose proof (pos_INR k). field. lra. Qed.
Lemma rJ_S k : rJ (S k) = -2 * (INR k + 2) * (INR k + 2 + a) / ((2 * INR k + a + 3) * (2 * INR k + a + 4)).
Proof. unfold rJ. rewrite S_INR. pose proof a_pos. pose proof (pos_INR k). field. lra. Qed.

Lemma FJ_closed : forall k j, FJ k j = CJ k * NJ k j / DJ k j.
Proof.
  apply (nat_ind2 (fun k => forall j, FJ k j = CJ k * NJ k j / DJ k j)).
  - intros j. rewrite FJ_0. unfold CJ, NJ, DJ. cbn [rprod]. simpl (INR 0). field. pose proof a_pos. pose proof (pos_INR j). lra.
  - intros j. rewrite FJ_1, !FJ_0. unfold CJ, NJ, DJ, rJ, dJ. cbn [rprod]. rewrite S_INR. simpl (INR 0). simpl (INR 1).
    pose proof a_pos. pose proof (pos_INR j). field. lra.
  - intros k I0 I1 j. rewrite FJ_SS, !I1, I0. rewrite NJ_j, (NJ_S (S k)), (NJ_S k), !CJ_S, bJ_rJ, dJ_S, rJ_S.
    replace (DJ (S k) (S j)) with (DJ (S (S k)) j / (INR j + a + 1)) by (rewrite <- DJ_j; field; pose proof a_pos; pose proof (pos_INR j); lra).
    rewrite !DJ_S. rewrite !S_INR. pose proof (DJ_pos k j) as D. pose proof a_pos. pose proof (pos_INR j). pose proof (pos_INR k).
    pose proof (key1 (INR j) (INR k) a ltac:(assumption) ltac:(assumption) ltac:(assumption)) as K1.
    generalize dependent (DJ k j). generalize (CJ k) (NJ k j) (rJ k). intros C N r D HD.
    generalize dependent (INR k). generalize dependent (INR j). generalize dependent a. intros A HA J HJ K HK K1.
    set (u := 1 + A * A / ((2 * K + A + 4) * (2 * K + A + 2))) in *.
    set (p := 2 * (K + 1) * (K + 1 + A) / ((2 * K + A + 2) * (2 * K + A + 3))) in *.
    set (q := -2 * (K + 2) * (K + 2 + A) / ((2 * K + A + 3) * (2 * K + A + 4))) in *.
    transitivity (C * N / D * r * (u * (J - K) / (J + A + K + 2) - 2 * (J + 1) * (J + A + 1) / ((J + A + K + 2) * (J + A + K + 3)) + p)).
    + clearbody u p q. field. repeat split; lra.
    + rewrite K1. clearbody u p q. field. repeat split; lra.
Qed.

Lemma FJ_orth k j : (j < k)%nat -> FJ k j = 0.
Proof.
  intros H. rewrite FJ_closed. replace (NJ k j) with 0; [unfold Rdiv; ring|].
  unfold NJ. rewrite (rprod_pick k _ j H). ring.
Qed.

Lemma LJ_orth j k : (j < k)%nat -> LJ (fun x => Q k x * Q j x) = 0.
Proof.
  assert (G : forall j m, (j + m < k)%nat -> LJ (fun x => Q k x * ((1 - x) / 2) ^ m * Q j x) = 0).
  { apply (nat_ind2 (fun j => forall m, (j + m < k)%nat -> LJ (fun x => Q k x * ((1 - x) / 2) ^ m * Q j x) = 0)).
    - intros m H. rewrite (lf_ext LJ _ (fun x => Q k x * ((1 - x) / 2) ^ m)) by (intros; cbn [TQ]; ring). change (FJ k m = 0). apply FJ_orth. lia.
    - intros m H. rewrite (lf_ext LJ _ (fun x => (1 - dJ 0) * (Q k x * ((1 - x) / 2) ^ m) + (-2) * (Q k x * ((1 - x) / 2) ^ S m)))
        by (intros; cbn [TQ pow]; field).
      rewrite (lf_comb2 _ LJ_lin) by auto 10 with cts. rewrite (lf_scal _ LJ_lin) by auto 10 with cts.
      change (LJ (fun x => Q k x * ((1 - x) / 2) ^ m)) with (FJ k m). change (LJ (fun x => Q k x * ((1 - x) / 2) ^ S m)) with (FJ k (S m)).
      rewrite !FJ_orth by lia. ring.
    - intros i I0 I1 m H.
      rewrite (lf_ext LJ _ (fun x => (1 - dJ (S i)) * (Q k x * ((1 - x) / 2) ^ m * Q (S i) x)
         + (-2) * (Q k x * ((1 - x) / 2) ^ S m * Q (S i) x) + - (bJ (S i) ^ 2) * (Q k x * ((1 - x) / 2) ^ m * Q i x)))
        by (intros; rewrite TQ_SS; cbn [pow]; field).
      rewrite (lf_comb3 _ LJ_lin) by auto 15 with cts. rewrite (lf_scal _ LJ_lin) by auto 15 with cts.
      rewrite I0, !I1 by lia. ring. }
  intros H. rewrite <- (G j 0%nat) by lia. apply lf_ext. intros x. cbn [pow]. ring.
Qed.

(** the end points are not roots *)
Definition uJ (i : nat) : R := 2 * (INR i + 1 + a) * (INR i + 1 + a) / ((2 * INR i + a + 1) * (2 * INR i + a + 2)).
Lemma Q_at_1 : forall k, Q k 1 = rprod k uJ.
Proof.
  apply (nat_ind2 (fun k => Q k 1 = rprod k uJ)).
  - reflexivity.
  - unfold uJ. cbn [TQ rprod dJ]. simpl (INR 0). pose proof a_pos. field. lra.
  - intros k I0 I1. rewrite TQ_SS, I1, I0, bJ_sq. cbn [rprod]. generalize (rprod k uJ). intros P. unfold uJ, dJ. rewrite !S_INR.
    pose proof a_pos. pose proof (pos_INR k). generalize dependent (INR k). generalize dependent a. intros A HA K HK. field. repeat split; lra.
Qed.
End Jacobi.

Section Rest.
Variable al : nat.
Notation a := (INR al).
Notation Q := (TQ (dJ al) (bJ al)).
Lemma Q_at_m1 : forall k, Q k (-1) = CJ al k.
Proof.
  apply (nat_ind2 (fun k => Q k (-1) = CJ al k)).
  - reflexivity.
  - unfold CJ, rJ. cbn [TQ rprod dJ]. simpl (INR 0). pose proof (a_pos al). field. lra.
  - intros k I0 I1. rewrite TQ_SS, I1, I0, bJ_rJ. unfold CJ. cbn [rprod]. generalize (rprod k (rJ al)). intros P. rewrite rJ_S.
    generalize (rJ al k). intros r. unfold dJ. rewrite !S_INR.
    pose proof (a_pos al). pose proof (pos_INR k). generalize dependent (INR k). generalize dependent a. intros A HA K HK. field. repeat split; lra.
Qed.
Lemma rprod_nz n f : (forall k, (k < n)%nat -> f k <> 0) -> rprod n f <> 0.
Proof.
  induction n as [|n IH]; intros H; cbn [rprod]; [lra|]. apply Rmult_integral_contrapositive_currified; [apply IH; intros; apply H; lia|apply H; lia].
Qed.
Lemma Q_1_nz k : Q k 1 <> 0.
Proof.
  rewrite Q_at_1. apply rprod_nz. intros i _. unfold uJ. pose proof (a_pos al). pose proof (pos_INR i).
  apply Rgt_not_eq. apply Rdiv_lt_0_compat; repeat apply Rmult_lt_0_compat; lra.
Qed.
Lemma Q_m1_nz k : Q k (-1) <> 0.
Proof.
  rewrite Q_at_m1. apply rprod_nz. intros i _. unfold rJ. pose proof (a_pos al). pose proof (pos_INR i).
  apply Rlt_not_eq. rewrite Rmult_assoc. unfold Rdiv. rewrite Rmult_assoc.
  assert (0 < (INR i + 1) * (INR i + 1 + a) * / ((2 * INR i + a + 1) * (2 * INR i + a + 2))); [|lra].
  apply Rdiv_lt_0_compat; repeat apply Rmult_lt_0_compat; lra.
Qed.

(** the matrix of the code *)
Definition tri (d b : nat -> R) (i j : nat) : R :=
  if Nat.eqb i j then d i else if Nat.eqb (S i) j then b j else if Nat.eqb i (S j) then b i else 0.
Definition gw_step (i : nat) (J : Mat) : Mat :=
    let J := mupd J i i (- INR (al * al) / INR ((2 * i + al + 2) * (2 * i + al))) in
    let J := mupd J i (i - 1) (sqrt (gw_a al i * gw_c al i)) in
    mupd J (i - 1) i (J i (i - 1)%nat).
Lemma mupd_at J i k x i' k' : mupd J i k x i' k' = if (Nat.eqb i' i && Nat.eqb k' k)%bool then x else J i' k'.
Proof. unfold mupd, upd. destruct (Nat.eqb_spec i' i); cbn [andb]; [|reflexivity]. now destruct (Nat.eqb k' k). Qed.
Lemma gw_loop m : forall i j,
  forN m (fun k => gw_step (1 + k)) (mupd (fun _ _ => 0) 0 0 (- INR al / INR (2 + al))) i j
  = if (Nat.leb i m && Nat.leb j m)%bool then tri (dJ al) (bJ al) i j else 0.
Proof.
  induction m as [|m IH]; intros i j.
  - cbn [forN]. rewrite mupd_at. destruct i as [|i], j as [|j]; cbn [Nat.eqb Nat.leb andb]; try reflexivity.
    unfold tri. cbn [Nat.eqb dJ]. rewrite plus_INR. reflexivity.
  - cbn [forN]. unfold gw_step at 1. cbv zeta. replace (1 + m - 1)%nat with m by lia. change (1 + m)%nat with (S m).
    rewrite !mupd_at, !IH. rewrite !Nat.eqb_refl. cbn [andb].
    unfold tri. 
    destruct (Nat.eqb_spec i m) as [Eim|Eim]; destruct (Nat.eqb_spec j (S m)) as [Ejm|Ejm]; cbn [andb].
    + subst. rewrite (proj2 (Nat.leb_le m (S m))), (proj2 (Nat.leb_le (S m) (S m))) by lia. cbn [andb].
      destruct (Nat.eqb_spec m (S m)); [lia|]. rewrite Nat.eqb_refl. reflexivity.
    + destruct (Nat.eqb_spec i (S m)); [lia|]. cbn [andb].
      destruct (Nat.leb_spec i m), (Nat.leb_spec j m), (Nat.leb_spec i (S m)), (Nat.leb_spec j (S m)); try lia; reflexivity.
    + destruct (Nat.eqb_spec i (S m)) as [E1|E1]; cbn [andb].
      * destruct (Nat.eqb_spec j m); [lia|]. subst. rewrite !Nat.eqb_refl. rewrite !Nat.leb_refl. cbn [andb].
        unfold dJ. rewrite !mult_INR, !plus_INR, mult_INR. simpl (INR 2). reflexivity.
      * destruct (Nat.leb_spec i m), (Nat.leb_spec j m), (Nat.leb_spec i (S m)), (Nat.leb_spec j (S m)); try lia; cbn [andb]; try reflexivity.
        destruct (Nat.eqb_spec i j); [lia|]. destruct (Nat.eqb_spec (S i) j); [lia|]. destruct (Nat.eqb_spec i (S j)); [lia|]. reflexivity.
    + destruct (Nat.eqb_spec i (S m)) as [E1|E1]; cbn [andb].
      * subst i. destruct (Nat.eqb_spec j m) as [->|E2].
        -- rewrite (proj2 (Nat.leb_le m (S m))), (proj2 (Nat.leb_le (S m) (S m))) by lia. cbn [andb].
           destruct (Nat.eqb_spec (S m) m); [lia|]. destruct (Nat.eqb_spec (S (S m)) m); [lia|]. rewrite Nat.eqb_refl. reflexivity.
        -- cbn [andb].
           destruct (Nat.leb_spec (S m) m), (Nat.leb_spec j m), (Nat.leb_spec (S m) (S m)), (Nat.leb_spec j (S m)); try lia; cbn [andb]; try reflexivity.
           destruct (Nat.eqb_spec (S m) j); [lia|]. destruct (Nat.eqb_spec (S (S m)) j); [lia|]. destruct (Nat.eqb_spec m j); [lia|].
           destruct (Nat.eqb_spec (S m) (S j)); [lia|]. reflexivity.
      * destruct (Nat.leb_spec i m), (Nat.leb_spec j m), (Nat.leb_spec i (S m)), (Nat.leb_spec j (S m)); try lia; reflexivity.
Qed.
Lemma gw_tridiag n : (1 <= n)%nat -> tridiag n (dJ al) (bJ al) (gw_matrix n al).
Proof.
  intros Hn i j Hi Hj. unfold gw_matrix, forR. fold gw_step. cbv zeta.
  change (forN (n - 1) (fun k => gw_step (1 + k)) (mupd (fun _ _ => 0) 0 0 (- INR al / INR (2 + al))) i j = tri (dJ al) (bJ al) i j).
  rewrite gw_loop. rewrite (proj2 (Nat.leb_le i (n - 1))), (proj2 (Nat.leb_le j (n - 1))) by lia. reflexivity.
Qed.
End Rest.
