(** Proofs about M_Type and M_TypeIndex. *)
From Coq Require Import NArith PeanoNat Bool List Lia.
From Verif Require Import M_Type M_TypeIndex.
Import ListNotations.
Local Open Scope N_scope.

(** ** Bit lemmas *)

Lemma bit_pow n : bit n = 2 ^ N.of_nat n.
Proof. unfold bit. rewrite N.shiftl_1_l. reflexivity. Qed.

Lemma bit_testbit n k : N.testbit (bit n) k = (k =? N.of_nat n).
Proof. rewrite bit_pow, N.pow2_bits_eqb. apply N.eqb_sym. Qed.

Lemma bit_pos n : 0 < bit n.
Proof. rewrite bit_pow. apply N.neq_0_lt_0, N.pow_nonzero. lia. Qed.

Lemma bit_S n : bit (S n) = 2 * bit n.
Proof. rewrite !bit_pow, Nat2N.inj_succ, N.pow_succ_r'. reflexivity. Qed.

Lemma bit_0 : bit 0 = 1. Proof. reflexivity. Qed.

Lemma bit_inj a b : bit a = bit b -> a = b.
Proof. rewrite !bit_pow. intros H. apply N.pow_inj_r in H; lia. Qed.

Lemma bit_le a b : (a <= b)%nat -> bit a <= bit b.
Proof. intros H. rewrite !bit_pow. apply N.pow_le_mono_r; lia. Qed.

Lemma land_bit_eq0 a n : (N.land a (bit n) =? 0) = negb (N.testbit a (N.of_nat n)).
Proof.
  destruct (N.testbit a (N.of_nat n)) eqn:E; simpl.
  - apply N.eqb_neq. intros H.
    assert (X : N.testbit (N.land a (bit n)) (N.of_nat n) = false) by (rewrite H; apply N.bits_0).
    rewrite N.land_spec, E, bit_testbit, N.eqb_refl in X. discriminate.
  - apply N.eqb_eq. apply N.bits_inj. intros k.
    rewrite N.land_spec, bit_testbit, N.bits_0.
    destruct (N.eqb_spec k (N.of_nat n)); subst; [rewrite E|]; auto using andb_false_r.
Qed.

Lemma testbit_1 k : N.testbit 1 k = (k =? 0).
Proof. change 1 with (bit 0). rewrite bit_testbit. reflexivity. Qed.

Lemma bits_lt_pow a n : a < 2 ^ n -> forall k, n <= k -> N.testbit a k = false.
Proof.
  intros H k Hk. destruct (N.eq_dec a 0) as [->|Ha]; [apply N.bits_0|].
  apply N.bits_above_log2. apply N.log2_lt_pow2 in H; lia.
Qed.

Lemma pow_bits_lt a n : (forall k, n <= k -> N.testbit a k = false) -> a < 2 ^ n.
Proof.
  intros H. destruct (N.eq_dec a 0) as [->|Ha]; [apply N.neq_0_lt_0, N.pow_nonzero; lia|].
  apply N.log2_lt_pow2; [lia|].
  destruct (N.lt_ge_cases (N.log2 a) n) as [?|L]; [assumption|].
  specialize (H _ L). rewrite N.bit_log2 in H; [discriminate|assumption].
Qed.

Lemma lt_bit_bits a n : a < bit n <-> forall k, N.of_nat n <= k -> N.testbit a k = false.
Proof. rewrite bit_pow. split; [apply bits_lt_pow|apply pow_bits_lt]. Qed.

Lemma land_bit_pred a n : N.land a (bit n - 1) = a mod bit n.
Proof.
  rewrite bit_pow, N.sub_1_r, <- N.ones_equiv, N.land_ones. reflexivity.
Qed.

Lemma testbit_land_pred a n k :
  N.testbit (N.land a (bit n - 1)) k = N.testbit a k && (k <? N.of_nat n).
Proof.
  rewrite land_bit_pred, bit_pow.
  destruct (N.ltb_spec k (N.of_nat n)).
  - rewrite N.mod_pow2_bits_low by assumption. now rewrite andb_true_r.
  - rewrite N.mod_pow2_bits_high by assumption. now rewrite andb_false_r.
Qed.

Lemma land_pred_lt a n : N.land a (bit n - 1) < bit n.
Proof. rewrite land_bit_pred. apply N.mod_lt. pose proof (bit_pos n). lia. Qed.

Lemma land_pred_id a n : a < bit n -> N.land a (bit n - 1) = a.
Proof. intros H. rewrite land_bit_pred. now apply N.mod_small. Qed.

(** ** Id round trip *)

Lemma toId_bits t k :
  (gt_dim t < 256)%nat -> gt_id t < 2 ^ 32 ->
  N.testbit (toId t) k =
    if k <? 8 then N.testbit (N.of_nat (gt_dim t)) k
    else if k =? 8 then gt_none t
    else if 32 <=? k then N.testbit (gt_id t) (k - 32) else false.
Proof.
  intros Hd Hi. unfold toId. rewrite !N.lor_spec, N.land_spec.
  assert (Hd' : N.of_nat (gt_dim t) < 2 ^ 8) by (change (2 ^ 8) with 256; lia).
  assert (B : N.testbit (N.shiftl (N.b2n (gt_none t)) 8) k = (k =? 8) && gt_none t).
  { destruct (N.ltb_spec k 8).
    - rewrite N.shiftl_spec_low by assumption.
      destruct (N.eqb_spec k 8); [lia|reflexivity].
    - rewrite N.shiftl_spec_high' by assumption.
      destruct (N.eqb_spec k 8) as [->|Hk].
      + destruct (gt_none t); reflexivity.
      + destruct (gt_none t); cbn [N.b2n andb].
        * rewrite testbit_1. apply N.eqb_neq. lia.
        * apply N.bits_0. }
  rewrite B.
  assert (C : N.testbit (N.shiftl (gt_id t) 32) k && N.testbit (N.ones 64) k
              = (32 <=? k) && N.testbit (gt_id t) (k - 32)).
  { destruct (N.leb_spec 32 k); cbn [andb].
    - rewrite N.shiftl_spec_high' by assumption.
      destruct (N.ltb_spec k 64).
      + rewrite N.ones_spec_low by assumption. apply andb_true_r.
      + rewrite N.ones_spec_high by assumption. rewrite andb_false_r. symmetry.
        apply (bits_lt_pow _ 32); [assumption|lia].
    - rewrite N.shiftl_spec_low by assumption. reflexivity. }
  rewrite C.
  destruct (N.ltb_spec k 8).
  - destruct (N.eqb_spec k 8); [lia|]. destruct (N.leb_spec 32 k); [lia|].
    simpl. now rewrite !orb_false_r.
  - rewrite (bits_lt_pow _ 8 Hd') by assumption.
    destruct (N.eqb_spec k 8) as [->|Hk]; simpl.
    + apply orb_false_r.
    + destruct (32 <=? k); reflexivity.
Qed.

Lemma Id_roundtrip t :
  (gt_dim t < 256)%nat -> gt_id t < 2 ^ 32 -> ofId (toId t) = t.
Proof.
  intros Hd Hi. destruct t as [d nn i]. unfold ofId. cbn [gt_dim gt_none gt_id] in *.
  pose proof (fun k => toId_bits (mkGT d nn i) k Hd Hi) as B. cbn [gt_dim gt_none gt_id] in B.
  f_equal.
  - apply Nat2N.inj. rewrite N2Nat.id. apply N.bits_inj. intros k.
    change 255 with (N.ones 8). rewrite N.land_spec, B.
    destruct (N.ltb_spec k 8).
    + rewrite N.ones_spec_low by assumption. apply andb_true_r.
    + rewrite N.ones_spec_high by assumption. rewrite andb_false_r. symmetry.
      apply (bits_lt_pow _ 8); [change (2 ^ 8) with 256; lia|assumption].
  - change 256 with (bit 8). rewrite land_bit_eq0, negb_involutive.
    change (N.of_nat 8) with 8. rewrite B. reflexivity.
  - apply N.bits_inj. intros k. rewrite N.land_spec, N.shiftr_spec', B.
    destruct (N.ltb_spec (k + 32) 8); [lia|].
    destruct (N.eqb_spec (k + 32) 8); [lia|].
    destruct (N.leb_spec 32 (k + 32)); [|lia].
    replace (k + 32 - 32) with k by lia.
    destruct (N.ltb_spec k 32).
    + rewrite N.ones_spec_low by assumption. apply andb_true_r.
    + rewrite N.ones_spec_high by assumption. rewrite andb_false_r. symmetry.
      apply (bits_lt_pow _ 32); assumption.
Qed.

Lemma toId_lt64 t : (gt_dim t < 256)%nat -> gt_id t < 2 ^ 32 -> toId t < 2 ^ 64.
Proof.
  intros Hd Hi. apply pow_bits_lt. intros k Hk. rewrite toId_bits by assumption.
  destruct (N.ltb_spec k 8); [lia|]. destruct (N.eqb_spec k 8); [lia|].
  destruct (N.leb_spec 32 k); [|reflexivity].
  apply (bits_lt_pow _ 32); [assumption|lia].
Qed.

Lemma toId_inj s t :
  (gt_dim s < 256)%nat -> gt_id s < 2 ^ 32 ->
  (gt_dim t < 256)%nat -> gt_id t < 2 ^ 32 ->
  toId s = toId t -> s = t.
Proof.
  intros. rewrite <- (Id_roundtrip s), <- (Id_roundtrip t) by assumption. now f_equal.
Qed.

(** ** Comparison *)

Definition key (t : GeometryType) : N := N.shiftr (gt_id t) 1.

Lemma gt_eqb_spec a b :
  gt_eqb a b = true <->
  gt_none a = gt_none b /\ (gt_none a = true \/ (gt_dim a = gt_dim b /\ key a = key b)).
Proof.
  unfold gt_eqb, key. rewrite andb_true_iff, orb_true_iff, andb_true_iff.
  rewrite eqb_true_iff, Nat.eqb_eq, N.eqb_eq. tauto.
Qed.

Lemma gt_ltb_spec a b :
  gt_ltb a b = true <->
  (gt_none a = false /\ gt_none b = true)
  \/ (gt_none a = gt_none b
      /\ ((gt_dim a < gt_dim b)%nat \/ (gt_dim a = gt_dim b /\ key a < key b))).
Proof.
  unfold gt_ltb, bool_ltb, key.
  destruct (gt_none a), (gt_none b); simpl;
    rewrite ?orb_true_iff, ?andb_true_iff, ?Nat.ltb_lt, ?Nat.eqb_eq, ?N.ltb_lt;
    intuition (try discriminate; auto).
Qed.

Lemma gt_eqb_refl a : gt_eqb a a = true.
Proof. apply gt_eqb_spec. auto. Qed.
Lemma gt_eqb_sym a b : gt_eqb a b = true -> gt_eqb b a = true.
Proof. rewrite !gt_eqb_spec. intros [-> H]. intuition. Qed.
Lemma gt_eqb_trans a b c : gt_eqb a b = true -> gt_eqb b c = true -> gt_eqb a c = true.
Proof.
  rewrite !gt_eqb_spec. intros [N1 H1] [N2 H2]. split; [congruence|].
  destruct H1 as [?|[D1 K1]]; [auto|]. destruct H2 as [?|[D2 K2]]; [left; congruence|].
  right. split; congruence.
Qed.

Lemma gt_ltb_irrefl a : gt_ltb a a = false.
Proof.
  apply not_true_iff_false. rewrite gt_ltb_spec. destruct (gt_none a);
  intuition (try discriminate; try lia).
Qed.
Lemma gt_ltb_trans a b c : gt_ltb a b = true -> gt_ltb b c = true -> gt_ltb a c = true.
Proof.
  rewrite !gt_ltb_spec.
  destruct (gt_none a), (gt_none b), (gt_none c); intuition (try discriminate; try lia).
Qed.
Lemma gt_ltb_incomp_trans a b c :
  gt_ltb a b = false -> gt_ltb b a = false -> gt_ltb b c = false -> gt_ltb c b = false ->
  gt_ltb a c = false /\ gt_ltb c a = false.
Proof.
  rewrite <- !not_true_iff_false, !gt_ltb_spec.
  destruct (gt_none a), (gt_none b), (gt_none c); intuition (try discriminate; try lia).
Qed.

Lemma gt_trichotomy a b :
  gt_none a && gt_none b = false ->
  (gt_eqb a b = true /\ gt_ltb a b = false /\ gt_ltb b a = false)
  \/ (gt_eqb a b = false /\ gt_ltb a b = true /\ gt_ltb b a = false)
  \/ (gt_eqb a b = false /\ gt_ltb a b = false /\ gt_ltb b a = true).
Proof.
  intros Hn. rewrite <- !not_true_iff_false, !gt_eqb_spec, !gt_ltb_spec.
  destruct (gt_none a), (gt_none b); try discriminate;
    destruct (Nat.lt_trichotomy (gt_dim a) (gt_dim b)) as [?|[?|?]];
    destruct (N.lt_trichotomy (key a) (key b)) as [?|[?|?]];
    intuition (try discriminate; try lia).
Qed.

Lemma gt_none_incomparable_iff a b :
  gt_none a = true -> gt_none b = true ->
  (gt_ltb a b = false /\ gt_ltb b a = false
   <-> gt_dim a = gt_dim b /\ key a = key b).
Proof.
  intros Ha Hb. rewrite <- !not_true_iff_false, !gt_ltb_spec, Ha, Hb.
  intuition (try discriminate; try lia).
Qed.
