(** Certified fixed point evaluation of the moments of the one dimensional tables. *)
From Coq Require Import ZArith QArith Reals List Qreals Lia Lra Bool FunctionalExtensionality.
From Coquelicot Require Import Coquelicot.
From Verif Require Import M_Tab S_Quad1D.
Import ListNotations.

(** ** The checker *)
Section Checker.
Local Open Scope Z_scope.

Definition bits : Z := 84.
Definition sc : Z := 2 ^ 84.

(** an approximation of n/d * sc: the division is done with about 100 leading bits *)
Definition fxq (n : Z) (d : positive) : Z :=
  let t := Z.max 0 (Z.log2 (Zpos d) - 100) in
  (Z.shiftr n t * sc) / Z.shiftr (Zpos d) t.
(** ... and the check that it is one *)
Definition fx_ok (v n : Z) (d : positive) : bool := Z.abs (v * Zpos d - Z.shiftl n bits) <=? 2 * Zpos d.
Definition fxW (w : Q) : Z := fxq (Qnum w) (Qden w).
(** 2 x - 1 *)
Definition fxU (x : Q) : Z := Z.max (- sc) (Z.min sc (fxq (2 * Qnum x - Zpos (Qden x)) (Qden x))).

Definition pt_ok (xw : Q * Q) : bool :=
  let (x, w) := xw in
  (0 <=? Qnum x) && (Qnum x <=? Zpos (Qden x)) && (0 <? Qnum w) && (Qnum w <=? 2 * Zpos (Qden w)).
Definition vu_ok (xw : Q * Q) (vu : Z * Z) : bool :=
  let (x, w) := xw in let (v, u) := vu in
  fx_ok v (Qnum w) (Qden w) && fx_ok u (2 * Qnum x - Zpos (Qden x)) (Qden x) && (Z.abs u <=? sc).

Definition stepV (vu : Z * Z) : Z * Z := let (v, u) := vu in (Z.shiftr (v * u) bits, u).
Definition sumV (s : list (Z * Z)) : Z := fold_right (fun vu a => fst vu + a) 0 s.

(** integral of (2x-1)^k: numerator; the denominator is k+1 *)
Definition m0n (k : Z) : Z := if Z.even k then 1 else 0.
(** integral of omega alpha x * (2x-1)^k as a fraction *)
Definition momN (alpha : nat) (k : Z) : Z :=
  match alpha with
  | O => m0n k
  | S O => m0n k * (k + 2) - m0n (k + 1) * (k + 1)
  | _ => m0n k * (k + 2) * (k + 3) - 2 * m0n (k + 1) * (k + 1) * (k + 3) + m0n (k + 2) * (k + 1) * (k + 2)
  end.
Definition momD (alpha : nat) (k : Z) : Z :=
  match alpha with
  | O => k + 1
  | S O => (k + 1) * (k + 2)
  | _ => (k + 1) * (k + 2) * (k + 3)
  end.

Fixpoint mom_ok (alpha : nat) (n : nat) (k : Z) (s : list (Z * Z)) : bool :=
  match n with
  | O => true
  | S n' =>
      (Z.abs (sumV s * momD alpha k - momN alpha k * sc) <=? momD alpha k * 100000)
      && mom_ok alpha n' (k + 1) (map stepV s)
  end.

Definition start (data : list (Q * Q)) : list (Z * Z) :=
  map (fun xw => (fxW (snd xw), fxU (fst xw))) data.
Fixpoint all2 (data : list (Q * Q)) (s : list (Z * Z)) : bool :=
  match data, s with
  | [], [] => true
  | xw :: data', vu :: s' => vu_ok xw vu && all2 data' s'
  | _, _ => false
  end.

Definition run_ok (alpha : nat) (d : Z) (data : list (Q * Q)) (s : list (Z * Z)) : bool :=
  all2 data s && mom_ok alpha (S (Z.to_nat d)) 0 s.
Definition data_ok (alpha : nat) (d : Z) (data : list (Q * Q)) : bool :=
  forallb pt_ok data
  && (Z.of_nat (length data) * (5 * d + 2) <=? 40000)
  && run_ok alpha d data (start data).

End Checker.

(** ** Soundness *)
Local Open Scope R_scope.

Ltac toR_ := match goal with |- @eq _ ?a ?b => change (@eq R a b) end.

Notation uu x := (2 * x - 1).

Definition scR : R := IZR sc.
Lemma scR_pos : 0 < scR.
Proof. apply IZR_lt. reflexivity. Qed.

Lemma floor_R (a b : Z) : (0 < b)%Z -> IZR (a / b) <= IZR a / IZR b < IZR (a / b) + 1.
Proof.
  intros Hb. pose proof (Z.div_mod a b ltac:(lia)) as E. pose proof (Z.mod_pos_bound a b Hb) as M.
  assert (B : 0 < IZR b) by (now apply IZR_lt).
  assert (EE : IZR a = IZR b * IZR (a / b) + IZR (a mod b)) by (rewrite <- mult_IZR, <- plus_IZR; f_equal; exact E).
  assert (M1 : 0 <= IZR (a mod b)) by (apply IZR_le; lia).
  assert (M2 : IZR (a mod b) < IZR b) by (apply IZR_lt; lia).
  split.
  - apply Rmult_le_reg_r with (IZR b); [assumption|]. unfold Rdiv. rewrite Rmult_assoc, Rinv_l by lra. lra.
  - apply Rmult_lt_reg_r with (IZR b); [assumption|]. unfold Rdiv. rewrite Rmult_assoc, Rinv_l by lra. lra.
Qed.

Lemma fx_ok_R v n d : fx_ok v n d = true -> Rabs (IZR v - scR * (IZR n / IZR (Zpos d))) <= 2.
Proof.
  unfold fx_ok. rewrite Z.leb_le, Z.shiftl_mul_pow2 by (unfold bits; lia). change (2 ^ bits)%Z with sc. intros H.
  apply IZR_le in H. rewrite abs_IZR, minus_IZR, !mult_IZR in H. fold scR in H.
  assert (D : 0 < IZR (Zpos d)) by (now apply IZR_lt).
  replace (IZR v - scR * (IZR n / IZR (Z.pos d))) with ((IZR v * IZR (Zpos d) - IZR n * scR) / IZR (Zpos d)) by (field; lra).
  unfold Rdiv. rewrite Rabs_mult, (Rabs_right (/ _)) by (apply Rle_ge, Rlt_le, Rinv_0_lt_compat, D).
  apply Rmult_le_reg_r with (IZR (Zpos d)); [assumption|]. rewrite Rmult_assoc, Rinv_l by lra. lra.
Qed.

Lemma shift_R v : IZR (Z.shiftr v bits) <= IZR v / scR < IZR (Z.shiftr v bits) + 1.
Proof.
  rewrite Z.shiftr_div_pow2 by (unfold bits; lia). apply floor_R. reflexivity.
Qed.

(** fixed point pair against exact point and weight *)
Definition rel (k : nat) (xw : Q * Q) (vu : Z * Z) : Prop :=
  let x := Q2R (fst xw) in let w := Q2R (snd xw) in
  Rabs (IZR (fst vu) - scR * (w * uu x ^ k)) <= 2 + 5 * INR k
  /\ Rabs (IZR (snd vu) - scR * uu x) <= 2
  /\ Rabs (IZR (snd vu)) <= scR
  /\ -1 <= uu x <= 1 /\ 0 < w <= 2.

Lemma pt_ok_R x w : pt_ok (x, w) = true -> 0 <= Q2R x <= 1 /\ 0 < Q2R w <= 2.
Proof.
  unfold pt_ok. rewrite !andb_true_iff, !Z.leb_le, Z.ltb_lt. intros [[[H1 H2] H3] H4].
  unfold Q2R. assert (D1 : 0 < IZR (Zpos (Qden x))) by (now apply IZR_lt).
  assert (D2 : 0 < IZR (Zpos (Qden w))) by (now apply IZR_lt).
  apply IZR_le in H1, H2, H4. apply IZR_lt in H3. rewrite mult_IZR in H4.
  split; split.
  - apply Rmult_le_pos; [assumption|]. apply Rlt_le, Rinv_0_lt_compat, D1.
  - apply Rmult_le_reg_r with (IZR (Zpos (Qden x))); [assumption|]. rewrite Rmult_assoc, Rinv_l by lra. lra.
  - apply Rmult_lt_0_compat; [assumption|]. apply Rinv_0_lt_compat, D2.
  - apply Rmult_le_reg_r with (IZR (Zpos (Qden w))); [assumption|]. rewrite Rmult_assoc, Rinv_l by lra. lra.
Qed.

Lemma start_rel x w v u : pt_ok (x, w) = true -> vu_ok (x, w) (v, u) = true -> rel 0 (x, w) (v, u).
Proof.
  intros H H'. pose proof (pt_ok_R _ _ H) as [Hx Hw]. unfold vu_ok in H'. rewrite !andb_true_iff, Z.leb_le in H'.
  destruct H' as [[H1 H2] H3]. apply fx_ok_R in H1, H2. apply IZR_le in H3. rewrite abs_IZR in H3.
  unfold rel. cbn [fst snd].
  assert (D1 : 0 < IZR (Zpos (Qden x))) by (now apply IZR_lt).
  assert (U : IZR (2 * Qnum x - Zpos (Qden x)) / IZR (Zpos (Qden x)) = uu (Q2R x)).
  { rewrite minus_IZR, mult_IZR. unfold Q2R. field. lra. }
  rewrite U in H2. change (IZR (Qnum w) / IZR (Zpos (Qden w))) with (Q2R w) in H1.
  refine (conj _ (conj H2 (conj H3 (conj _ Hw)))).
  - simpl pow. rewrite Rmult_1_r. simpl INR. lra.
  - lra.
Qed.

Lemma step_rel k xw vu : rel k xw vu -> rel (S k) xw (stepV vu).
Proof.
  destruct xw as [x w], vu as [v u]. unfold rel, stepV. cbn [fst snd].
  intros (Hv & Hu & Hs & Hx & Hw). split; [|repeat (split; [assumption|]); assumption].
  pose proof (shift_R (v * u)) as F. rewrite mult_IZR in F.
  set (X := Q2R x) in *. set (W := Q2R w) in *. set (P := uu X ^ k) in *.
  pose proof scR_pos as SP. set (s := scR) in *. set (V := IZR v) in *. set (U := IZR u) in *.
  assert (HP : Rabs P <= 1).
  { unfold P. rewrite <- RPow_abs. apply Rle_trans with (1 ^ k); [|rewrite pow1; lra].
    apply pow_incr. split; [apply Rabs_pos|]. apply Rabs_le. lra. }
  replace (uu X ^ S k) with (P * uu X) by (unfold P; simpl; ring).
  assert (E : V * U / s - s * (W * (P * uu X)) = (V - s * (W * P)) * (U / s) + W * P * (U - s * uu X)) by (field; lra).
  assert (HU : Rabs (U / s) <= 1).
  { unfold Rdiv. rewrite Rabs_mult, (Rabs_right (/ s)) by (apply Rle_ge, Rlt_le, Rinv_0_lt_compat, SP).
    apply Rmult_le_reg_r with s; [assumption|]. rewrite Rmult_assoc, Rinv_l by lra. lra. }
  assert (B1 : Rabs ((V - s * (W * P)) * (U / s)) <= (2 + 5 * INR k) * 1).
  { rewrite Rabs_mult. apply Rmult_le_compat; auto using Rabs_pos. }
  assert (B2 : Rabs (W * P * (U - s * uu X)) <= 2 * 2).
  { rewrite Rabs_mult. apply Rmult_le_compat; auto using Rabs_pos.
    rewrite Rabs_mult, (Rabs_right W) by lra. apply Rle_trans with (2 * 1); [|lra].
    apply Rmult_le_compat; try lra. apply Rabs_pos. }
  assert (B : Rabs (V * U / s - s * (W * (P * uu X))) <= (2 + 5 * INR k) + 4).
  { rewrite E. eapply Rle_trans; [apply Rabs_triang|]. lra. }
  apply Rabs_le_between in B. rewrite S_INR. apply Rabs_le. lra.
Qed.

Lemma Forall2_step k data s : Forall2 (rel k) data s -> Forall2 (rel (S k)) data (map stepV s).
Proof. induction 1; cbn [map]; constructor; auto using step_rel. Qed.

Lemma Forall2_start data : forall s, forallb pt_ok data = true -> all2 data s = true -> Forall2 (rel 0) data s.
Proof.
  induction data as [|[x w] data IH]; intros [|[v u] s] H H'; cbn [forallb all2] in *; try discriminate; [constructor|].
  rewrite andb_true_iff in H, H'. destruct H, H'. constructor; [now apply start_rel|]. now apply IH.
Qed.

Lemma sumV_rel k data s : Forall2 (rel k) data s ->
  Rabs (IZR (sumV s) - scR * qsum data (fun x => uu x ^ k)) <= INR (length data) * (2 + 5 * INR k).
Proof.
  induction 1 as [|[x w] [v u] data s H HH IH].
  - cbn [sumV fold_right qsum length INR]. rewrite Rmult_0_r, Rmult_0_l, Rminus_0_r, Rabs_R0. lra.
  - cbn [length qsum]. unfold sumV in *. cbn [fold_right fst]. rewrite plus_IZR, S_INR.
    destruct H as (Hv & _). cbn [fst snd] in Hv.
    apply Rabs_le_between in IH. apply Rabs_le_between in Hv. apply Rabs_le. lra.
Qed.

(** *** the exact moments *)
Lemma is_RInt_u k : is_RInt (fun x => uu x ^ k) 0 1 (IZR (m0n (Z.of_nat k)) / INR (S k)).
Proof.
  assert (P : INR (S k) <> 0) by (apply not_0_INR; lia).
  assert (E : IZR (m0n (Z.of_nat k)) / INR (S k) = uu 1 ^ S k / (2 * INR (S k)) - uu 0 ^ S k / (2 * INR (S k))).
  { replace (uu 1) with 1 by ring. replace (uu 0) with (-1) by ring.
    rewrite pow1. unfold m0n. destruct (Z.even (Z.of_nat k)) eqn:Ev.
    - apply Z.even_spec in Ev. destruct Ev as [z Hz]. assert (Q : exists n, k = (2 * n)%nat) by (exists (Z.to_nat z); lia).
      destruct Q as [n ->]. rewrite pow_1_odd. field. exact P.
    - assert (Od : Z.odd (Z.of_nat k) = true) by (rewrite <- Z.negb_even, Ev; reflexivity).
      apply Z.odd_spec in Od. destruct Od as [z Hz]. assert (Q : exists n, S k = (2 * n)%nat) by (exists (Z.to_nat (z + 1)); lia).
      destruct Q as [n Hn]. rewrite Hn, pow_1_even. rewrite <- Hn. field. exact P. }
  rewrite E. change (is_RInt (fun x => uu x ^ k) 0 1 (minus (G := R_AbelianGroup) (uu 1 ^ S k / (2 * INR (S k))) (uu 0 ^ S k / (2 * INR (S k))))).
  apply (is_RInt_derive (V := R_CompleteNormedModule) (fun x => uu x ^ S k / (2 * INR (S k)))).
  - intros x _. auto_derive; [auto|].
    replace (match k with 0%nat => 1 | S _ => INR k + 1 end) with (INR (S k)) by (destruct k; reflexivity).
    set (q := INR (S k)) in *. simpl pow. replace (2 * x + - (1)) with (uu x) by ring. field. exact P.
  - intros x _. apply (ex_derive_continuous (V := R_NormedModule)). auto_derive. auto.
Qed.

Lemma is_RInt_lin2 f g a b (c1 c2 If Ig : R) : is_RInt f a b If -> is_RInt g a b Ig ->
  is_RInt (fun x => c1 * f x + c2 * g x) a b (c1 * If + c2 * Ig).
Proof.
  intros Hf Hg. apply (is_RInt_plus (V := R_NormedModule)); apply (is_RInt_scal (V := R_NormedModule)); assumption.
Qed.

Lemma momD_pos alpha k : (0 <= k)%Z -> (0 < momD alpha k)%Z.
Proof. intros H. destruct alpha as [|[|a]]; cbn [momD]; nia. Qed.

Lemma is_RInt_mom alpha k : (alpha <= 2)%nat ->
  is_RInt (fun x => omega alpha x * uu x ^ k) 0 1 (IZR (momN alpha (Z.of_nat k)) / IZR (momD alpha (Z.of_nat k))).
Proof.
  intros Ha.
  assert (K : forall j, IZR (Z.of_nat k + Z.of_nat j) = INR (k + j)) by (intros; rewrite INR_IZR_INZ; f_equal; lia).
  assert (P1 : INR (S k) <> 0) by (apply not_0_INR; lia).
  assert (P2 : INR (S (S k)) <> 0) by (apply not_0_INR; lia).
  assert (P3 : INR (S (S (S k))) <> 0) by (apply not_0_INR; lia).
  assert (D1 : (Z.of_nat k + 1)%Z = Z.of_nat (S k)) by lia.
  assert (D2 : (Z.of_nat k + 2)%Z = Z.of_nat (S (S k))) by lia.
  assert (D3 : (Z.of_nat k + 3)%Z = Z.of_nat (S (S (S k)))) by lia.
  pose proof (is_RInt_u k) as I0. pose proof (is_RInt_u (S k)) as I1. pose proof (is_RInt_u (S (S k))) as I2.
  destruct alpha as [|[|[|a]]]; [| | |lia]; unfold momN, momD; rewrite ?D1, ?D2, ?D3, ?plus_IZR, ?minus_IZR, ?mult_IZR, <- ?INR_IZR_INZ.
  - eapply is_RInt_ext; [|exact I0]. intros x _. unfold omega. simpl. ring.
  - replace (_ / _) with (1 * (IZR (m0n (Z.of_nat k)) / INR (S k)) + -1 * (IZR (m0n (Z.of_nat (S k))) / INR (S (S k)))) by (field; auto).
    eapply is_RInt_ext; [|exact (is_RInt_lin2 _ _ _ _ 1 (-1) _ _ I0 I1)].
    intros x _. unfold omega. simpl. ring.
  - replace (_ / _) with (1 * (IZR (m0n (Z.of_nat k)) / INR (S k)) + 1 * (-2 * (IZR (m0n (Z.of_nat (S k))) / INR (S (S k))) + 1 * (IZR (m0n (Z.of_nat (S (S k)))) / INR (S (S (S k)))))) by (field; auto).
    eapply is_RInt_ext; [|exact (is_RInt_lin2 _ _ _ _ 1 1 _ _ I0 (is_RInt_lin2 _ _ _ _ (-2) 1 _ _ I1 I2))].
    intros x _. unfold omega. simpl. ring.
Qed.

Lemma RInt_mom alpha k : (alpha <= 2)%nat ->
  RInt (fun x => omega alpha x * uu x ^ k) 0 1 = IZR (momN alpha (Z.of_nat k)) / IZR (momD alpha (Z.of_nat k)).
Proof. intros H. apply is_RInt_unique. now apply is_RInt_mom. Qed.

Definition eps1 : R := / IZR (10 ^ 20).
Lemma eps1_pos : 0 < eps1.
Proof. apply Rinv_0_lt_compat, IZR_lt. reflexivity. Qed.

Lemma eps1_sc : 190000 <= eps1 * scR.
Proof.
  unfold eps1, scR. apply Rmult_le_reg_l with (IZR (10 ^ 20)); [apply IZR_lt; reflexivity|].
  rewrite <- Rmult_assoc, Rinv_r by (apply not_eq_sym, Rlt_not_eq, IZR_lt; reflexivity).
  rewrite <- !mult_IZR. apply IZR_le. apply Z.leb_le. vm_compute. reflexivity.
Qed.

Lemma mom_ok_R alpha data d (Ha : (alpha <= 2)%nat) (Hn : (Z.of_nat (length data) * (5 * d + 2) <= 40000)%Z) :
  forall n k s, Forall2 (rel k) data s -> mom_ok alpha n (Z.of_nat k) s = true ->
    forall j, (k <= j < k + n)%nat -> (Z.of_nat j <= d)%Z ->
    Rabs (qsum data (fun x => uu x ^ j) - RInt (fun x => omega alpha x * uu x ^ j) 0 1) <= eps1.
Proof.
  induction n as [|n IH]; intros k s F H j Hj Hd; [lia|]. cbn [mom_ok] in H.
  apply andb_true_iff in H. destruct H as [H1 H2].
  destruct (Nat.eq_dec j k) as [->|Ne].
  - apply Z.leb_le in H1. apply IZR_le in H1. rewrite abs_IZR, minus_IZR, !mult_IZR in H1.
    pose proof (sumV_rel _ _ _ F) as B. rewrite RInt_mom by assumption.
    pose proof (momD_pos alpha (Z.of_nat k) ltac:(lia)) as DP. apply IZR_lt in DP.
    set (D := IZR (momD alpha (Z.of_nat k))) in *. set (N := IZR (momN alpha (Z.of_nat k))) in *.
    set (Q := qsum data (fun x => uu x ^ k)) in *. fold scR in H1. set (V := IZR (sumV s)) in *.
    pose proof scR_pos as SP. pose proof eps1_sc as ES.
    assert (A : Rabs (V - scR * (N / D)) <= 100000).
    { replace (V - scR * (N / D)) with ((V * D - N * scR) / D) by (field; lra).
      unfold Rdiv. rewrite Rabs_mult, (Rabs_right (/ D)) by (apply Rle_ge, Rlt_le, Rinv_0_lt_compat, DP).
      apply Rmult_le_reg_r with D; [assumption|]. rewrite Rmult_assoc, Rinv_l by lra. lra. }
    assert (B2 : INR (length data) * (2 + 5 * INR k) <= 40000).
    { rewrite !INR_IZR_INZ. replace (2 + 5 * IZR (Z.of_nat k)) with (IZR (5 * Z.of_nat k + 2)) by (rewrite plus_IZR, mult_IZR; ring).
      rewrite <- mult_IZR. apply IZR_le. nia. }
    apply Rabs_le_between in A. apply Rabs_le_between in B.
    assert (C : Rabs (scR * (Q - N / D)) <= eps1 * scR) by (apply Rabs_le; lra).
    rewrite Rabs_mult, (Rabs_right scR) in C by lra.
    apply Rmult_le_reg_l with scR; [assumption|]. lra.
  - apply (IH (S k) (map stepV s)); [now apply Forall2_step| |lia|assumption].
    rewrite Nat2Z.inj_succ. exact H2.
Qed.

Lemma data_ok_u alpha d data : (alpha <= 2)%nat -> data_ok alpha d data = true -> forall j, (Z.of_nat j <= d)%Z ->
  Rabs (qsum data (fun x => uu x ^ j) - RInt (fun x => omega alpha x * uu x ^ j) 0 1) <= eps1.
Proof.
  intros Ha H j Hj. unfold data_ok in H. rewrite !andb_true_iff, Z.leb_le in H. destruct H as [[H1 H2] H3].
  unfold run_ok in H3. apply andb_true_iff in H3. destruct H3 as [H3 H4].
  apply (mom_ok_R alpha data d Ha H2 (S (Z.to_nat d)) 0 (start data)); auto using Forall2_start. lia.
Qed.

Lemma data_ok_inside alpha d data : data_ok alpha d data = true -> inside data.
Proof.
  unfold data_ok. rewrite !andb_true_iff. intros [[H _] _] x w I. rewrite forallb_forall in H.
  pose proof (pt_ok_R _ _ (H _ I)). tauto.
Qed.

(** ** From the powers of 2x-1 to polynomials *)
Lemma qsum_lin data a b f g : qsum data (fun x => a * f x + b * g x) = a * qsum data f + b * qsum data g.
Proof. induction data as [|[x w] data IH]; cbn [qsum]; [ring|]. rewrite IH. ring. Qed.
Lemma qsum_ext data f g : (forall x, f x = g x) -> qsum data f = qsum data g.
Proof. intros H. induction data as [|[x w] data IH]; cbn [qsum]; [reflexivity|]. now rewrite IH, H. Qed.

(** [f] is a combination of 1, u, .., u^d with coefficients of absolute sum at most [N] *)
Inductive span (d : nat) : R -> (R -> R) -> Prop :=
| span_0 : span d 0 (fun _ => 0)
| span_add a k N f : (k <= d)%nat -> span d N f -> span d (Rabs a + N) (fun x => a * uu x ^ k + 1 * f x).

Lemma span_err alpha d data eps : (alpha <= 2)%nat ->
  (forall j, (j <= d)%nat -> Rabs (qsum data (fun x => uu x ^ j) - RInt (fun x => omega alpha x * uu x ^ j) 0 1) <= eps) ->
  forall N f, span d N f -> exists I, is_RInt (fun x => omega alpha x * f x) 0 1 I /\ Rabs (qsum data f - I) <= eps * N.
Proof.
  intros Ha H N f Hs. induction Hs as [|a k N f Hk Hs IH].
  - exists 0. split.
    + apply (is_RInt_ext (fun _ => 0)); [intros; toR_; ring|].
      replace 0 with (scal (1 - 0) 0) at 2 by (unfold scal; simpl; unfold mult; simpl; ring).
      apply (is_RInt_const (V := R_NormedModule)).
    + replace (qsum data (fun _ => 0)) with 0.
      * rewrite Rminus_0_r, Rabs_R0. lra.
      * clear. induction data as [|[x w] data IH]; cbn [qsum]; [reflexivity|]. rewrite <- IH. ring.
  - destruct IH as (I & HI & HE). exists (a * RInt (fun x => omega alpha x * uu x ^ k) 0 1 + 1 * I). split.
    + apply (is_RInt_ext (fun x => a * (omega alpha x * uu x ^ k) + 1 * (omega alpha x * f x))).
      * intros x _. toR_. ring.
      * apply is_RInt_lin2; [|assumption]. rewrite RInt_mom by assumption. now apply is_RInt_mom.
    + rewrite qsum_lin. pose proof (H k Hk) as E.
      replace (_ - _) with (a * (qsum data (fun x => uu x ^ k) - RInt (fun x => omega alpha x * uu x ^ k) 0 1) + (qsum data f - I)) by ring.
      eapply Rle_trans; [apply Rabs_triang|]. rewrite Rabs_mult.
      assert (Rabs a * Rabs (qsum data (fun x => uu x ^ k) - RInt (fun x => omega alpha x * uu x ^ k) 0 1) <= Rabs a * eps)
        by (apply Rmult_le_compat_l; auto using Rabs_pos).
      lra.
Qed.

Lemma span_ext d N N' f g : N = N' -> (forall x, f x = g x) -> span d N f -> span d N' g.
Proof. intros -> H. replace g with f by (now apply functional_extensionality). auto. Qed.

Lemma span_mon d d' N f : (d <= d')%nat -> span d N f -> span d' N f.
Proof. intros L. induction 1; constructor; auto; lia. Qed.

Lemma span_scale d c N f : span d N f -> span d (Rabs c * N) (fun x => c * f x).
Proof.
  induction 1 as [|a k N f Hk Hs IH].
  - eapply span_ext; [| |apply span_0]; intros; cbv beta; ring.
  - eapply span_ext; [| |apply (span_add d (c * a) k _ _ Hk IH)].
    + rewrite Rabs_mult. ring.
    + intros x. cbv beta. ring.
Qed.

Lemma span_plus d N M f g : span d N f -> span d M g -> span d (N + M) (fun x => f x + g x).
Proof.
  intros Hf Hg. induction Hf as [|a k N f Hk Hs IH].
  - eapply span_ext; [| |exact Hg]; intros; cbv beta; ring.
  - eapply span_ext; [| |apply (span_add d a k _ _ Hk IH)]; intros; cbv beta; ring.
Qed.

Lemma span_pow d k : (k <= d)%nat -> span d 1 (fun x => uu x ^ k).
Proof.
  intros H. eapply span_ext; [| |apply (span_add d 1 k _ _ H (span_0 d))].
  - rewrite Rabs_R1. ring.
  - intros; cbv beta; ring.
Qed.

Lemma span_const d c : span d (Rabs c) (fun _ => c).
Proof.
  eapply span_ext; [| |apply (span_add d c 0 _ _ ltac:(lia) (span_0 d))].
  - ring.
  - intros; simpl; ring.
Qed.

Lemma span_half d s N f : s = 1 \/ s = -1 -> span d N f -> span (S d) N (fun x => (1 + s * uu x) / 2 * f x).
Proof.
  intros Hs. induction 1 as [|a k N f Hk H IH].
  - eapply span_ext; [| |apply span_0]; intros; cbv beta; ring.
  - assert (K1 : (k <= S d)%nat) by lia. assert (K2 : (S k <= S d)%nat) by lia.
    eapply span_ext; [| |apply (span_add _ (a / 2) k _ _ K1 (span_add _ (s * a / 2) (S k) _ _ K2 IH))].
    + unfold Rdiv. rewrite !Rabs_mult.
      replace (Rabs s) with 1 by (destruct Hs as [->| ->]; [now rewrite Rabs_R1|rewrite Rabs_left; lra]).
      rewrite (Rabs_right (/ 2)) by lra. field.
    + intros x. cbv beta. simpl pow. field.
Qed.

Lemma span_x d N f : span d N f -> span (S d) N (fun x => x * f x).
Proof. intros H. eapply span_ext; [| |apply (span_half d 1 N f); auto]; intros; cbv beta; field. Qed.
Lemma span_1x d N f : span d N f -> span (S d) N (fun x => (1 - x) * f x).
Proof. intros H. eapply span_ext; [| |apply (span_half d (-1) N f); auto]; intros; cbv beta; field. Qed.

(** the functions needed by the products *)
Lemma span_beta c b : span (c + b) 1 (fun x => (1 - x) ^ c * x ^ b).
Proof.
  induction c as [|c IH].
  - induction b as [|b IH].
    + eapply span_ext; [| |apply (span_const 0 1)]; [apply Rabs_R1|intros; simpl; ring].
    + eapply span_ext; [| |apply (span_x _ _ _ IH)]; [reflexivity|intros; simpl; ring].
  - eapply span_ext; [| |apply (span_1x _ _ _ IH)]; [reflexivity|intros; simpl; ring].
Qed.

Lemma span_poly c : forall d, (length c <= S d)%nat -> span d (norm1 c) (poly c).
Proof.
  induction c as [|a c IH]; intros d H.
  - apply span_0.
  - cbn [length] in H. destruct d as [|d].
    + assert (c = []) as -> by (destruct c; [reflexivity|cbn in H; lia]).
      eapply span_ext; [| |apply (span_const 0 a)]; [cbn; ring|intros; cbn; ring].
    + eapply span_ext; [| |apply (span_plus _ _ _ _ _ (span_const (S d) a) (span_x _ _ _ (IH d ltac:(lia))))];
        [reflexivity|intros; reflexivity].
Qed.

Lemma data_ok_span alpha d data N f : (alpha <= 2)%nat -> data_ok alpha (Z.of_nat d) data = true -> span d N f ->
  Rabs (qsum data f - RInt (fun x => omega alpha x * f x) 0 1) <= eps1 * N.
Proof.
  intros Ha H Hs.
  destruct (span_err alpha d data eps1 Ha (fun j Hj => data_ok_u alpha (Z.of_nat d) data Ha H j ltac:(lia)) N f Hs) as (I & HI & HE).
  apply (is_RInt_unique (V := R_CompleteNormedModule)) in HI. rewrite HI. exact HE.
Qed.

Lemma data_ok_exact alpha d data : (alpha <= 2)%nat -> data_ok alpha (Z.of_nat d) data = true ->
  exact1D alpha d eps1 data.
Proof. intros Ha H c Hc. apply (data_ok_span alpha d); auto using span_poly. Qed.

(** ** A whole table *)

(** every entry is accurate to its delivered order; the orders are 2 n - gap for n points;
    the labels are covered up to [hi] and no entry delivers less than its labels *)
Definition entry_ok (alpha : nat) (gap : Z) (e : Entry) : bool :=
  (Z.eqb (en_order e) (2 * Z.of_nat (length (en_data e)) - gap))
  && (0 <=? en_order e)%Z
  && forallb (fun p => (0 <=? p) && (p <=? en_order e))%Z (en_cases e)
  && data_ok alpha (en_order e) (en_data e).
Definition covered (hi : nat) (tab : list Entry) : bool :=
  forallb (fun p => existsb (fun e => existsb (Z.eqb (Z.of_nat p)) (en_cases e)) tab) (seq 0 (S hi))
  && forallb (fun e => forallb (fun p => (p <=? Z.of_nat hi)%Z) (en_cases e)) tab.
Definition tab_ok (alpha : nat) (gap : Z) (hi : nat) (tab : list Entry) : bool :=
  forallb (entry_ok alpha gap) tab && covered hi tab.

Lemma switchOn_In tab p e : switchOn tab p = Some e -> In e tab /\ In p (en_cases e).
Proof.
  induction tab as [|e' tab IH]; cbn [switchOn]; [discriminate|].
  destruct (existsb (Z.eqb p) (en_cases e')) eqn:E.
  - intros [= <-]. split; [now left|]. apply existsb_exists in E. destruct E as (q & I & Hq).
    apply Z.eqb_eq in Hq. now subst q.
  - intros H. destruct (IH H). split; [now right|assumption].
Qed.

Lemma switchOn_some tab p e : In e tab -> existsb (Z.eqb p) (en_cases e) = true -> exists e', switchOn tab p = Some e'.
Proof.
  induction tab as [|e' tab IH]; cbn [switchOn In]; [tauto|]. intros [->|I] H.
  - rewrite H. eauto.
  - destruct (existsb (Z.eqb p) (en_cases e')); eauto.
Qed.

Lemma tab_ok_spec alpha gap hi tab p : (alpha <= 2)%nat -> tab_ok alpha gap hi tab = true ->
  ((exists e, switchOn tab p = Some e) <-> (0 <= p <= Z.of_nat hi)%Z)
  /\ forall e, switchOn tab p = Some e ->
     (p <= en_order e)%Z /\ (en_order e = 2 * Z.of_nat (length (en_data e)) - gap)%Z
     /\ inside (en_data e) /\ exact1D alpha (Z.to_nat (en_order e)) eps1 (en_data e)
     /\ data_ok alpha (Z.of_nat (Z.to_nat (en_order e))) (en_data e) = true.
Proof.
  intros Ha H. unfold tab_ok, covered in H. rewrite !andb_true_iff in H. destruct H as (H1 & H2 & H3).
  rewrite forallb_forall in H1, H2, H3.
  assert (EO : forall e, In e tab -> entry_ok alpha gap e = true) by auto.
  assert (EC : forall e, In e tab -> forall q, In q (en_cases e) -> (0 <= q <= en_order e)%Z).
  { intros e I q Iq. specialize (EO e I). unfold entry_ok in EO. rewrite !andb_true_iff in EO.
    destruct EO as ((_ & F) & _). rewrite forallb_forall in F. specialize (F q Iq).
    rewrite andb_true_iff, !Z.leb_le in F. exact F. }
  split; [split|].
  - intros (e & He). apply switchOn_In in He. destruct He as [I Ip]. specialize (H3 e I). rewrite forallb_forall in H3.
    specialize (H3 p Ip). apply Z.leb_le in H3. pose proof (EC e I p Ip). lia.
  - intros Hp. specialize (H2 (Z.to_nat p)). rewrite Z2Nat.id in H2 by lia.
    assert (I : In (Z.to_nat p) (seq 0 (S hi))) by (apply in_seq; lia). specialize (H2 I).
    apply existsb_exists in H2. destruct H2 as (e & Ie & He). eapply switchOn_some; eauto.
  - intros e He. apply switchOn_In in He. destruct He as [I Ip].
    pose proof (EC e I p Ip) as B. specialize (EO e I). unfold entry_ok in EO. rewrite !andb_true_iff, Z.eqb_eq, Z.leb_le in EO.
    destruct EO as (((E & P) & _) & D).
    assert (D' : data_ok alpha (Z.of_nat (Z.to_nat (en_order e))) (en_data e) = true) by (rewrite Z2Nat.id by lia; exact D).
    refine (conj (proj2 B) (conj E (conj _ (conj _ D')))).
    + eapply data_ok_inside; eauto.
    + now apply data_ok_exact.
Qed.
