(** C68: operations without rounding; the weights at the reference corners. *)
From Coq Require Import PeanoNat NArith ZArith Lia Bool List Reals Lra FunctionalExtensionality.
From Flocq Require Import Core IEEE754.BinarySingleNaN.
From Verif Require Import M_Type M_RefTopo M_RefGeo M_Matrix M_MultiLinear M_Float M_FloatGlobal S_Topo S_MultiLinear
  P_Type P_RefTopo P_RSum P_RefGeo2 P_ML1 P_ML2 P_Float P_FloatNear P_FloatGlobal.
Import ListNotations.
Local Open Scope R_scope.

Section V.
Variables (prec emax : Z).
Context (Hp : Prec_gt_0 prec) (He : Prec_lt_emax prec emax).
Hypothesis H2 : (2 <= prec)%Z.
Notation float := (binary_float prec emax).
Notation FVec := (nat -> float).
Notation fexp := (SpecFloat.fexp prec emax).
Notation rnd := (round radix2 fexp (round_mode mode_NE)).
Notation u := (bpow radix2 (- prec)).
Notation add' := (fadd prec emax Hp He).
Notation sub' := (fsub prec emax Hp He).
Notation mul' := (fmul prec emax Hp He).
Notation div' := (fdiv prec emax Hp He).
Notation one := (ofZ prec emax Hp He 1).
Notation zero := (ofZ prec emax Hp He 0).
Notation away' := (faway prec emax Hp He).
Notation tol' := (ftol prec emax Hp He).

(** a finite number with a value *)
Definition is (a : float) (v : R) : Prop := is_finite a = true /\ B2R a = v.
Lemma is_format a v : is a v -> generic_format radix2 fexp v /\ Rabs v < bpow radix2 emax.
Proof. intros (_ & <-). split; [apply generic_format_B2R|apply abs_B2R_lt_emax]. Qed.
Lemma rnd_id v : generic_format radix2 fexp v -> rnd v = v.
Proof. intro G. apply round_generic; [typeclasses eauto|exact G]. Qed.

Lemma mul_exact a b va vb c vc : is a va -> is b vb -> is c vc -> va * vb = vc -> is (mul' a b) vc.
Proof.
  intros (Fa & Ea) (Fb & Eb) (Fc & Ec) E. unfold fmul. pose proof (Bmult_correct prec emax Hp He mode_NE a b) as C.
  rewrite Ea, Eb, E, <- Ec, rnd_id, Rlt_bool_true in C by (apply generic_format_B2R || apply abs_B2R_lt_emax).
  destruct C as (C1 & C2 & _). split; [|congruence]. now rewrite C2, Fa, Fb.
Qed.
Lemma add_exact a b va vb c vc : is a va -> is b vb -> is c vc -> va + vb = vc -> is (add' a b) vc.
Proof.
  intros (Fa & Ea) (Fb & Eb) (Fc & Ec) E. unfold fadd. pose proof (Bplus_correct prec emax Hp He mode_NE a b Fa Fb) as C.
  rewrite Ea, Eb, E, <- Ec, rnd_id, Rlt_bool_true in C by (apply generic_format_B2R || apply abs_B2R_lt_emax).
  destruct C as (C1 & C2 & _). split; [exact C2|congruence].
Qed.
Lemma sub_exact a b va vb c vc : is a va -> is b vb -> is c vc -> va - vb = vc -> is (sub' a b) vc.
Proof.
  intros (Fa & Ea) (Fb & Eb) (Fc & Ec) E. unfold fsub. pose proof (Bminus_correct prec emax Hp He mode_NE a b Fa Fb) as C.
  rewrite Ea, Eb, E, <- Ec, rnd_id, Rlt_bool_true in C by (apply generic_format_B2R || apply abs_B2R_lt_emax).
  destruct C as (C1 & C2 & _). split; [exact C2|congruence].
Qed.
Lemma div_exact a b va vb c vc : is a va -> is b vb -> is c vc -> vb <> 0 -> va / vb = vc -> is (div' a b) vc.
Proof.
  intros (Fa & Ea) (Fb & Eb) (Fc & Ec) N E. unfold fdiv. pose proof (Bdiv_correct prec emax Hp He mode_NE a b) as C.
  rewrite Ea, Eb in C. specialize (C N).
  rewrite E, <- Ec, rnd_id, Rlt_bool_true in C by (apply generic_format_B2R || apply abs_B2R_lt_emax).
  destruct C as (C1 & C2 & _). split; [|congruence]. now rewrite C2, Fa.
Qed.
Lemma is_one : is one 1.
Proof. destruct (ofZ_1 prec emax Hp He H2). split; assumption. Qed.
Lemma is_zero : is zero 0.
Proof.
  unfold ofZ. pose proof (binary_normalize_correct prec emax Hp He mode_NE 0 0 false) as C. cbn zeta in C.
  replace (F2R {| Fnum := 0; Fexp := 0 |}) with 0 in C by (unfold F2R; cbn; ring).
  rewrite round_0, Rabs_R0, Rlt_bool_true in C by (typeclasses eauto || apply bpow_gt_0).
  destruct C as (C1 & C2 & _). split; assumption.
Qed.

(** ** the tolerance *)
Lemma is_tol : (6 <= prec)%Z -> is tol' (32 * u).
Proof.
  intros H6. pose proof (prec_emax prec emax He) as Q. unfold ftol.
  assert (E1 : is (epsilon prec emax Hp He) (bpow radix2 (1 - prec))).
  { unfold epsilon. pose proof (binary_normalize_correct prec emax Hp He mode_NE 1 (1 - prec) false) as C. cbn zeta in C.
    replace (F2R {| Fnum := 1; Fexp := 1 - prec |}) with (bpow radix2 (1 - prec)) in C by (unfold F2R; cbn [Fnum Fexp]; ring).
    rewrite rnd_id in C by (apply format_bpow; try assumption; lia).
    rewrite Rlt_bool_true in C by (rewrite Rabs_pos_eq by apply bpow_ge_0; apply bpow_lt; lia).
    destruct C as (C1 & C2 & _). split; assumption. }
  assert (E2 : is (ofZ prec emax Hp He 16) (bpow radix2 4)).
  { unfold ofZ. pose proof (binary_normalize_correct prec emax Hp He mode_NE 16 0 false) as C. cbn zeta in C.
    replace (F2R {| Fnum := 16; Fexp := 0 |}) with (bpow radix2 4) in C by (unfold F2R; cbn; ring).
    rewrite rnd_id in C by (apply format_bpow; try assumption; lia).
    rewrite Rlt_bool_true in C by (rewrite Rabs_pos_eq by apply bpow_ge_0; apply bpow_lt; lia).
    destruct C as (C1 & C2 & _). split; assumption. }
  destruct E1 as (Fe & Ee), E2 as (Ft & Et). unfold fmul.
  pose proof (Bmult_correct prec emax Hp He mode_NE (ofZ prec emax Hp He 16) (epsilon prec emax Hp He)) as C.
  rewrite Ee, Et, <- bpow_plus in C. rewrite rnd_id in C by (apply format_bpow; try assumption; lia).
  rewrite Rlt_bool_true in C by (rewrite Rabs_pos_eq by apply bpow_ge_0; apply bpow_lt; lia).
  destruct C as (C1 & C2 & _). split; [now rewrite C2, Fe, Ft|]. rewrite C1.
  replace (4 + (1 - prec))%Z with (5 + - prec)%Z by lia. rewrite bpow_plus. reflexivity.
Qed.
Lemma away_spec c : (6 <= prec)%Z -> is_finite c = true -> away' c = true <-> 32 * u < Rabs (B2R c).
Proof.
  intros H6 Fc. destruct (is_tol H6) as (Ft & Et). unfold faway.
  rewrite orb_true_iff, !Bltb_correct by (assumption || now rewrite is_finite_Bopp). rewrite B2R_Bopp, Et.
  pose proof (bpow_gt_0 radix2 (- prec)) as U.
  destruct (Rlt_bool_spec (32 * u) (B2R c)), (Rlt_bool_spec (B2R c) (- (32 * u))); split; intros Q; auto;
    try (destruct Q; discriminate).
  - rewrite Rabs_pos_eq; lra.
  - rewrite Rabs_pos_eq; lra.
  - rewrite Rabs_left; lra.
  - exfalso. revert Q. apply Rle_not_lt. apply Rabs_le. lra.
Qed.
Lemma away_one c : (6 <= prec)%Z -> is c 1 -> away' c = true.
Proof.
  intros H6 (Fc & Ec). apply away_spec; try assumption. rewrite Ec, Rabs_R1.
  replace 32 with (bpow radix2 5) by (cbn; reflexivity). rewrite <- bpow_plus. change 1 with (bpow radix2 0). apply bpow_lt. lia.
Qed.
Lemma away_zero c : (6 <= prec)%Z -> is c 0 -> away' c = false.
Proof.
  intros H6 (Fc & Ec). destruct (away' c) eqn:E; [|reflexivity]. apply away_spec in E; try assumption.
  rewrite Ec, Rabs_R0 in E. pose proof (bpow_gt_0 radix2 (- prec)). lra.
Qed.

(** ** the weights at a corner *)
Lemma rc_0 T : forall k, rc T 0 k = 0.
Proof. induction T as [|b IH|b IH]; intro k; cbn [rc]; [reflexivity| |]; pose proof (nv_pos b); now rewrite (proj2 (Nat.ltb_lt 0 (nv b))). Qed.
Lemma nth_app2 {A} (l l' : list A) d j : (length l <= j)%nat -> nth j (l ++ l') d = nth (j - length l) l' d.
Proof. apply app_nth2. Qed.

Lemma fw_corner : (6 <= prec)%Z -> forall T i df x rf r, (i < nv T)%nat ->
  is df 1 -> is rf r -> r = 0 \/ r = 1 ->
  (forall k, (k < tdim T)%nat -> is (x k) (rc T i k)) ->
  forall j, (j < nv T)%nat -> is (nth j (fw prec emax Hp He T df x rf) zero) (if Nat.eqb j i then r else 0).
Proof.
  intros H6. pose proof is_one as O1. pose proof is_zero as O0.
  assert (R01 : forall r, r = 0 \/ r = 1 -> exists c, is c r) by (intros r [->| ->]; eauto).
  induction T as [|b IH|b IH]; intros i df x rf r Hi Hdf Hrf Hr Hx j Hj.
  - cbn in Hi, Hj |- *. replace j with 0%nat by lia. replace i with 0%nat by lia. exact Hrf.
  - cbn [nv fw tdim rc] in *. cbv zeta. pose proof (Hx (tdim b) (Nat.lt_succ_diag_r _)) as Xn.
    set (xn := mul' df (x (tdim b))).
    destruct (Nat.ltb_spec i (nv b)) as [Li|Li].
    + rewrite rc_support in Xn by lia.
      assert (Q : is xn 0) by (eapply mul_exact; [exact Hdf|exact Xn|exact O0|ring]).
      assert (Qc : is (sub' one xn) 1) by (eapply sub_exact; [exact O1|exact Q|exact O1|ring]).
      assert (Q1 : is (mul' rf (sub' one xn)) r) by (eapply mul_exact; [exact Hrf|exact Qc|exact Hrf|ring]).
      assert (Q2 : is (mul' rf xn) 0) by (eapply mul_exact; [exact Hrf|exact Q|exact O0|ring]).
      assert (Hx' : forall k, (k < tdim b)%nat -> is (x k) (rc b i k)) by (intros k Hk; apply Hx; lia).
      destruct (Nat.lt_ge_cases j (nv b)) as [Lj|Lj].
      * rewrite app_nth1 by (rewrite fw_length; lia). apply IH; auto.
      * rewrite app_nth2 by (rewrite fw_length; lia). rewrite fw_length.
        rewrite (proj2 (Nat.eqb_neq j i)) by lia.
        pose proof (IH i df x _ 0 Li Hdf Q2 (or_introl eq_refl) Hx' (j - nv b)%nat ltac:(lia)) as Z.
        now destruct (Nat.eqb (j - nv b) i).
    + unfold upd in Xn. rewrite Nat.eqb_refl in Xn.
      assert (Q : is xn 1) by (eapply mul_exact; [exact Hdf|exact Xn|exact O1|ring]).
      assert (Qc : is (sub' one xn) 0) by (eapply sub_exact; [exact O1|exact Q|exact O0|ring]).
      assert (Q1 : is (mul' rf (sub' one xn)) 0) by (eapply mul_exact; [exact Hrf|exact Qc|exact O0|ring]).
      assert (Q2 : is (mul' rf xn) r) by (eapply mul_exact; [exact Hrf|exact Q|exact Hrf|ring]).
      assert (Hx' : forall k, (k < tdim b)%nat -> is (x k) (rc b (i - nv b) k)).
      { intros k Hk. specialize (Hx k ltac:(lia)). unfold upd in Hx. now rewrite (proj2 (Nat.eqb_neq k (tdim b))) in Hx by lia. }
      destruct (Nat.lt_ge_cases j (nv b)) as [Lj|Lj].
      * rewrite app_nth1 by (rewrite fw_length; lia). rewrite (proj2 (Nat.eqb_neq j i)) by lia.
        pose proof (IH (i - nv b)%nat df x _ 0 ltac:(lia) Hdf Q1 (or_introl eq_refl) Hx' j Lj) as Z.
        now destruct (Nat.eqb j (i - nv b)).
      * rewrite app_nth2 by (rewrite fw_length; lia). rewrite fw_length.
        pose proof (IH (i - nv b)%nat df x _ r ltac:(lia) Hdf Q2 Hr Hx' (j - nv b)%nat ltac:(lia)) as Z.
        replace (Nat.eqb j i) with (Nat.eqb (j - nv b) (i - nv b)); [exact Z|].
        destruct (Nat.eqb_spec j i); destruct (Nat.eqb_spec (j - nv b) (i - nv b)); auto; lia.
  - cbn [nv fw tdim rc] in *. cbv zeta. pose proof (Hx (tdim b) (Nat.lt_succ_diag_r _)) as Xn.
    set (xn := mul' df (x (tdim b))).
    destruct (Nat.ltb_spec i (nv b)) as [Li|Li].
    + rewrite rc_support in Xn by lia.
      assert (Q : is xn 0) by (eapply mul_exact; [exact Hdf|exact Xn|exact O0|ring]).
      assert (Qc : is (sub' one xn) 1) by (eapply sub_exact; [exact O1|exact Q|exact O1|ring]).
      assert (Q1 : is (mul' rf (sub' one xn)) r) by (eapply mul_exact; [exact Hrf|exact Qc|exact Hrf|ring]).
      assert (Q2 : is (mul' rf xn) 0) by (eapply mul_exact; [exact Hrf|exact Q|exact O0|ring]).
      assert (Q3 : is (div' df (sub' one xn)) 1) by (eapply div_exact; [exact Hdf|exact Qc|exact O1|lra|field]).
      rewrite (away_one _ H6 Qc).
      destruct (Nat.lt_ge_cases j (nv b)) as [Lj|Lj].
      * rewrite app_nth1 by (rewrite fw_length; lia). apply IH; auto.
      * rewrite app_nth2 by (rewrite fw_length; lia). rewrite fw_length.
        rewrite (proj2 (Nat.eqb_neq j i)) by lia. replace (j - nv b)%nat with 0%nat by lia. exact Q2.
    + unfold upd in Xn. rewrite Nat.eqb_refl in Xn.
      assert (Q : is xn 1) by (eapply mul_exact; [exact Hdf|exact Xn|exact O1|ring]).
      assert (Qc : is (sub' one xn) 0) by (eapply sub_exact; [exact O1|exact Q|exact O0|ring]).
      assert (Q2 : is (mul' rf xn) r) by (eapply mul_exact; [exact Hrf|exact Q|exact Hrf|ring]).
      assert (Hx' : forall k, (k < tdim b)%nat -> is (x k) (rc b 0 k)).
      { intros k Hk. specialize (Hx k ltac:(lia)). unfold upd in Hx. rewrite (proj2 (Nat.eqb_neq k (tdim b))) in Hx by lia.
        rewrite rc_0. exact Hx. }
      rewrite (away_zero _ H6 Qc).
      destruct (Nat.lt_ge_cases j (nv b)) as [Lj|Lj].
      * rewrite app_nth1 by (rewrite fw_length; lia). rewrite (proj2 (Nat.eqb_neq j i)) by lia.
        pose proof (IH 0%nat df x _ 0 (nv_pos b) Hdf O0 (or_introl eq_refl) Hx' j Lj) as Z.
        now destruct (Nat.eqb j 0).
      * rewrite app_nth2 by (rewrite fw_length; lia). rewrite fw_length.
        replace j with i by lia. rewrite Nat.eqb_refl. replace (i - nv b)%nat with 0%nat by lia. exact Q2.
Qed.

(** ** sums in which one weight is 1 and the others are 0 *)
Lemma facc_zero k : forall l acc v, is acc v ->
  (forall w c, In (w, c) l -> is w 0 /\ exists vc, is (c k) vc) -> is (facc prec emax Hp He k acc l) v.
Proof.
  induction l as [|(w, c) l IH]; intros acc v Ha Hl; [exact Ha|].
  cbn [facc fold_left]. apply IH; [|intros; apply Hl; now right].
  destruct (Hl w c (or_introl eq_refl)) as (W & vc & C). unfold step. cbn [fst snd].
  assert (is (mul' w (c k)) 0) by (eapply mul_exact; [exact W|exact C|exact is_zero|ring]).
  eapply add_exact; [exact Ha|eassumption|exact Ha|ring].
Qed.
Lemma facc_delta k l1 l2 w0 c0 acc v : is acc 0 -> is w0 1 -> is (c0 k) v ->
  (forall w c, In (w, c) (l1 ++ l2) -> is w 0 /\ exists vc, is (c k) vc) ->
  is (facc prec emax Hp He k acc (l1 ++ (w0, c0) :: l2)) v.
Proof.
  intros Ha W C Hl. rewrite facc_app. cbn [facc fold_left].
  apply facc_zero; [|intros; apply Hl, in_or_app; now right]. unfold step. cbn [fst snd].
  assert (Q : is (facc prec emax Hp He k acc l1) 0) by (apply facc_zero; [exact Ha|intros; apply Hl, in_or_app; now left]).
  assert (is (mul' w0 (c0 k)) v) by (eapply mul_exact; [exact W|exact C|exact C|ring]).
  eapply add_exact; [exact Q|eassumption|exact C|ring].
Qed.
Lemma fcomb_delta k l1 l2 w0 c0 y v : is w0 1 -> is (c0 k) v ->
  (forall w c, In (w, c) (l1 ++ l2) -> is w 0 /\ exists vc, is (c k) vc) ->
  is (fcomb prec emax Hp He false (l1 ++ (w0, c0) :: l2) y k) v.
Proof.
  intros W C Hl. unfold fcomb. destruct l1 as [|(w, c) l1]; cbn [app].
  - cbn [fst snd]. apply facc_zero; [|exact Hl]. eapply mul_exact; [exact W|exact C|exact C|ring].
  - apply facc_delta; auto; [|intros; apply Hl; now right]. cbn [fst snd].
    destruct (Hl w c (or_introl eq_refl)) as (W' & vc & C'). eapply mul_exact; [exact W'|exact C'|exact is_zero|ring].
Qed.
End V.
