(** Certified fixed point evaluation of the moments of the triangle, tetrahedron and prism
    tables. *)
From Coq Require Import NArith ZArith QArith PeanoNat Reals List Qreals Lia Lra Bool Factorial FunctionalExtensionality.
From Coquelicot Require Import Coquelicot.
From Verif Require Import M_Tab M_RefGeo M_Quadrature S_Topo P_Topo P_RefGeo2 S_Quad1D S_QuadND P_QuadFix P_RefVol P_QuadProd.
Import ListNotations.

(** ** The checker *)
Section Checker.
Local Open Scope Z_scope.

Definition QData : Type := list (list Q * Q).
Definition storeData (dim : nat) (s : Store) (m : nat) : QData :=
  map (fun i => (map (st_G s m i) (seq 0 dim), st_W s m i)) (seq 0 m).

Fixpoint insideQ (T : Topo) (x : list Q) (a : Q) : bool :=
  match T with
  | Pt => true
  | Pri b => let y := nth (tdim b) x 0%Q in Qle_bool 0 y && Qle_bool y a && insideQ b x a
  | Pyr b => let y := nth (tdim b) x 0%Q in Qle_bool 0 y && Qle_bool y a && insideQ b x (Qred (a - y))
  end.

Definition fxX (x : Q) : Z := Z.max (- sc) (Z.min sc (fxq (Qnum x) (Qden x))).
Definition startN (data : QData) : list (Z * list Z) :=
  map (fun xw => (fxq (Qnum (snd xw)) (Qden (snd xw)), map fxX (fst xw))) data.

Definition vuN_ok (xw : list Q * Q) (vu : Z * list Z) : bool :=
  fx_ok (fst vu) (Qnum (snd xw)) (Qden (snd xw))
  && (Z.abs (Qnum (snd xw)) <=? 2 * Zpos (Qden (snd xw)))
  && Nat.eqb (length (snd vu)) (length (fst xw))
  && forallb (fun q => fx_ok (snd q) (Qnum (fst q)) (Qden (fst q)) && (Z.abs (snd q) <=? sc)) (combine (fst xw) (snd vu)).

Fixpoint allN (data : QData) (s : list (Z * list Z)) : bool :=
  match data, s with
  | [], [] => true
  | xw :: data', vu :: s' => vuN_ok xw vu && allN data' s'
  | _, _ => false
  end.

Definition stepN (j : nat) (vu : Z * list Z) : Z * list Z :=
  (Z.shiftr (fst vu * nth j (snd vu) 0) bits, snd vu).
Definition sumN (s : list (Z * list Z)) : Z := fold_right (fun vu a => fst vu + a) 0 s.

Fixpoint factZ (n : nat) : Z := match n with O => 1 | S n' => Z.of_nat n * factZ n' end.
Definition degL (d : nat) (e : list nat) : nat := degree d (fun k => nth k e O).
Fixpoint momZ (T : Topo) (e : list nat) : Z * Z :=
  match T with
  | Pt => (1, 1)
  | Pri b => let (n, d) := momZ b e in let k := nth (tdim b) e O in (n * factZ k, d * factZ (S k))
  | Pyr b => let (n, d) := momZ b e in let k := nth (tdim b) e O in
             let a := (tdim b + degL (tdim b) e)%nat in (n * (factZ a * factZ k), d * factZ (S (a + k)))
  end.

Definition leaf_ok (T : Topo) (tol : Z) (e : list nat) (s : list (Z * list Z)) : bool :=
  let (a, d) := momZ T e in Z.abs (sumN s * d - a * sc) <=? d * tol.

Fixpoint chkN (T : Topo) (tol : Z) (n : nat) (dleft : nat) (e : list nat) (s : list (Z * list Z)) {struct n} : bool :=
  match n with
  | O => leaf_ok T tol e s
  | S n' =>
      (fix loop (f k : nat) (s : list (Z * list Z)) {struct f} : bool :=
         match f with
         | O => true
         | S f' => chkN T tol n' f' (e ++ [k]) s && loop f' (S k) (map (stepN (length e)) s)
         end) (S dleft) O s
  end.

(** error bound [c] / 10^[k] *)
Definition tableN_ok (T : Topo) (deg : nat) (tol c k : Z) (data : QData) : bool :=
  forallb (fun xw => Nat.eqb (length (fst xw)) (tdim T) && insideQ T (fst xw) 1) data
  && (Z.of_nat (length data) * (5 * Z.of_nat deg + 2) <=? 40000)
  && ((tol + 40000) * 10 ^ k <=? c * sc) && (0 <=? k)
  && allN data (startN data)
  && chkN T tol (tdim T) deg [] (startN data).

End Checker.

(** ** Soundness *)
Local Open Scope R_scope.

Definition ptV (x : list Q) : Vec := fun k => Q2R (nth k x 0%Q).
Definition toPts (data : QData) : list QPoint := map (fun xw => (ptV (fst xw), Q2R (snd xw))) data.
Definition mono_l (e : list nat) (x : Vec) : R := monomial (length e) (fun k => nth k e O) x.
Definition sum_l (e : list nat) : nat := fold_right Nat.add O e.

Lemma mono_snoc e k x : mono_l (e ++ [k]) x = mono_l e x * x (length e) ^ k.
Proof.
  unfold mono_l. rewrite app_length, Nat.add_1_r. cbn [monomial].
  rewrite app_nth2, Nat.sub_diag by lia. cbn [nth]. f_equal.
  rewrite !monomial_mono. apply mono_ext; [|reflexivity]. intros j Hj. now rewrite app_nth1.
Qed.

Lemma sum_snoc e k : sum_l (e ++ [k]) = (sum_l e + k)%nat.
Proof. unfold sum_l. induction e as [|a e IH]; cbn; [lia|]. rewrite IH. lia. Qed.

Definition relN (e : list nat) (xw : list Q * Q) (vu : Z * list Z) : Prop :=
  let x := ptV (fst xw) in let w := Q2R (snd xw) in
  Rabs (IZR (fst vu) - scR * (w * mono_l e x)) <= 2 + 5 * INR (sum_l e)
  /\ Rabs w <= 2
  /\ (forall k, (k < length (fst xw))%nat -> 0 <= x k <= 1)
  /\ (forall k, (k < length (fst xw))%nat -> Rabs (IZR (nth k (snd vu) 0%Z) - scR * x k) <= 2
                                            /\ Rabs (IZR (nth k (snd vu) 0%Z)) <= scR).

Lemma mono_l_abs n e x : (length e <= n)%nat -> (forall k, (k < n)%nat -> 0 <= x k <= 1) -> 0 <= mono_l e x <= 1.
Proof.
  intros L H. unfold mono_l. revert L. generalize (fun k => nth k e O). generalize (length e). intros m f.
  induction m as [|m IH]; intros L; cbn [monomial]; [lra|].
  specialize (IH ltac:(lia)). pose proof (pow01 (x m) (f m) (H m ltac:(lia))). nra.
Qed.

Lemma step_relN e k xw vu : (length e < length (fst xw))%nat -> relN (e ++ [k]) xw vu ->
  relN (e ++ [S k]) xw (stepN (length e) vu).
Proof.
  destruct xw as [x w], vu as [v u]. unfold relN, stepN. cbn [fst snd].
  intros Hl (Hv & Hw & Hx & Hu). split; [|auto].
  pose proof (shift_R (v * nth (length e) u 0%Z)) as F. rewrite mult_IZR in F.
  destruct (Hu (length e) Hl) as [HU1 HU2]. pose proof (Hx (length e) Hl) as HX.
  assert (HM : 0 <= mono_l (e ++ [k]) (ptV x) <= 1).
  { apply (mono_l_abs (length x)); [rewrite app_length; cbn; lia|exact Hx]. }
  replace (mono_l (e ++ [S k]) (ptV x)) with (mono_l (e ++ [k]) (ptV x) * ptV x (length e)) by (rewrite !mono_snoc; simpl; ring).
  rewrite sum_snoc in *. replace (INR (sum_l e + S k)) with (INR (sum_l e + k) + 1) by (rewrite <- S_INR; f_equal; lia).
  set (X := ptV x (length e)) in *. set (W := Q2R w) in *. set (P := mono_l (e ++ [k]) (ptV x)) in *.
  pose proof scR_pos as SP. set (s := scR) in *. set (V := IZR v) in *. set (U := IZR (nth (length e) u 0%Z)) in *.
  assert (E : V * U / s - s * (W * (P * X)) = (V - s * (W * P)) * (U / s) + W * P * (U - s * X)) by (field; lra).
  assert (HU : Rabs (U / s) <= 1).
  { unfold Rdiv. rewrite Rabs_mult, (Rabs_right (/ s)) by (apply Rle_ge, Rlt_le, Rinv_0_lt_compat, SP).
    apply Rmult_le_reg_r with s; [assumption|]. rewrite Rmult_assoc, Rinv_l by lra. lra. }
  assert (B1 : Rabs ((V - s * (W * P)) * (U / s)) <= (2 + 5 * INR (sum_l e + k)) * 1).
  { rewrite Rabs_mult. apply Rmult_le_compat; auto using Rabs_pos. }
  assert (B2 : Rabs (W * P * (U - s * X)) <= 2 * 2).
  { rewrite Rabs_mult. apply Rmult_le_compat; auto using Rabs_pos.
    rewrite Rabs_mult. apply Rle_trans with (2 * 1); [|lra].
    apply Rmult_le_compat; auto using Rabs_pos. rewrite Rabs_right; lra. }
  assert (B : Rabs (V * U / s - s * (W * (P * X))) <= (2 + 5 * INR (sum_l e + k)) + 4).
  { rewrite E. eapply Rle_trans; [apply Rabs_triang|]. lra. }
  apply Rabs_le_between in B. apply Rabs_le. lra.
Qed.

Lemma Forall2_stepN e k data s : (forall xw, In xw data -> (length e < length (fst xw))%nat) ->
  Forall2 (relN (e ++ [k])) data s -> Forall2 (relN (e ++ [S k])) data (map (stepN (length e)) s).
Proof.
  intros H F. induction F; cbn [map]; constructor.
  - apply step_relN; [apply H; now left|assumption].
  - apply IHF. intros xw I. apply H. now right.
Qed.

Lemma relN_snoc0 e xw vu : relN e xw vu -> relN (e ++ [O]) xw vu.
Proof.
  unfold relN. cbv zeta. rewrite mono_snoc, sum_snoc, Nat.add_0_r, pow_O, Rmult_1_r. auto.
Qed.

Lemma sumN_rel e data s : Forall2 (relN e) data s ->
  Rabs (IZR (sumN s) - scR * quad (toPts data) (mono_l e)) <= INR (length data) * (2 + 5 * INR (sum_l e)).
Proof.
  induction 1 as [|[x w] [v u] data s H HH IH].
  - cbn [sumN fold_right quad toPts map length INR]. rewrite Rmult_0_r, Rmult_0_l, Rminus_0_r, Rabs_R0. lra.
  - cbn [length toPts map quad fst snd]. unfold sumN in *. cbn [fold_right fst]. rewrite plus_IZR, S_INR.
    destruct H as (Hv & _). cbn [fst snd] in Hv. fold (toPts data).
    apply Rabs_le_between in IH. apply Rabs_le_between in Hv. apply Rabs_le. lra.
Qed.

(** the exact moments *)
Lemma factZ_fact n : IZR (factZ n) = INR (fact n).
Proof.
  induction n as [|n IH]; [reflexivity|].
  change (factZ (S n)) with (Z.of_nat (S n) * factZ n)%Z. rewrite fact_simpl, mult_IZR, mult_INR, IH, <- INR_IZR_INZ. reflexivity.
Qed.
Lemma factZ_pos n : (0 < factZ n)%Z.
Proof. induction n as [|n IH]; [reflexivity|]. change (factZ (S n)) with (Z.of_nat (S n) * factZ n)%Z. nia. Qed.

Lemma bmom0 a b : bmom 0 a b = IZR (factZ a) * IZR (factZ b) / IZR (factZ (S (a + b))).
Proof. rewrite bmom_Beta, Nat.add_0_r, Beta_val, !factZ_fact. simpl. lra. Qed.

Lemma momZ_R T e : (0 < snd (momZ T e))%Z /\ momW 0 T (fun k => nth k e O) = IZR (fst (momZ T e)) / IZR (snd (momZ T e)).
Proof.
  induction T as [|b [IH1 IH2]|b [IH1 IH2]]; cbn [momZ momW].
  - cbn. split; [lia|lra].
  - destruct (momZ b e) as [n d]. cbn [fst snd] in *. set (k := nth (tdim b) e O).
    pose proof (factZ_pos k) as P1. pose proof (factZ_pos (S k)) as P2. split; [nia|].
    rewrite IH2, bmom0. change (0 + k)%nat with k. change (factZ 0) with 1%Z. rewrite !mult_IZR.
    apply IZR_lt in IH1, P1, P2. field. split; lra.
  - destruct (momZ b e) as [n d]. cbn [fst snd] in *. set (k := nth (tdim b) e O). unfold degL.
    set (a := (tdim b + degree (tdim b) (fun k => nth k e O))%nat).
    pose proof (factZ_pos (S (a + k))) as P2. split; [nia|].
    rewrite IH2, bmom0, !mult_IZR. apply IZR_lt in IH1, P2. field. split; lra.
Qed.

Lemma leaf_R T tol e data s bound : Forall2 (relN e) data s -> leaf_ok T tol e s = true ->
  (Z.of_nat (length data) * (5 * Z.of_nat (sum_l e) + 2) <= 40000)%Z ->
  IZR (tol + 40000) <= bound * scR ->
  Rabs (quad (toPts data) (mono_l e) - momW 0 T (fun k => nth k e O)) <= bound.
Proof.
  intros F H Hn HB. unfold leaf_ok in H. destruct (momZ_R T e) as [DP M]. destruct (momZ T e) as [N D]. cbn [fst snd] in *.
  rewrite M. apply Z.leb_le in H. apply IZR_le in H. rewrite abs_IZR, minus_IZR, !mult_IZR in H. fold scR in H.
  pose proof (sumN_rel _ _ _ F) as B. apply IZR_lt in DP. rewrite plus_IZR in HB.
  set (DD := IZR D) in *. set (NN := IZR N) in *. set (Q := quad (toPts data) (mono_l e)) in *. set (V := IZR (sumN s)) in *.
  pose proof scR_pos as SP.
  assert (A : Rabs (V - scR * (NN / DD)) <= IZR tol).
  { replace (V - scR * (NN / DD)) with ((V * DD - NN * scR) / DD) by (field; lra).
    unfold Rdiv. rewrite Rabs_mult, (Rabs_right (/ DD)) by (apply Rle_ge, Rlt_le, Rinv_0_lt_compat, DP).
    apply Rmult_le_reg_r with DD; [assumption|]. rewrite Rmult_assoc, Rinv_l by lra. lra. }
  assert (B2 : INR (length data) * (2 + 5 * INR (sum_l e)) <= 40000).
  { rewrite !INR_IZR_INZ. replace (2 + 5 * IZR (Z.of_nat (sum_l e))) with (IZR (5 * Z.of_nat (sum_l e) + 2)) by (rewrite plus_IZR, mult_IZR; ring).
    rewrite <- mult_IZR. apply IZR_le. lia. }
  apply Rabs_le_between in A. apply Rabs_le_between in B.
  assert (C : Rabs (scR * (Q - NN / DD)) <= bound * scR) by (apply Rabs_le; lra).
  rewrite Rabs_mult, (Rabs_right scR) in C by lra.
  apply Rmult_le_reg_l with scR; [assumption|]. lra.
Qed.

Lemma chkN_R T tol deg data bound :
  (Z.of_nat (length data) * (5 * Z.of_nat deg + 2) <= 40000)%Z -> IZR (tol + 40000) <= bound * scR ->
  (forall xw, In xw data -> length (fst xw) = tdim T) ->
  forall n dleft e s, Forall2 (relN e) data s -> chkN T tol n dleft e s = true ->
    (length e + n = tdim T)%nat -> (sum_l e + dleft <= deg)%nat ->
    forall e', length e' = n -> (sum_l e' <= dleft)%nat ->
    Rabs (quad (toPts data) (mono_l (e ++ e')) - momW 0 T (fun k => nth k (e ++ e') O)) <= bound.
Proof.
  intros Hn HB HL. induction n as [|n IH]; intros dleft e s F H Hlen Hd e' Le He.
  - destruct e'; [|discriminate]. rewrite app_nil_r. eapply leaf_R; eauto. nia.
  - destruct e' as [|k' e']; [discriminate|]. injection Le as Le. cbn [chkN] in H.
    assert (G : forall f k s, Forall2 (relN (e ++ [k])) data s -> (f + k = S dleft)%nat ->
      (fix loop (f k : nat) (s : list (Z * list Z)) {struct f} : bool :=
         match f with
         | O => true
         | S f' => chkN T tol n f' (e ++ [k]) s && loop f' (S k) (map (stepN (length e)) s)
         end) f k s = true -> (k <= k')%nat ->
      Rabs (quad (toPts data) (mono_l (e ++ k' :: e')) - momW 0 T (fun j => nth j (e ++ k' :: e') O)) <= bound).
    { clear s F H. induction f as [|f IHf]; intros k s F Hf H Hk.
      - change (sum_l (k' :: e')) with (k' + sum_l e')%nat in He. lia.
      - apply andb_true_iff in H. destruct H as [H1 H2].
        destruct (Nat.eq_dec k k') as [->|Ne].
        + replace (e ++ k' :: e') with ((e ++ [k']) ++ e') by (rewrite <- app_assoc; reflexivity).
          apply (IH f (e ++ [k']) s F H1); [rewrite app_length; cbn; lia|rewrite sum_snoc; lia|exact Le|].
          change (sum_l (k' :: e')) with (k' + sum_l e')%nat in He. lia.
        + apply (IHf (S k) (map (stepN (length e)) s)); [|lia|exact H2|lia].
          apply Forall2_stepN; [|exact F]. intros xw I. rewrite (HL xw I). lia. }
    apply (G (S dleft) O s); [|lia|exact H|lia].
    clear - F. induction F; constructor; auto using relN_snoc0.
Qed.

(** the initial approximations and the points *)
Lemma Qle_R a b : Qle_bool a b = true -> Q2R a <= Q2R b.
Proof. intros H. apply Qle_Rle. now apply Qle_bool_iff. Qed.

Lemma insideQ_R T : forall x a, insideQ T x a = true -> insideT T (ptV x) (Q2R a).
Proof.
  assert (Z0 : Q2R 0 = 0) by (unfold Q2R; cbn; lra).
  induction T as [|b IH|b IH]; intros x a H; cbn [insideQ insideT] in *; [exact I| |];
    rewrite !andb_true_iff in H; destruct H as [[H1 H2] H3]; apply Qle_R in H1, H2; rewrite Z0 in H1;
    (split; [split; assumption|]); [now apply IH|].
  apply IH in H3. rewrite (Qeq_eqR _ _ (Qred_correct _)), Q2R_minus in H3. exact H3.
Qed.

Lemma startN_rel T data s : forall (HD : forall xw, In xw data -> length (fst xw) = tdim T /\ insideQ T (fst xw) 1 = true),
  allN data s = true -> Forall2 (relN []) data s.
Proof.
  revert s. induction data as [|[x w] data IH]; intros [|[v u] s] HD H; cbn [allN] in *; try discriminate; [constructor|].
  apply andb_true_iff in H. destruct H as [H1 H2].
  constructor; [|apply IH; [intros; apply HD; now right|assumption]].
  unfold vuN_ok in H1. rewrite !andb_true_iff, Z.leb_le, Nat.eqb_eq in H1. destruct H1 as (((A & B) & C) & D).
  destruct (HD (x, w) (or_introl eq_refl)) as [L I1]. unfold relN. cbn [fst snd] in *.
  apply fx_ok_R in A. apply insideQ_R in I1.
  assert (Z1 : Q2R 1 = 1) by (unfold Q2R; cbn; lra). rewrite Z1 in I1.
  split; [|split; [|split]].
  - unfold mono_l. cbn [length monomial sum_l fold_right INR]. rewrite Rmult_1_r.
    change (IZR (Qnum w) / IZR (Zpos (Qden w))) with (Q2R w) in A. simpl. lra.
  - unfold Q2R. apply IZR_le in B. rewrite abs_IZR, mult_IZR in B.
    assert (DP : 0 < IZR (Zpos (Qden w))) by (now apply IZR_lt).
    rewrite Rabs_mult, (Rabs_right (/ _)) by (apply Rle_ge, Rlt_le, Rinv_0_lt_compat, DP).
    apply Rmult_le_reg_r with (IZR (Zpos (Qden w))); [assumption|]. rewrite Rmult_assoc, Rinv_l by lra. lra.
  - intros k Hk. apply (insideT_bound T _ 1 k); [lra|exact I1|lia].
  - intros k Hk. rewrite forallb_forall in D. specialize (D (nth k x 0%Q, nth k u 0%Z)).
    assert (I : In (nth k x 0%Q, nth k u 0%Z) (combine x u)).
    { rewrite <- combine_nth by (symmetry; exact C). apply nth_In. rewrite combine_length. lia. }
    specialize (D I). cbn [fst snd] in D. rewrite andb_true_iff, Z.leb_le in D. destruct D as [D1 D2].
    apply fx_ok_R in D1. apply IZR_le in D2. rewrite abs_IZR in D2. split; [exact D1|exact D2].
Qed.

Lemma degree_sum n f : degree n f = sum_l (map f (seq 0 n)).
Proof.
  induction n as [|n IH]; [reflexivity|]. cbn [degree]. rewrite seq_S, map_app, IH. cbn [map]. rewrite sum_snoc. reflexivity.
Qed.

Lemma tableN_R T deg tol c k data : tableN_ok T deg tol c k data = true ->
  momExact 0 T deg (IZR c / IZR (10 ^ k)) (toPts data) /\ insidePts T (toPts data).
Proof.
  intros H. unfold tableN_ok in H. rewrite !andb_true_iff, !Z.leb_le in H. destruct H as (((((A & B) & C) & K) & D) & E).
  rewrite forallb_forall in A.
  assert (HD : forall xw, In xw data -> length (fst xw) = tdim T /\ insideQ T (fst xw) 1 = true).
  { intros xw I. specialize (A xw I). rewrite andb_true_iff, Nat.eqb_eq in A. exact A. }
  split.
  - intros e De. set (l := map e (seq 0 (tdim T))).
    assert (L : length l = tdim T) by (unfold l; now rewrite map_length, seq_length).
    assert (N : forall j, (j < tdim T)%nat -> nth j l O = e j).
    { intros j Hj. unfold l. rewrite (nth_indep _ _ (e O)) by (now rewrite map_length, seq_length). rewrite map_nth, seq_nth by lia. reflexivity. }
    assert (P10 : 0 < IZR (10 ^ k)) by (apply IZR_lt, Z.pow_pos_nonneg; lia).
    assert (R := chkN_R T tol deg data (IZR c / IZR (10 ^ k)) B).
    assert (HB : IZR (tol + 40000) <= IZR c / IZR (10 ^ k) * scR).
    { apply IZR_le in C. rewrite !mult_IZR in C. fold scR in C.
      apply Rmult_le_reg_r with (IZR (10 ^ k)); [assumption|].
      replace (IZR c / IZR (10 ^ k) * scR * IZR (10 ^ k)) with (IZR c * scR) by (field; lra). exact C. }
    specialize (R HB (fun xw I => proj1 (HD xw I)) (tdim T) deg [] (startN data) (startN_rel T data _ HD D) E eq_refl ltac:(cbn; lia) l L).
    rewrite degree_sum in De. specialize (R De). cbn [app] in R.
    replace (momW 0 T e) with (momW 0 T (fun k => nth k l O)).
    + rewrite (quad_ext _ _ (mono_l l)); [exact R|]. intros x. unfold mono_l. rewrite L, !monomial_mono.
      apply mono_ext; [|reflexivity]. intros j Hj. symmetry. now apply N.
    + clear - N. assert (G : forall (S0 : Topo), (tdim S0 <= tdim T)%nat -> momW 0 S0 (fun k => nth k l O) = momW 0 S0 e).
      { assert (DG : forall n, (n <= tdim T)%nat -> degree n (fun k => nth k l O) = degree n e).
        { induction n as [|n IH]; intros Hn; cbn [degree]; [reflexivity|]. rewrite IH, N by lia. reflexivity. }
        induction S0 as [|b IH|b IH]; intros HS; cbn [momW tdim] in *; [reflexivity| |]; rewrite IH, N, ?DG by lia; reflexivity. }
      now apply G.
  - intros q I. unfold toPts in I. apply in_map_iff in I. destruct I as (xw & <- & I). cbn [fst].
    destruct (HD xw I) as [_ I1]. apply insideQ_R in I1. replace (Q2R 1) with 1 in I1 by (unfold Q2R; cbn; lra). exact I1.
Qed.
