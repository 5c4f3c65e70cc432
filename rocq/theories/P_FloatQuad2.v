(** Lemmas for C67: every floating point rule against the exact rule. *)
From Coq Require Import PeanoNat NArith ZArith QArith Qreals Bool List Reals Lra Lia.
From Flocq Require Import Core IEEE754.BinarySingleNaN.
From Verif Require Import M_Type M_TypeIndex M_RefGeo M_Matrix M_Float M_QuadFactory M_Quadrature M_FloatQuad M_Tab M_TabGauss M_TabLobatto
  M_TabRadauLeft M_TabRadauRight M_TabJacobi1 M_TabJacobi2 M_TabSimplex S_Topo S_QuadND S_FloatQuad P_RSum P_RefGeo2 P_Float P_FloatNear P_FloatQuad
  P_QuadProd P_QuadFix P_QuadFixN P_QuadRules P_QuadFactory P_TabSimplex P_TabGauss P_TabJacobi1 P_TabJacobi2 P_TabLobatto P_TabRadauLeft P_TabRadauRight P_QuadAll.
Import ListNotations.
Local Open Scope R_scope.

Lemma insideT_01 T : forall x a, 0 <= a <= 1 -> insideT T x a -> forall k, (k < tdim T)%nat -> 0 <= x k <= 1.
Proof.
  induction T as [|b IH|b IH]; intros x a Ha H k Hk; cbn [insideT tdim] in *; [lia| |]; destruct H as [H1 H2];
    (destruct (Nat.eq_dec k (tdim b)) as [->|N]; [lra|]).
  - apply (IH x a); auto. lia.
  - apply (IH x (a - x (tdim b))); auto; [lra|lia].
Qed.
Lemma quad_const1 pts : quad pts (fun _ => 1) = lsum snd pts.
Proof. induction pts as [|q pts IH]; [reflexivity|]. cbn [quad]. rewrite IH, lsum_cons. ring. Qed.
Lemma mass_nonneg pts : nonnegW pts -> lsum (fun q => Rabs (snd q)) pts = lsum snd pts.
Proof. intros H. apply lsum_ext. intros q I. apply Rabs_pos_eq, H, I. Qed.
Lemma good1_mass e alpha shift p r : good1 e alpha shift p r -> lsum (fun q => Rabs (snd q)) (ru_points r) <= Cw alpha + e.
Proof.
  intros (_ & B & _ & D & _). rewrite mass_nonneg, <- quad_const1 by exact D.
  specialize (B 0%nat 0%nat ltac:(lia)). rewrite (quad_ext _ _ (fun _ => 1)) in B by (intros; cbn; ring).
  pose proof (bmom_abs alpha (0 + shift) 0) as M. apply Rabs_le_inv in B. apply Rabs_le_inv in M. lra.
Qed.
Lemma momExact_mass T n E pts : momExact 0 T n E pts -> nonnegW pts -> lsum (fun q => Rabs (snd q)) pts <= 1 + E.
Proof.
  intros M D. rewrite mass_nonneg, <- quad_const1 by exact D.
  assert (Dg : forall d, degree d (fun _ => 0%nat) = 0%nat) by (induction d as [|d IH]; cbn; lia).
  assert (Mn : forall d x, monomial d (fun _ => 0%nat) x = 1) by (induction d as [|d IH]; intros; cbn; [reflexivity|rewrite IH; ring]).
  specialize (M (fun _ => 0%nat) ltac:(rewrite Dg; lia)). rewrite (quad_ext _ _ (fun _ => 1)) in M by (intros; apply Mn).
  pose proof (momW_abs 0 T (fun _ => 0%nat)) as Q. rewrite Cw0, pow1 in Q. apply Rabs_le_inv in M. apply Rabs_le_inv in Q. lra.
Qed.

(** no rule has more than 64 points in one dimension *)
Definition tabLen (tab : list Entry) : bool := forallb (fun e => Nat.leb (length (en_data e)) 64) tab.
Lemma tabLen_ok : tabLen gaussTable && tabLen jacobi1Table && tabLen jacobi2Table && tabLen lobattoTable && tabLen radauLeftTable && tabLen radauRightTable = true.
Proof. reflexivity. Qed.
Lemma switchOn_In tab p en : switchOn tab p = Some en -> In en tab.
Proof.
  induction tab as [|x tab IH]; cbn [switchOn]; [discriminate|]. destruct (existsb _ _).
  - intros E. injection E as ->. now left.
  - intros E. right. now apply IH.
Qed.
Lemma switchOn_len tab p en : tabLen tab = true -> switchOn tab p = Some en -> (length (en_data en) <= 64)%nat.
Proof.
  intros T E. unfold tabLen in T. rewrite forallb_forall in T. apply Nat.leb_le. apply T. now apply switchOn_In in E.
Qed.

Section FQ2.
Variables (prec emax : Z).
Context (Hp : Prec_gt_0 prec) (He : Prec_lt_emax prec emax).
Hypothesis H2 : (2 <= prec)%Z.
Variable K : R.
Hypothesis HK : 0 <= K.
Notation float := (binary_float prec emax).
Notation u := (bpow radix2 (- prec)).
Notation eta := (P_FloatNear.eta prec emax).
Notation "a [*] b" := (fmul prec emax Hp He a b) (at level 40).
Notation FQPoint := (M_FloatQuad.FQPoint prec emax).
Notation c := (2 * K + 3).
Notation top := (bpow radix2 (emax - 1)).
Notation rok := (P_FloatQuad.rok prec emax K).
Notation pok := (P_FloatQuad.pok prec emax K).
Notation wok := (P_FloatQuad.wok prec emax).

Variable e : R.
Hypothesis E1 : eps1 <= e.
Hypothesis E2 : e <= / 10.
Variable lapack : Z -> nat -> option (list (R * R)).
Hypothesis Hl : lapackOk e lapack.
Variable lit : Q -> float.
Hypothesis Hlit : litOk prec emax K lit.
Variable lapackF : Z -> nat -> option (list (float * float)).
Hypothesis HlF : lapackFOk prec emax K lapack lapackF.

Lemma Cw_le qt : 1 <= Cw (weightExp qt) <= 4 / 3.
Proof. unfold Cw, weightExp. destruct qt as [|[|[|qt]]]; cbn; lra. Qed.
Lemma mass_le qt : 1 <= massBound qt e <= 2.
Proof. unfold massBound. pose proof (Cw_le qt). pose proof eps1_pos. lra. Qed.
Lemma mass_2 qt : 11 / 10 <= massBound qt e.
Proof. unfold massBound. pose proof (Cw_le qt). pose proof eps1_pos. lra. Qed.

(** rules whose numbers are converted *)
Lemma converted_rok d A (L : list (FQPoint * QPoint)) :
  (forall p, In p L -> (forall k, (k < d)%nat -> 0 <= fst (snd p) k <= 1 /\ converted prec emax K (fst (snd p) k) (fst (fst p) k))
     /\ converted prec emax K (snd (snd p)) (snd (fst p))) ->
  lsum (fun p => Rabs (snd (snd p))) L <= A -> 1 <= A -> INR (length L) * eta <= u -> rok d A 1 L.
Proof.
  intros H S A1 N. pose proof (u_pos prec) as U. split.
  - intros p I k Hk. destruct (H p I) as (P & _). destruct (P k Hk) as (P0 & F & _ & P1). destruct (P1 P0) as (P2 & P3).
    split; [exact F|]. split; [exact P2|]. split; [exact P0|]. unfold P_FloatQuad.delta.
    eapply Rle_trans; [exact P3|]. apply Rmult_le_compat_r; [lra|].
    assert (0 <= INR (d - 1 - k) * (K + 2)) by (apply Rmult_le_pos; [apply pos_INR|lra]). lra.
  - split; [intros p I; now apply (H p I)|]. split; [exact S|].
    apply Rle_trans with (lsum (fun p => K * (u * Rabs (snd (snd p)) + eta)) L).
    { apply lsum_le. intros p I. now apply (H p I). }
    rewrite (lsum_scal K), lsum_plus, (lsum_scal u), lsum_const, pow_1.
    assert (u * lsum (fun p => Rabs (snd (snd p))) L <= u * A) by (apply Rmult_le_compat_l; lra).
    apply Rle_trans with (K * (u * A + u * A)).
    + apply Rmult_le_compat_l; [exact HK|]. assert (u * 1 <= u * A) by (apply Rmult_le_compat_l; lra).
      apply Rplus_le_compat; [exact H0|]. apply Rle_trans with u; [exact N|lra].
    + assert (0 <= A * u) by (apply Rmult_le_pos; lra). nra.
Qed.

(** the relation between a rule and its floating point counterpart *)
Definition sameRule (d n m : nat) (A : R) (r : option Rule) (rf : option (FRule prec emax)) : Prop :=
  match r, rf with
  | None, None => True
  | Some x, Some y => fr_type prec emax y = ru_type x /\ fr_order prec emax y = ru_order x
      /\ exists L, map fst L = fr_points prec emax y /\ map snd L = ru_points x /\ rok d A m L /\ (length L <= n)%nat
  | _, _ => False
  end.

Lemma map_fst_pair {A B C} (f : A -> B) (g : A -> C) l : map fst (map (fun x => (f x, g x)) l) = map f l.
Proof. rewrite map_map. reflexivity. Qed.
Lemma map_snd_pair {A B C} (f : A -> B) (g : A -> C) l : map snd (map (fun x => (f x, g x)) l) = map g l.
Proof. rewrite map_map. reflexivity. Qed.
Lemma lsum_snd {A} (g : A -> QPoint) (f : A -> FQPoint) l S :
  lsum (fun q => Rabs (snd q)) (map g l) <= S -> lsum (fun p => Rabs (snd (snd p))) (map (fun x => (f x, g x)) l) <= S.
Proof. rewrite !lsum_map. intros H. exact H. Qed.
Lemma mass_each (pts : list QPoint) S q : lsum (fun q => Rabs (snd q)) pts <= S -> In q pts -> Rabs (snd q) <= S.
Proof. intros H I. eapply Rle_trans; [|exact H]. apply (lsum_mem (fun q => Rabs (snd q))); [intros; apply Rabs_pos|exact I]. Qed.

Hypothesis N1 : INR 64 * eta <= u.
Lemma N1_le n : (n <= 64)%nat -> INR n * eta <= u.
Proof.
  intros H. eapply Rle_trans; [|exact N1]. apply Rmult_le_compat_r; [apply Rlt_le, eta_pos|]. now apply le_INR.
Qed.

Lemma table_same (A : R) tab p : tabLen tab = true -> 1 <= A ->
  (forall r, tableRule tab p = Some r -> unitPts (ru_points r) /\ lsum (fun q => Rabs (snd q)) (ru_points r) <= Rmin A 2) ->
  sameRule 1 64 1 A (tableRule tab p) (tableRuleF prec emax lit tab p).
Proof.
  intros TL A1 H. unfold tableRule, tableRuleF in *. destruct (switchOn tab p) as [en|] eqn:E; [|exact I].
  destruct (H _ eq_refl) as (P & M). cbn [ru_points] in P, M.
  split; [reflexivity|]. split; [reflexivity|].
  exists (map (fun xw => ((fvec1 prec emax (lit (fst xw)), lit (snd xw)), (vec1 (Q2R (fst xw)), Q2R (snd xw)))) (en_data en)).
  cbn [fr_points ru_points]. split; [apply map_fst_pair|]. split; [apply map_snd_pair|].
  pose proof (switchOn_len tab p en TL E) as LN. split; [|now rewrite map_length].
  apply converted_rok; [| |exact A1|rewrite map_length; now apply N1_le].
  - intros q I. apply in_map_iff in I. destruct I as (xw & <- & I). cbn [fst snd].
    assert (IP : In ((vec1 (Q2R (fst xw)), Q2R (snd xw)) : QPoint) (map (fun xw => (vec1 (Q2R (fst xw)), Q2R (snd xw))) (en_data en))).
    { apply in_map_iff. now exists xw. }
    split.
    + intros k Hk. replace k with 0%nat by lia. cbn [fvec1 vec1]. specialize (P _ IP). cbn [fst vec1] in P. split; [exact P|].
      apply Hlit. rewrite Rabs_pos_eq; lra.
    + apply Hlit. pose proof (mass_each _ _ _ M IP) as Q. cbn [snd] in Q. pose proof (Rmin_r A 2). lra.
  - apply lsum_snd. eapply Rle_trans; [exact M|apply Rmin_l].
Qed.

Lemma good_table alpha (A : R) gap hi tab p : (alpha <= 2)%nat -> Cw alpha + e <= Rmin A 2 -> tabLen tab = true -> tab_ok alpha gap hi tab = true -> 1 <= A ->
  sameRule 1 64 1 A (tableRule tab p) (tableRuleF prec emax lit tab p).
Proof.
  intros Ha HA TL T A1. apply table_same; try assumption. intros r H.
  pose proof (table_good e E1 alpha gap hi tab p r Ha T H) as G. split; [apply G|]. eapply Rle_trans; [apply (good1_mass _ _ _ _ _ G)|exact HA].
Qed.

Lemma half_val : B2R (fhalf prec emax Hp He) = / 2 /\ is_finite (fhalf prec emax Hp He) = true.
Proof.
  unfold fhalf. pose proof (binary_normalize_correct prec emax Hp He mode_NE 1 (-1) false) as C. cbn zeta in C.
  replace (F2R {| Fnum := 1; Fexp := -1 |} : R) with (/ 2) in C by (unfold F2R; cbn; lra).
  rewrite round_generic in C; [| typeclasses eauto|].
  - rewrite Rlt_bool_true in C; [tauto|]. rewrite Rabs_pos_eq by lra. apply Rle_lt_trans with 1; [lra|].
    change 1 with (bpow radix2 0). apply bpow_lt. pose proof (prec_emax prec emax He). lia.
  - change (/ 2) with (bpow radix2 (-1)). apply format_bpow; try assumption. pose proof (prec_emax prec emax He). lia.
Qed.
Lemma quarter_val : B2R (fquarter prec emax Hp He) = / 4 /\ is_finite (fquarter prec emax Hp He) = true.
Proof.
  unfold fquarter. pose proof (binary_normalize_correct prec emax Hp He mode_NE 1 (-2) false) as C. cbn zeta in C.
  replace (F2R {| Fnum := 1; Fexp := -2 |} : R) with (/ 4) in C by (unfold F2R; cbn; lra).
  rewrite round_generic in C; [| typeclasses eauto|].
  - rewrite Rlt_bool_true in C; [tauto|]. rewrite Rabs_pos_eq by lra. apply Rle_lt_trans with 1; [lra|].
    change 1 with (bpow radix2 0). apply bpow_lt. pose proof (prec_emax prec emax He). lia.
  - replace (/ 4) with (bpow radix2 (-2)) by reflexivity. apply format_bpow; try assumption. pose proof (prec_emax prec emax He). lia.
Qed.

(** the Jacobi tables with halved and quartered weights *)
Lemma scaled_same (alpha : nat) (h : R) (hf : float) tab p : (alpha = 1 \/ alpha = 2)%nat -> h * 2 ^ alpha = 1 -> tab_ok alpha 1 61 tab = true -> tabLen tab = true ->
  B2R hf = h -> is_finite hf = true -> forall r, tableRule tab p = Some r ->
  exists rf, tableRuleF prec emax lit tab p = Some rf
  /\ exists L, map fst L = scaleWeightsF prec emax Hp He hf (fr_points prec emax rf) /\ map snd L = scaleWeights h (ru_points r) /\ rok 1 (11 / 10) 1 L /\ (length L <= 64)%nat.
Proof.
  intros Ha Hh T TL V F r HT. pose proof (u_pos prec) as U. pose proof (eta_pos prec emax) as P.
  assert (U4 : u <= / 4).
  { replace (/ 4) with (bpow radix2 (-2)) by reflexivity. apply bpow_le. lia. }
  assert (Hh2 : 0 < h <= / 2) by (destruct Ha as [-> | ->]; cbn in Hh; lra).
  assert (CA : Cw alpha <= 4 / 3) by (destruct Ha as [-> | ->]; unfold Cw; cbn; lra).
  assert (SM : sameRule 1 64 1 2 (tableRule tab p) (tableRuleF prec emax lit tab p)).
  { refine (good_table alpha 2 1 61 tab p _ _ TL T _); [lia| |lra]. rewrite Rmin_left by lra. lra. }
  pose proof (table_good e E1 alpha 1 61 tab p r ltac:(lia) T HT) as G. pose proof (good1_mass _ _ _ _ _ G) as M2.
  destruct (scaled_good e E1 alpha tab p h r ltac:(lia) T HT Hh ltac:(lra)) as (Q1 & Q2 & Q3 & Q4). cbv zeta in *.
  (* the error of the unscaled table, from its entries *)
  unfold tableRule in HT. unfold tableRuleF. destruct (switchOn tab p) as [en|] eqn:En; [|discriminate]. injection HT as <-. clear SM.
  cbn [ru_points] in *. eexists. split; [reflexivity|]. cbn [fr_points]. pose proof (switchOn_len tab p en TL En) as LN.
  set (data := en_data en) in *.
  set (wf := fun xw : Q * Q => lit (snd xw)). set (w := fun xw : Q * Q => Q2R (snd xw)).
  exists (map (fun xw => ((fvec1 prec emax (lit (fst xw)), hf [*] wf xw), (vec1 (Q2R (fst xw)), h * w xw))) data).
  unfold scaleWeightsF, scaleWeights. rewrite !map_map. split; [reflexivity|]. split; [reflexivity|]. split; [|now rewrite map_length].
  assert (MD : lsum (fun xw => Rabs (w xw)) data <= 2) by (rewrite lsum_map in M2; eapply Rle_trans; [exact M2|lra]).
  assert (W2 : forall xw, In xw data -> Rabs (w xw) <= 2).
  { intros xw I. eapply Rle_trans; [|exact MD]. apply (lsum_mem (fun xw => Rabs (w xw))); [intros; apply Rabs_pos|exact I]. }
  assert (CV : forall xw, In xw data -> converted prec emax K (w xw) (wf xw)) by (intros; now apply Hlit, W2).
  assert (FM : forall xw, In xw data -> B2R (hf [*] wf xw) = round radix2 (SpecFloat.fexp prec emax) (round_mode mode_NE) (h * B2R (wf xw)) /\ is_finite (hf [*] wf xw) = true).
  { intros xw I. destruct (CV xw I) as (C1 & C2 & _). rewrite <- V. apply fmul_ok; auto. rewrite V, Rabs_mult, (Rabs_pos_eq h) by lra.
    (* |lit| is at most 2 + K (2 u + eta); that is too weak to exclude overflow for large K, so use the format *)
    pose proof (abs_B2R_le_emax_minus_prec prec emax Hp (wf xw)) as B. pose proof (Rabs_pos (B2R (wf xw))).
    apply Rle_trans with (/ 2 * bpow radix2 emax).
    - apply Rmult_le_compat; try lra. eapply Rle_trans; [exact B|]. pose proof (bpow_gt_0 radix2 (emax - prec)). lra.
    - replace (/ 2) with (bpow radix2 (-1)) by reflexivity. rewrite <- bpow_plus. apply Req_le. f_equal. lia. }
  split.
  - intros q I. apply in_map_iff in I. destruct I as (xw & <- & I). intros k Hk. cbn [fst snd]. replace k with 0%nat by lia. cbn [fvec1 vec1].
    assert (P01 : 0 <= Q2R (fst xw) <= 1).
    { pose proof (proj1 (proj2 (proj2 G)) (vec1 (Q2R (fst xw)), w xw)) as X. cbn [fst vec1 ru_points] in X. apply X. apply in_map_iff. now exists xw. }
    destruct (Hlit (fst xw) ltac:(rewrite Rabs_pos_eq; lra)) as (C1 & _ & C3). destruct (C3 P01) as (C4 & C5).
    split; [exact C1|]. split; [exact C4|]. split; [exact P01|]. rewrite (delta_top prec K 0). exact C5.
  - apply wok_map. cbn [fst snd]. split; [intros xw I; now apply FM|].
    assert (SC : lsum (fun xw => Rabs (h * w xw)) data = h * lsum (fun xw => Rabs (w xw)) data).
    { rewrite <- lsum_scal. apply lsum_ext. intros xw _. rewrite Rabs_mult, (Rabs_pos_eq h) by lra. reflexivity. }
    assert (MS : lsum (fun xw => Rabs (h * w xw)) data <= 11 / 10).
    { specialize (Q2 0%nat 0%nat ltac:(lia)). rewrite (quad_ext _ _ (fun _ => 1)) in Q2 by (intros; cbn; ring).
      rewrite quad_const1 in Q2. pose proof (bmom_abs 0 (0 + alpha) 0) as B. rewrite Cw0 in B. apply Rabs_le_inv in B. apply Rabs_le_inv in Q2.
      apply Rle_trans with (lsum snd (scaleWeights h (map (fun xw => (vec1 (Q2R (fst xw)), Q2R (snd xw))) data))); [|lra].
      rewrite <- mass_nonneg by exact Q4. unfold scaleWeights. rewrite !lsum_map. apply Rle_refl. }
    split; [exact MS|].
    apply Rle_trans with (lsum (fun xw => (h * (1 + u)) * (K * (u * Rabs (w xw) + eta)) + (u * (h * Rabs (w xw)) + eta)) data).
    { apply lsum_le. intros xw I. destruct (FM xw I) as (-> & _). destruct (CV xw I) as (_ & C2 & _). change (bpow radix2 (2 - emax - prec)) with eta in C2.
      set (a := B2R (wf xw)) in *. pose proof (rnd_rel prec emax Hp (h * a)) as R1.
      pose proof (Rabs_triang (w xw) (a - w xw)) as T1. replace (w xw + (a - w xw)) with a in T1 by ring.
      rewrite Rabs_mult, (Rabs_pos_eq h) in R1 by lra.
      set (rr := round _ _ _ _) in *.
      replace (rr - h * w xw) with ((rr - h * a) + h * (a - w xw)) by ring.
      eapply Rle_trans; [apply Rabs_triang|]. rewrite Rabs_mult, (Rabs_pos_eq h) by lra.
      assert (h * Rabs a <= h * (Rabs (w xw) + K * (u * Rabs (w xw) + eta))) by (apply Rmult_le_compat_l; lra).
      assert (h * Rabs (a - w xw) <= h * (K * (u * Rabs (w xw) + eta))) by (apply Rmult_le_compat_l; lra).
      assert (u * (h * Rabs a) <= u * (h * (Rabs (w xw) + K * (u * Rabs (w xw) + eta)))) by (apply Rmult_le_compat_l; lra).
      lra. }
    rewrite lsum_plus, (lsum_scal (h * (1 + u))), (lsum_scal K), lsum_plus, (lsum_scal u (fun xw => Rabs (w xw))), lsum_const.
    rewrite (lsum_plus (fun xw => u * (h * Rabs (w xw)))), (lsum_scal u), (lsum_scal h), lsum_const, pow_1.
    pose proof (N1_le _ LN) as NL. rewrite SC in MS.
    set (Sm := lsum (fun xw => Rabs (w xw)) data) in *.
    assert (Sp : 0 <= Sm) by (apply lsum_nonneg; intros; apply Rabs_pos).
    assert (ne : 0 <= INR (length data) * eta) by (apply Rmult_le_pos; [apply pos_INR|lra]).
    assert (u * Sm <= u * 2) by (apply Rmult_le_compat_l; lra). assert (0 <= u * Sm) by (apply Rmult_le_pos; lra).
    assert (A1 : K * (u * Sm + INR (length data) * eta) <= K * (3 * u)) by (apply Rmult_le_compat_l; [exact HK|]; lra).
    assert (A2 : 0 <= K * (u * Sm + INR (length data) * eta)) by (apply Rmult_le_pos; [exact HK|]; lra).
    assert (A3 : h * (1 + u) * (K * (u * Sm + INR (length data) * eta)) <= (/ 2 * (1 + / 4)) * (K * (3 * u))).
    { apply Rmult_le_compat; try assumption; [apply Rmult_le_pos; lra|]. apply Rmult_le_compat; lra. }
    assert (A4 : u * (h * Sm) <= u * (11 / 10)) by (apply Rmult_le_compat_l; lra).
    assert (A5 : 0 <= K * u) by (apply Rmult_le_pos; lra). lra.
Qed.

Lemma sameRule_weaken d n m A r rf n' m' A' : sameRule d n m A r rf -> (n <= n')%nat -> (m <= m')%nat -> A <= A' -> sameRule d n' m' A' r rf.
Proof.
  intros H Hn Hm HA. destruct r as [x|], rf as [y|]; cbn [sameRule] in *; try contradiction; [|exact I].
  destruct H as (T & O & L & L1 & L2 & RK & LN). split; [exact T|]. split; [exact O|]. exists L.
  split; [exact L1|]. split; [exact L2|]. split; [|lia]. eapply rok_weaken; eauto.
Qed.

Lemma jacobiN_same p alpha : sameRule 1 64 1 (1 + e + / 10) (jacobiN lapack p alpha) (jacobiNF prec emax Hp He lit lapackF p alpha).
Proof.
  pose proof eps1_pos as EP.
  assert (W : exists A, A <= 1 + e + / 10 /\ sameRule 1 64 1 A (jacobiN lapack p alpha) (jacobiNF prec emax Hp He lit lapackF p alpha)).
  2: { destruct W as (A & HA & W). eapply sameRule_weaken; eauto. }
  pose proof (jacobiN_good lapack e E1 Hl p alpha) as JG.
  unfold jacobiN, jacobiNF in *. destruct (_ || _); [exists 0; split; [lra|exact I]|].
  unfold decideRule, decideRuleF in *. pose proof tabLen_ok as TL. rewrite !andb_true_iff in TL. destruct TL as (((((TL1 & TL2) & TL3) & _) & _) & _).
  destruct (jacobiTable p alpha) as [q|] eqn:J.
  - destruct q as [|[|q]].
    + exists (1 + e + / 10). split; [lra|].
      assert (GT : sameRule 1 64 1 (1 + e + / 10) (tableRule gaussTable p) (tableRuleF prec emax lit gaussTable p)).
      { refine (good_table 0 _ 1 61 gaussTable p _ _ TL1 gauss_ok _); [lia|rewrite Cw0; apply Rmin_glb; lra|lra]. }
      destruct (tableRule gaussTable p) as [x|], (tableRuleF prec emax lit gaussTable p) as [y|]; cbn [sameRule option_map] in *; try contradiction; [|exact I].
      destruct GT as (T & O & L & L1 & L2 & RK & LN). split; [reflexivity|]. cbn [fr_order fr_points fr_type ru_order ru_points ru_type].
      rewrite <- L1, <- L2, !map_length. split; [reflexivity|]. exists L. auto.
    + exists (11 / 10). split; [lra|]. destruct half_val as (HV & HF).
      destruct (tableRule jacobi1Table p) as [x|] eqn:TX.
      * destruct (scaled_same 1 (/ 2) _ jacobi1Table p ltac:(lia) ltac:(cbn; lra) jacobi1_ok TL2 HV HF x TX) as (y & -> & L & L1 & L2 & RK & LN).
        cbn [option_map sameRule fr_order fr_points fr_type ru_order ru_points ru_type]. split; [reflexivity|].
        rewrite <- L1, <- L2, !map_length. split; [reflexivity|]. exists L. auto.
      * unfold tableRule in TX. unfold tableRuleF. destruct (switchOn jacobi1Table p); [discriminate|exact I].
    + exists (11 / 10). split; [lra|]. destruct quarter_val as (HV & HF).
      destruct (tableRule jacobi2Table p) as [x|] eqn:TX.
      * destruct (scaled_same 2 (/ 4) _ jacobi2Table p ltac:(lia) ltac:(cbn; lra) jacobi2_ok TL3 HV HF x TX) as (y & -> & L & L1 & L2 & RK & LN).
        cbn [option_map sameRule fr_order fr_points fr_type ru_order ru_points ru_type]. split; [reflexivity|].
        rewrite <- L1, <- L2, !map_length. split; [reflexivity|]. exists L. auto.
      * unfold tableRule in TX. unfold tableRuleF. destruct (switchOn jacobi2Table p); [discriminate|exact I].
  - exists (1 + e + / 10). split; [lra|]. specialize (HlF p alpha).
    destruct (lapack p alpha) as [l|] eqn:LA, (lapackF p alpha) as [lf|]; cbn [option_map sameRule] in *; try contradiction; [|exact I].
    destruct HlF as (LN & F2). specialize (JG _ eq_refl). pose proof (good1_mass _ _ _ _ _ JG) as M. rewrite Cw0 in M.
    destruct JG as (_ & _ & UP & _). cbn [ru_points fr_order fr_points fr_type ru_order ru_type] in *.
    split; [reflexivity|].
    assert (LL : length l = length lf) by (clear - F2; induction F2; cbn; congruence).
    rewrite !map_length, LL. split; [reflexivity|].
    exists (map (fun ab => ((fvec1 prec emax (fst (snd ab)), snd (snd ab)), (vec1 (fst (fst ab)), snd (fst ab)))) (combine l lf)).
    assert (C1 : map fst (combine l lf) = l) by (clear - LL; revert lf LL; induction l as [|x l IH]; intros [|y lf] LL; cbn in *; try discriminate; [reflexivity|]; f_equal; apply IH; congruence).
    assert (C2 : map snd (combine l lf) = lf) by (clear - LL; revert lf LL; induction l as [|x l IH]; intros [|y lf] LL; cbn in *; try discriminate; [reflexivity|]; f_equal; apply IH; congruence).
    assert (CL : length (combine l lf) = length l) by (rewrite combine_length, LL; apply Nat.min_id).
    split; [rewrite map_map; cbn [fst]; rewrite <- C2 at 2; now rewrite map_map|].
    split; [rewrite map_map; cbn [snd]; rewrite <- C1 at 2; now rewrite map_map|]. split; [|rewrite map_length, CL; exact LN].
    apply converted_rok; [| |lra|rewrite map_length, CL; now apply N1_le].
    + intros pq I. apply in_map_iff in I. destruct I as ([a b] & <- & I). cbn [fst snd].
      assert (Ia : In a l) by (apply in_combine_l in I; exact I).
      assert (CV : converted prec emax K (fst a) (fst b) /\ converted prec emax K (snd a) (snd b)).
      { clear - F2 I. revert I. induction F2 as [|x y l lf H F2 IH]; [intros []|]. intros [E|I]; [injection E as -> ->; exact H|now apply IH]. }
      split; [|apply CV]. intros k Hk. replace k with 0%nat by lia. cbn [fvec1 vec1]. split; [|apply CV].
      specialize (UP (vec1 (fst a), snd a)). cbn [fst vec1] in UP. apply UP. apply in_map_iff. now exists a.
    + rewrite lsum_map. cbn [snd].
      apply Rle_trans with (1 + e); [|lra]. eapply Rle_trans; [|exact M]. rewrite lsum_map. cbn [snd]. rewrite <- C1 at 2. rewrite lsum_map. apply Rle_refl.
Qed.

Lemma rule1D_same p qt : sameRule 1 64 1 (massBound qt e) (rule1D lapack p qt) (rule1DF prec emax Hp He lit lapackF p qt).
Proof.
  pose proof tabLen_ok as TL. rewrite !andb_true_iff in TL. destruct TL as (((((TL1 & TL2) & TL3) & TL4) & TL5) & TL6).
  pose proof (mass_le qt) as ML. pose proof (Cw_le qt) as CL.
  assert (MR : Cw (weightExp qt) + e <= Rmin (massBound qt e) 2) by (apply Rmin_glb; unfold massBound; lra).
  destruct qt as [|[|[|[|[|[|[|qt]]]]]]]; cbn [rule1D rule1DF]; try exact I; cbn [weightExp] in MR.
  - exact (good_table 0 _ 1 61 gaussTable p ltac:(lia) MR TL1 gauss_ok (proj1 ML)).
  - exact (good_table 1 _ 1 61 jacobi1Table p ltac:(lia) MR TL2 jacobi1_ok (proj1 ML)).
  - exact (good_table 2 _ 1 61 jacobi2Table p ltac:(lia) MR TL3 jacobi2_ok (proj1 ML)).
  - replace (massBound 3 e) with (1 + e + / 10) by (unfold massBound; cbn [weightExp]; rewrite Cw0; ring). apply jacobiN_same.
  - exact (good_table 0 _ 3 31 lobattoTable p ltac:(lia) MR TL4 lobatto_ok (proj1 ML)).
  - exact (good_table 0 _ 2 30 radauLeftTable p ltac:(lia) MR TL5 radauLeft_ok (proj1 ML)).
  - exact (good_table 0 _ 2 30 radauRightTable p ltac:(lia) MR TL6 radauRight_ok (proj1 ML)).
Qed.
Lemma fetch_same p qt : sameRule 1 64 1 (massBound qt e) (fetch1D lapack p qt) (fetch1DF prec emax Hp He lit lapackF p qt).
Proof. unfold fetch1D, fetch1DF. destruct (inRange _ _ _ _); [apply rule1D_same|exact I]. Qed.

(** ** the stored rules *)
Lemma store_same_rule T t s m n : INR m * eta <= u -> (m <= n)%nat -> insidePts T (ru_points (storeRule t s m)) ->
  lsum (fun q => Rabs (snd q)) (ru_points (storeRule t s m)) <= 11 / 10 ->
  sameRule (tdim T) n 1 (11 / 10) (Some (storeRule t s m)) (Some (storeRuleF prec emax lit t s m)).
Proof.
  intros N Hn IP M. split; [reflexivity|]. split; [reflexivity|]. cbn [fr_points ru_points storeRule storeRuleF] in *.
  exists (map (fun i => (((fun k => lit (st_G s m i k)), lit (st_W s m i)), ((fun k => Q2R (st_G s m i k)) : Vec, Q2R (st_W s m i)))) (seq 0 m)).
  split; [apply map_fst_pair|]. split; [apply map_snd_pair|]. split; [|now rewrite map_length, seq_length].
  apply converted_rok; [| |lra|now rewrite map_length, seq_length].
  - intros q I. apply in_map_iff in I. destruct I as (i & <- & I). cbn [fst snd].
    assert (IQ : In (((fun k => Q2R (st_G s m i k)) : Vec, Q2R (st_W s m i)) : QPoint)
      (map (fun i => ((fun k => Q2R (st_G s m i k)) : Vec, Q2R (st_W s m i))) (seq 0 m))) by (apply in_map_iff; now exists i).
    split.
    + intros k Hk. specialize (IP _ IQ). cbn [fst] in IP. pose proof (insideT_01 T _ 1 ltac:(lra) IP k Hk) as P01. cbv beta in P01.
      split; [exact P01|]. apply Hlit. rewrite Rabs_pos_eq; lra.
    + apply Hlit. pose proof (mass_each _ _ _ M IQ) as Q. cbn [snd] in Q. lra.
  - apply lsum_snd. exact M.
Qed.

Lemma small_quot a (n : Z) : (0 < n)%Z -> a * 10 <= IZR n -> a / IZR n <= / 10.
Proof.
  intros Hn H. apply IZR_lt in Hn. apply Rmult_le_reg_r with (IZR n); [exact Hn|]. unfold Rdiv.
  rewrite Rmult_assoc, Rinv_l by lra. lra.
Qed.
Lemma small15 : 3 / IZR (10 ^ 15) <= / 10 /\ 1 / IZR (10 ^ 20) <= / 10 /\ 1 / IZR (10 ^ 17) <= / 10 /\ 1 / IZR (10 ^ 16) <= / 10.
Proof. repeat split; (apply small_quot; [reflexivity|rewrite <- mult_IZR; apply IZR_le; apply Z.leb_le; reflexivity]). Qed.

Lemma triangle3_mass : lsum (fun q => Rabs (snd q)) (ru_points (storeRule triangle (run triangleInit) (triangleM 3))) <= 11 / 10.
Proof.
  cbn [storeRule ru_points triangleM seq map]. rewrite !lsum_cons. cbn [lsum fold_right snd].
  assert (W0 : Q2R (st_W (run triangleInit) 4 0) = - (27 / 96)) by (unfold Q2R; vm_compute (st_W (run triangleInit) 4 0); cbn; lra).
  assert (W1 : Q2R (st_W (run triangleInit) 4 1) = 25 / 96) by (unfold Q2R; vm_compute (st_W (run triangleInit) 4 1); cbn; lra).
  assert (W2 : Q2R (st_W (run triangleInit) 4 2) = 25 / 96) by (unfold Q2R; vm_compute (st_W (run triangleInit) 4 2); cbn; lra).
  assert (W3 : Q2R (st_W (run triangleInit) 4 3) = 25 / 96) by (unfold Q2R; vm_compute (st_W (run triangleInit) 4 3); cbn; lra).
  rewrite W0, W1, W2, W3, Rabs_Ropp, !Rabs_pos_eq by lra. lra.
Qed.
Lemma triangle_same p n : (0 <= p <= 12)%Z -> (64 <= n)%nat ->
  sameRule 2 n 1 (11 / 10) (Some (storeRule triangle (run triangleInit) (triangleM p))) (Some (storeRuleF prec emax lit triangle (run triangleInit) (triangleM p))).
Proof.
  intros P N. destruct (triangle_R p P) as (_ & B & C & D).
  assert (LM : (triangleM p <= 64)%nat).
  { assert (HH : In p [0; 1; 2; 3; 4; 5; 6; 7; 8; 9; 10; 11; 12]%Z) by (cbn; lia).
    cbn [In] in HH. repeat (destruct HH as [<-|HH]; [cbn; lia|]). destruct HH. }
  apply (store_same_rule TriT); [now apply N1_le|lia|exact C|].
  destruct (Z.eq_dec p 3) as [->|Np]; [apply triangle3_mass|].
  eapply Rle_trans; [apply (momExact_mass _ _ _ _ B)|].
  - intros q I. left. now apply D.
  - destruct small15 as (S1 & S2 & _). destruct (Z.eqb p 12); lra.
Qed.
Lemma tetrahedron_same p n : (0 <= p <= 5)%Z -> (64 <= n)%nat ->
  sameRule 3 n 1 (11 / 10) (Some (storeRule tetrahedron (run tetrahedronInit) (tetrahedronM p))) (Some (storeRuleF prec emax lit tetrahedron (run tetrahedronInit) (tetrahedronM p))).
Proof.
  intros P N. destruct (tetrahedron_R p P) as (_ & B & C & D).
  assert (LM : (tetrahedronM p <= 64)%nat).
  { assert (HH : In p [0; 1; 2; 3; 4; 5]%Z) by (cbn; lia).
    cbn [In] in HH. repeat (destruct HH as [<-|HH]; [cbn; lia|]). destruct HH. }
  apply (store_same_rule TetT); [now apply N1_le|lia|exact C|].
  eapply Rle_trans; [apply (momExact_mass _ _ _ _ B)|].
  - intros q I. left. now apply D.
  - destruct small15 as (_ & _ & S1 & S2). lra.
Qed.
Lemma prism_same n : (64 <= n)%nat -> sameRule 3 n 1 (11 / 10) (Some prismRule) (Some (prismRuleF prec emax lit)).
Proof.
  intros N. destruct prism_R as (_ & B & C & D).
  apply (store_same_rule PriT); [apply N1_le; lia|lia|exact C|].
  eapply Rle_trans; [apply (momExact_mass _ _ _ _ B)|].
  - intros q I. left. now apply D.
  - destruct small15 as (_ & _ & S1 & S2). lra.
Qed.
End FQ2.
