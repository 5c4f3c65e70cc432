(** Lemmas for C67: the floating point factory against the exact one. *)
From Coq Require Import PeanoNat NArith ZArith QArith Qreals Bool List Reals Lra Lia.
From Flocq Require Import Core IEEE754.BinarySingleNaN.
From Verif Require Import M_Type M_TypeIndex M_RefGeo M_Matrix M_Float M_QuadFactory M_Quadrature M_FloatQuad M_Tab M_TabSimplex
  S_Topo S_QuadND S_FloatQuad P_RSum P_Float P_FloatNear P_FloatQuad P_FloatQuad2 P_QuadProd P_QuadFix P_QuadFactory P_QuadAll.
Import ListNotations.
Local Open Scope R_scope.

Lemma factors_S d : factors (S d) = (factors d + (2 + d))%nat.
Proof.
  unfold factors. replace (S d * (S d + 3))%nat with (d * (d + 3) + (d + 2) * 2)%nat by lia.
  rewrite Nat.div_add by lia. lia.
Qed.

Section FQ3.
Variables (prec emax : Z).
Context (Hp : Prec_gt_0 prec) (He : Prec_lt_emax prec emax).
Hypothesis H2 : (2 <= prec)%Z.
Variable K : R.
Hypothesis HK : 0 <= K.
Notation float := (binary_float prec emax).
Notation u := (bpow radix2 (- prec)).
Notation eta := (P_FloatNear.eta prec emax).
Notation c := (2 * K + 3).
Notation top := (bpow radix2 (emax - 1)).
Notation rok := (P_FloatQuad.rok prec emax K).
Notation sameRule := (P_FloatQuad2.sameRule prec emax K).

Variable e : R.
Hypothesis E1 : eps1 <= e.
Hypothesis E2 : e <= / 10.
Variable lapack : Z -> nat -> option (list (R * R)).
Hypothesis Hl : lapackOk e lapack.
Variable lit : Q -> float.
Hypothesis Hlit : litOk prec emax K lit.
Variable lapackF : Z -> nat -> option (list (float * float)).
Hypothesis HlF : lapackFOk prec emax K lapack lapackF.
Notation factory := (M_Quadrature.factory lapack).
Notation factoryF := (M_FloatQuad.factoryF prec emax Hp He lit lapackF).

Definition tensorPartF (d : nat) (t : GeometryType) (p : Z) (qt : nat) : option (FRule prec emax) :=
  match (if inRange (S d) (tpBase (gt_id t) (S d)) p qt then factoryF (S d) (tpBase (gt_id t) (S d)) p qt else None) with
  | None => None
  | Some b =>
      option_map (mkFRule prec emax (GT2 (gt_id t) (S (S d))) p)
        (if tpPrism (gt_id t) (S d) then
           option_map (fun o => tensorProductF prec emax Hp He (S d) (fr_points prec emax b) (fr_points prec emax o)) (fetch1DF prec emax Hp He lit lapackF p qt)
         else if Nat.eqb qt qtJacobiN then
           option_map (fun o => conicalProductF prec emax Hp He (S d) true (fr_points prec emax b) (fr_points prec emax o)) (jacobiNF prec emax Hp He lit lapackF p (S d))
         else
           option_map (fun o => conicalProductF prec emax Hp He (S d) false (fr_points prec emax b) (fr_points prec emax o))
             (fetch1DF prec emax Hp He lit lapackF (p + Z.of_nat (S d)) qt))
  end.

Lemma factoryF_SS d t p qt : factoryF (S (S d)) t p qt =
  match choose (S (S d)) t p qt with
  | ChSimplex => simplexRuleF prec emax lit (S (S d)) p
  | ChPrism => Some (prismRuleF prec emax lit)
  | _ => tensorPartF d t p qt
  end.
Proof.
  unfold tensorPartF. cbn [M_FloatQuad.factoryF].
  destruct (choose_dim2 d t p qt _ eq_refl) as [E|[E|E]]; rewrite E; reflexivity.
Qed.

Hypothesis N1 : INR 64 * eta <= u.

Lemma tens_same d n m A a g b bf o of : sameRule d n m A (Some b) (Some bf) -> sameRule 1 64 1 a (Some o) (Some of) ->
  1 <= A -> 1 <= a -> A * a * (1 + c * u) ^ (m + 2) <= top -> INR (n * 64) * eta <= u ->
  forall p, sameRule (S d) (n * 64) (m + 2) (A * a)
    (Some (mkRule g p (tensorProduct d (ru_points b) (ru_points o))))
    (Some (mkFRule prec emax g p (tensorProductF prec emax Hp He d (fr_points prec emax bf) (fr_points prec emax of)))).
Proof.
  intros (_ & _ & L & L1 & L2 & L3 & L4) (_ & _ & M & M1 & M2 & M3 & M4) A1 a1 T N p.
  cbn [P_FloatQuad2.sameRule fr_type fr_order fr_points ru_type ru_order ru_points]. split; [reflexivity|]. split; [reflexivity|].
  assert (LL : (length L * length M <= n * 64)%nat) by (apply Nat.mul_le_mono; assumption).
  exists (pairsOf prec emax (tens prec emax Hp He d) L M). rewrite tens_fst, tens_snd, L1, L2, M1, M2.
  split; [reflexivity|]. split; [reflexivity|]. split.
  - apply tens_rok; auto. eapply Rle_trans; [|exact N]. apply Rmult_le_compat_r; [apply Rlt_le, eta_pos|now apply le_INR].
  - unfold pairsOf. now rewrite map_length, prod_length.
Qed.
Lemma cone_same d n m A a g r b bf o of : sameRule d n m A (Some b) (Some bf) -> sameRule 1 64 1 a (Some o) (Some of) ->
  1 <= A -> 1 <= a -> A * a * (1 + c * u) ^ (m + (2 + d)) <= top -> INR (n * 64) * eta <= u ->
  forall p, sameRule (S d) (n * 64) (m + (2 + d)) (A * a)
    (Some (mkRule g p (conicalProduct d r (ru_points b) (ru_points o))))
    (Some (mkFRule prec emax g p (conicalProductF prec emax Hp He d r (fr_points prec emax bf) (fr_points prec emax of)))).
Proof.
  intros (_ & _ & L & L1 & L2 & L3 & L4) (_ & _ & M & M1 & M2 & M3 & M4) A1 a1 T N p.
  cbn [P_FloatQuad2.sameRule fr_type fr_order fr_points ru_type ru_order ru_points]. split; [reflexivity|]. split; [reflexivity|].
  assert (LL : (length L * length M <= n * 64)%nat) by (apply Nat.mul_le_mono; assumption).
  exists (pairsOf prec emax (cone prec emax Hp He d r) L M). rewrite cone_fst, cone_snd, L1, L2, M1, M2.
  split; [reflexivity|]. split; [reflexivity|]. split.
  - apply cone_rok; auto. eapply Rle_trans; [|exact N]. apply Rmult_le_compat_r; [apply Rlt_le, eta_pos|now apply le_INR].
  - unfold pairsOf. now rewrite map_length, prod_length.
Qed.

Lemma same_None d n m A r rf : sameRule d n m A r rf -> r = None -> rf = None.
Proof. intros H ->. destruct rf; [destruct H|reflexivity]. Qed.
Lemma same_Some d n m A r rf x : sameRule d n m A r rf -> r = Some x -> exists y, rf = Some y.
Proof. intros H ->. destruct rf; [eauto|destruct H]. Qed.

Lemma tensorPart_same d t p qt n m A :
  (forall t', inRange (S d) t' p qt = true -> sameRule (S d) n m A (factory (S d) t' p qt) (factoryF (S d) t' p qt)) ->
  1 <= A -> A * massBound qt e * (1 + c * u) ^ (m + (2 + S d)) <= top -> INR (n * 64) * eta <= u ->
  sameRule (S (S d)) (n * 64) (m + (2 + S d)) (A * massBound qt e) (tensorPart lapack d t p qt) (tensorPartF d t p qt).
Proof.
  intros IH A1 T N. pose proof (mass_le e E1 E2 qt) as Mq. pose proof (c_pos prec K HK) as C0.
  assert (Am : 1 <= A * massBound qt e) by nra.
  unfold tensorPart, tensorPartF. destruct (inRange (S d) _ p qt) eqn:R; [|exact I].
  specialize (IH _ R).
  destruct (factory (S d) _ p qt) as [b|], (factoryF (S d) _ p qt) as [bf|]; try contradiction; [|exact I].
  destruct (tpPrism (gt_id t) (S d)).
  - pose proof (fetch_same prec emax Hp He H2 K HK e E1 E2 lapack Hl lit Hlit lapackF HlF N1 p qt) as O.
    destruct (fetch1D lapack p qt) as [o|], (fetch1DF prec emax Hp He lit lapackF p qt) as [of|]; try contradiction; [|exact I].
    cbn [option_map]. eapply (sameRule_weaken prec emax K HK); [apply (tens_same (S d) n m A (massBound qt e)); eauto; try apply Mq| | |]; try lia; try lra.
    eapply Rle_trans; [|exact T]. apply Rmult_le_compat_l; [lra|]. apply Rle_pow; [lra|lia].
  - destruct (Nat.eqb_spec qt qtJacobiN) as [->|Nq].
    + pose proof (jacobiN_same prec emax Hp He H2 K HK e E1 E2 lapack Hl lit Hlit lapackF HlF N1 p (S d)) as O.
      destruct (jacobiN lapack p (S d)) as [o|], (jacobiNF prec emax Hp He lit lapackF p (S d)) as [of|]; try contradiction; [|exact I].
      cbn [option_map]. eapply cone_same; eauto; try apply Mq.
      eapply (sameRule_weaken prec emax K HK); [exact O|lia|lia|]. unfold massBound. change (weightExp qtJacobiN) with 0%nat. rewrite Cw0. lra.
    + pose proof (fetch_same prec emax Hp He H2 K HK e E1 E2 lapack Hl lit Hlit lapackF HlF N1 (p + Z.of_nat (S d)) qt) as O.
      destruct (fetch1D lapack (p + Z.of_nat (S d)) qt) as [o|], (fetch1DF prec emax Hp He lit lapackF (p + Z.of_nat (S d)) qt) as [of|]; try contradiction; [|exact I].
      cbn [option_map]. eapply cone_same; eauto; try apply Mq.
Qed.

Lemma point_same n m A : (1 <= n)%nat -> 1 <= A -> sameRule 0 n m A (Some pointRule) (Some (pointRuleF prec emax Hp He)).
Proof.
  intros Hn HA. split; [reflexivity|]. split; [reflexivity|].
  exists [(((fun _ => B754_zero false), ofZ prec emax Hp He 1), ((fun _ => 0), 1))].
  split; [reflexivity|]. split; [reflexivity|]. split; [|exact Hn]. destruct (ofZ_1 prec emax Hp He H2) as [O1 O2].
  split; [intros p _ k Hk; lia|]. split; [intros p [<-|[]]; exact O2|].
  cbn [lsum fst snd map fold_right]. unfold lsum. cbn [fold_right map fst snd].
  rewrite O1, Rabs_R1. replace (1 - 1) with 0 by ring. rewrite Rabs_R0. split; [lra|].
  pose proof (pow_c_ge prec K HK m) as P. assert (0 <= A * ((1 + c * u) ^ m - 1)) by (apply Rmult_le_pos; lra). lra.
Qed.

Lemma factory_same dim : forall t p qt, inRange dim t p qt = true ->
  massBound qt e ^ dim * (1 + c * u) ^ factors dim <= top -> INR (64 ^ dim) * eta <= u ->
  sameRule dim (64 ^ dim) (factors dim) (massBound qt e ^ dim) (factory dim t p qt) (factoryF dim t p qt).
Proof.
  induction dim as [|[|d] IH]; intros t p qt HR T N.
  - cbn [M_Quadrature.factory M_FloatQuad.factoryF choose]. destruct (isVertex t); [|exact I].
    apply point_same; [cbn; lia|]. rewrite pow_O. lra.
  - cbn [M_Quadrature.factory M_FloatQuad.factoryF choose]. destruct (isLine t); [|exact I]. destruct (Nat.ltb qt qtSize); [|exact I].
    pose proof (mass_le e E1 E2 qt) as Mq.
    eapply (sameRule_weaken prec emax K HK); [apply (rule1D_same prec emax Hp He H2 K HK e E1 E2 lapack Hl lit Hlit lapackF HlF N1)| | |]; rewrite ?pow_1; cbn; lia || lra.
  - assert (Hpp : (0 <= p)%Z).
    { unfold inRange in HR. destruct (maxOrder _ _ _); [|discriminate]. rewrite andb_true_iff, Z.leb_le in HR. tauto. }
    pose proof (mass_le e E1 E2 qt) as Mq. pose proof (mass_2 e E1 qt) as M2. pose proof (c_pos prec K HK) as C0.
    assert (P1 : forall k, 1 <= massBound qt e ^ k) by (intros; apply pow_R1_Rle; lra).
    assert (IH' : forall t', inRange (S d) t' p qt = true ->
      sameRule (S d) (64 ^ S d) (factors (S d)) (massBound qt e ^ S d) (factory (S d) t' p qt) (factoryF (S d) t' p qt)).
    { intros t' R'. apply IH; [exact R'| |].
      - eapply Rle_trans; [|exact T]. apply Rmult_le_compat; [specialize (P1 (S d)); lra| | |].
        + pose proof (pow_c_ge prec K HK (factors (S d))). lra.
        + apply Rle_pow; [lra|lia].
        + apply Rle_pow; [lra|]. rewrite (factors_S (S d)). lia.
      - eapply Rle_trans; [|exact N]. apply Rmult_le_compat_r; [apply Rlt_le, eta_pos|]. apply le_INR.
        apply Nat.pow_le_mono_r; lia. }
    assert (PS : massBound qt e ^ S (S d) = massBound qt e ^ S d * massBound qt e) by (rewrite <- (tech_pow_Rmult _ (S d)); ring).
    assert (NS : (64 ^ S (S d) = 64 ^ S d * 64)%nat) by (rewrite (Nat.pow_succ_r' 64 (S d)); lia).
    assert (TP : sameRule (S (S d)) (64 ^ S (S d)) (factors (S (S d))) (massBound qt e ^ S (S d)) (tensorPart lapack d t p qt) (tensorPartF d t p qt)).
    { rewrite PS, NS, (factors_S (S d)) in *. apply tensorPart_same; auto. }
    assert (N64 : (64 <= 64 ^ S (S d))%nat).
    { rewrite NS. pose proof (Nat.pow_nonzero 64 (S d) ltac:(lia)). nia. }
    assert (ST : forall r rf, sameRule (S (S d)) (64 ^ S (S d)) 1 (11 / 10) r rf ->
      sameRule (S (S d)) (64 ^ S (S d)) (factors (S (S d))) (massBound qt e ^ S (S d)) r rf).
    { intros r rf X. eapply (sameRule_weaken prec emax K HK); [exact X|lia| |].
      - rewrite (factors_S (S d)). lia.
      - rewrite PS. specialize (P1 (S d)). nra. }
    rewrite factory_SS, factoryF_SS, choose_SS.
    destruct d as [|[|d]].
    + destruct (isSimplex t && _ && _) eqn:C; [|exact TP].
      rewrite !andb_true_iff, Z.leb_le in C. destruct C as ((C1 & C2) & C3). unfold highestTriangle in C3.
      cbn [simplexRule simplexRuleF]. unfold highestTriangle. replace (12 <? p)%Z with false by (symmetry; apply Z.ltb_ge; lia).
      apply ST. apply triangle_same; auto.
    + destruct (isSimplex t && _ && _) eqn:C.
      * rewrite !andb_true_iff, Z.leb_le in C. destruct C as ((C1 & C2) & C3). unfold highestTetrahedron in C3.
        cbn [simplexRule simplexRuleF]. unfold highestTetrahedron. replace (5 <? p)%Z with false by (symmetry; apply Z.ltb_ge; lia).
        apply ST. apply tetrahedron_same; auto.
      * destruct (isPrismT t && _ && _) eqn:C'; [|exact TP]. apply ST. now apply prism_same.
    + exact TP.
Qed.
End FQ3.
