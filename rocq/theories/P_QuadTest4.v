(** The rules of the factory pass the checks of the quadrature test program (continued). *)
From Coq Require Import NArith ZArith QArith PeanoNat Bool List Reals Factorial Lia Lra.
From Coquelicot Require Import Coquelicot.
From Verif Require Import M_Type M_TypeIndex M_RefGeo M_QuadFactory M_Tab M_TabSimplex M_Quadrature M_QuadTest
  S_Topo S_RefGeo S_Quad S_Quad1D S_QuadND S_QuadTest
  P_Type P_Type2 P_Topo P_RefGeo2 P_RefVol P_QuadFactory P_QuadFix P_QuadProd P_QuadFixN P_TabSimplex P_QuadRules P_QuadAll P_QuadTest1 P_QuadTest2 P_QuadTest3.
Import ListNotations.
Local Open Scope R_scope.

Definition accepted (id : N) (dim : nat) (x : Rule) : Prop :=
  powersOk epsDouble (topo_of id dim) (Z.to_nat (ru_order x)) (ru_points x)
  /\ weightsOk epsDouble (topo_of id dim) (ru_points x).

Lemma eps1_val : eps1 = 1 / 100000000000000000000.
Proof. unfold eps1. lra. Qed.

Lemma mom_volume id d n err pts : momExact 0 (topo_of id d) n err pts ->
  Rabs (quad pts (fun _ => 1) - volumeT (topo_of id d)) <= err.
Proof.
  intros H. specialize (H (powE d 0)). rewrite tdim_topo_of, powE_zero in H. specialize (H ltac:(lia)).
  rewrite (volume_momW (topo_of id d) d 0) by (rewrite tdim_topo_of; lia).
  rewrite (quad_ext _ (fun _ => 1) (monomial d (powE d 0))); [exact H|]. intros x. symmetry. now apply powE_out.
Qed.
Lemma weights_of id d n err pts m : momExact 0 (topo_of id d) n err pts -> (m <= length pts)%nat -> err <= INR m * epsDouble ->
  weightsOk epsDouble (topo_of id d) pts.
Proof.
  intros H L E. apply mom_volume in H. unfold weightsOk. eapply Rle_trans; [exact H|]. eapply Rle_trans; [exact E|].
  apply Rmult_le_compat_r; [rewrite eps_val; lra|now apply le_INR].
Qed.
Lemma fine_accept id d err x : (d <= 4)%nat -> 0 <= err <= 3 / 1000000000000000000 ->
  momExact 0 (topo_of id d) (Z.to_nat (ru_order x)) err (ru_points x) -> accepted id d x.
Proof.
  intros Hd He H. split.
  - eapply relOK_powers; [apply momExact_rel; [apply He|exact H]|]. now apply fine4.
  - eapply (weights_of _ _ _ _ _ 1); [exact H| |].
    + eapply mom_nonempty; [exact Hd| |exact H]. lra.
    + rewrite eps_val. cbn [INR]. lra.
Qed.
Lemma errD_fine d : (d <= 4)%nat -> 0 <= errD 1 eps1 d <= 3 / 1000000000000000000.
Proof.
  intros H. unfold errD. rewrite eps1_val. destruct d as [|[|[|[|[|d]]]]]; [| | | | |lia]; cbn [pow]; lra.
Qed.

Section Accept.
Variable lapack : Z -> nat -> option (list (R * R)).
Hypothesis Hl : lapackOk eps1 lapack.

Notation good := (goodN eps1).

Lemma tensorPart_good' d t p qt r :
  (forall r', inRange (S d) (tpBase (gt_id t) (S d)) p qt = true -> factory lapack (S d) (tpBase (gt_id t) (S d)) p qt = Some r' ->
     good (gt_id (tpBase (gt_id t) (S d))) (S d) p qt r') ->
  tensorPart lapack d t p qt = Some r -> good (gt_id t) (S (S d)) p qt r.
Proof.
  intros IH H. unfold tensorPart in H.
  destruct (inRange (S d) (tpBase (gt_id t) (S d)) p qt) eqn:R1; [|discriminate].
  destruct (factory lapack (S d) (tpBase (gt_id t) (S d)) p qt) as [b|] eqn:F; [|discriminate].
  assert (Hp : (0 <= p)%Z).
  { unfold inRange in R1. destruct (maxOrder _ _ _); [|discriminate]. rewrite andb_true_iff, Z.leb_le in R1. tauto. }
  specialize (IH b eq_refl eq_refl).
  assert (G : good (gt_id t) (S d) p qt b).
  { destruct IH as (A & B & C & D). split; [exact A|]. rewrite topo_base in B, C. auto. }
  unfold tpPrism in H. destruct (N.testbit (gt_id t) (N.of_nat (S d))) eqn:Bit.
  - destruct (fetch1D lapack p qt) as [o|] eqn:O; [|discriminate]. apply (fetch_good lapack eps1 (Rle_refl _) Hl) in O. injection H as <-.
    eapply tensor_good; try eassumption; try reflexivity; [lia|apply O].
  - destruct (Nat.eqb_spec qt qtJacobiN) as [->|N].
    + destruct (jacobiN lapack p (S d)) as [o|] eqn:O; [|discriminate]. apply (jacobiN_good lapack eps1 (Rle_refl _) Hl) in O. injection H as <-.
      eapply (conical_good eps1 true); try eassumption; try reflexivity. lia.
    + destruct (fetch1D lapack (p + Z.of_nat (S d)) qt) as [o|] eqn:O; [|discriminate]. apply (fetch_good lapack eps1 (Rle_refl _) Hl) in O. injection H as <-.
      eapply (conical_good eps1 false); try eassumption; try reflexivity; [lia|apply O].
Qed.

(** rules over a square base use no simplex or prism table *)
Lemma square_good dim : forall t p qt r, (1 <= dim)%nat -> ((dim <= 1)%nat \/ N.testbit (gt_id t) 1 = true) ->
  factory lapack dim t p qt = Some r -> good (gt_id t) dim p qt r.
Proof.
  induction dim as [|[|d] IH]; intros t p qt r H1 HB H; [lia| |].
  - cbn [factory choose] in H. destruct (isLine t); [|discriminate]. destruct (Nat.ltb qt qtSize); [|discriminate].
    now apply (line_good lapack eps1 (Rle_refl _) Hl).
  - destruct HB as [HB|HB]; [lia|].
    assert (S0 : isSimplex t = false).
    { destruct (isSimplex t) eqn:E; [|reflexivity]. pose proof (simplex_bits t 1 E (Nat.le_refl 1)) as X. change (N.of_nat 1) with 1%N in X. congruence. }
    assert (P0 : isPrismT t = false).
    { destruct (isPrismT t) eqn:E; [|reflexivity]. apply named_shift in E. destruct E as [_ E].
      assert (X := f_equal (fun z => N.testbit z 1) E). cbn beta in X. rewrite N.lor_spec, HB in X. discriminate. }
    rewrite factory_SS, choose_SS, S0, P0 in H. cbn [andb] in H.
    assert (G : tensorPart lapack d t p qt = Some r) by (destruct d as [|[|d]]; exact H).
    apply tensorPart_good' in G; [exact G|]. intros r' _ F. apply IH in F; [exact F|lia|].
    destruct d as [|d]; [left; lia|right]. unfold tpBase, GT2. cbn [gt_id]. rewrite N.clearbit_eqb, HB.
    replace (N.of_nat (S (S d)) =? 1)%N with false by (symmetry; apply N.eqb_neq; lia). reflexivity.
Qed.

(** what a product is made of *)
Lemma conical_parts d t p qt r : weightExp qt = 0%nat -> N.testbit (gt_id t) (N.of_nat (S d)) = false ->
  tensorPart lapack d t p qt = Some r ->
  exists b o (respect : bool), inRange (S d) (tpBase (gt_id t) (S d)) p qt = true
    /\ factory lapack (S d) (tpBase (gt_id t) (S d)) p qt = Some b
    /\ betaExact 0 (if respect then S d else 0) (if respect then Z.to_nat p else Z.to_nat p + S d)%nat eps1 o
    /\ ru_points r = conicalProduct (S d) respect (ru_points b) o /\ ru_order r = p.
Proof.
  intros W Bit H. unfold tensorPart in H.
  destruct (inRange (S d) (tpBase (gt_id t) (S d)) p qt) eqn:R1; [|discriminate].
  destruct (factory lapack (S d) (tpBase (gt_id t) (S d)) p qt) as [b|] eqn:F; [|discriminate].
  assert (Hp : (0 <= p)%Z).
  { unfold inRange in R1. destruct (maxOrder _ _ _); [|discriminate]. rewrite andb_true_iff, Z.leb_le in R1. tauto. }
  unfold tpPrism in H. rewrite Bit in H. destruct (Nat.eqb_spec qt qtJacobiN) as [->|N].
  - destruct (jacobiN lapack p (S d)) as [o|] eqn:O; [|discriminate]. apply (jacobiN_good lapack eps1 (Rle_refl _) Hl) in O. injection H as <-.
    destruct O as (O1 & O2 & _). exists b, (ru_points o), true. repeat split; auto.
    eapply betaExact_weaken; [exact O2|lia|lra].
  - destruct (fetch1D lapack (p + Z.of_nat (S d)) qt) as [o|] eqn:O; [|discriminate]. apply (fetch_good lapack eps1 (Rle_refl _) Hl) in O. injection H as <-.
    destruct O as ((O1 & O2 & _) & _). rewrite W in O2. exists b, (ru_points o), false. repeat split; auto.
    eapply betaExact_weaken; [exact O2|lia|lra].
Qed.
Lemma tensor_parts d t p qt r : weightExp qt = 0%nat -> N.testbit (gt_id t) (N.of_nat (S d)) = true ->
  tensorPart lapack d t p qt = Some r ->
  exists b o, inRange (S d) (tpBase (gt_id t) (S d)) p qt = true
    /\ factory lapack (S d) (tpBase (gt_id t) (S d)) p qt = Some b
    /\ betaExact 0 0 (Z.to_nat p) eps1 o
    /\ ru_points r = tensorProduct (S d) (ru_points b) o /\ ru_order r = p.
Proof.
  intros W Bit H. unfold tensorPart in H.
  destruct (inRange (S d) (tpBase (gt_id t) (S d)) p qt) eqn:R1; [|discriminate].
  destruct (factory lapack (S d) (tpBase (gt_id t) (S d)) p qt) as [b|] eqn:F; [|discriminate].
  unfold tpPrism in H. rewrite Bit in H.
  destruct (fetch1D lapack p qt) as [o|] eqn:O; [|discriminate]. apply (fetch_good lapack eps1 (Rle_refl _) Hl) in O. injection H as <-.
  destruct O as ((O1 & O2 & _) & _). rewrite W in O2. exists b, (ru_points o). repeat split; auto.
  eapply betaExact_weaken; [exact O2|lia|lra].
Qed.

Lemma simplex_topo_mom t d : isSimplex t = true -> forall n E pts,
  momExact 0 (topo_of 0 d) n E pts -> momExact 0 (topo_of (gt_id t) d) n E pts.
Proof. intros H n E pts. apply momExact_low. now apply simplex_id. Qed.
Lemma base_simplex t d : isSimplex t = true -> (1 <= d)%nat -> isSimplex (tpBase (gt_id t) d) = true.
Proof.
  intros H Hd. unfold isSimplex, tpBase, GT2. cbn [gt_none gt_id negb andb]. apply N.eqb_eq. apply N.bits_inj. intros i.
  unfold isSimplex in H. rewrite andb_true_iff, N.eqb_eq in H. destruct H as [_ H].
  assert (E := f_equal (fun z => N.testbit z i) H). cbn beta in E. rewrite N.lor_spec in *. rewrite N.clearbit_eqb.
  destruct (N.eqb_spec (N.of_nat d) i) as [<-|N]; [|now rewrite andb_true_r].
  rewrite andb_false_r. cbn [orb]. reflexivity.
Qed.

Lemma triangle_is t p qt r : isSimplex t = true -> (qt = 0 \/ qt = 3)%nat -> (p <= 12)%Z -> factory lapack 2 t p qt = Some r ->
  r = storeRule triangle (run triangleInit) (triangleM p).
Proof.
  intros H Q P F. rewrite factory_SS, choose_SS, H in F.
  replace (Nat.eqb qt qtLegendre || Nat.eqb qt qtJacobiN) with true in F by (destruct Q as [-> | ->]; reflexivity).
  unfold highestTriangle in F. replace (p <=? 12)%Z with true in F by (symmetry; now apply Z.leb_le). cbn [andb simplexRule] in F.
  unfold highestTriangle in F. replace (12 <? p)%Z with false in F by (symmetry; now apply Z.ltb_ge). now injection F as <-.
Qed.
Lemma tetrahedron_is t p qt r : isSimplex t = true -> (qt = 0 \/ qt = 3)%nat -> (p <= 5)%Z -> factory lapack 3 t p qt = Some r ->
  r = storeRule tetrahedron (run tetrahedronInit) (tetrahedronM p).
Proof.
  intros H Q P F. rewrite factory_SS, choose_SS, H in F.
  replace (Nat.eqb qt qtLegendre || Nat.eqb qt qtJacobiN) with true in F by (destruct Q as [-> | ->]; reflexivity).
  unfold highestTetrahedron in F. replace (p <=? 5)%Z with true in F by (symmetry; now apply Z.leb_le). cbn [andb simplexRule] in F.
  unfold highestTetrahedron in F. replace (5 <? p)%Z with false in F by (symmetry; now apply Z.ltb_ge). now injection F as <-.
Qed.

(** one conical product: absolute error, relative error of the powers, number of points *)
Lemma chain d t p qt r A delta m :
  isSimplex t = true -> weightExp qt = 0%nat -> 0 <= delta -> (S d <= 4)%nat ->
  tensorPart lapack d t p qt = Some r ->
  (forall b, inRange (S d) (tpBase (gt_id t) (S d)) p qt = true -> factory lapack (S d) (tpBase (gt_id t) (S d)) p qt = Some b ->
     momExact 0 (topo_of 0 (S d)) (Z.to_nat p) A (ru_points b) /\ relOK 0 (S d) (Z.to_nat p) delta (ru_points b)
     /\ (m <= length (ru_points b))%nat) ->
  let R := eps1 * risingProduct (Z.to_nat p) (S (S d)) in
  ru_order r = p
  /\ momExact 0 (topo_of 0 (S (S d))) (Z.to_nat p) (A * (1 + eps1) + eps1) (ru_points r)
  /\ relOK 0 (S (S d)) (Z.to_nat p) (delta + R + delta * R) (ru_points r)
  /\ (m <= length (ru_points r))%nat.
Proof.
  intros H W Hd Hd4 T HB R. apply conical_parts in T; [|exact W|apply simplex_bits; [exact H|lia]].
  destruct T as (b & o & resp & T1 & T2 & T3 & T4 & T5). destruct (HB b T1 T2) as (B1 & B2 & B3).
  split; [exact T5|]. rewrite T4. split; [|split].
  - assert (X := conical_exact 0 (topo_of 0 (S d)) (Z.to_nat p) (ru_points b) o A eps1 1 1 B1).
    rewrite tdim_topo_of in X. eapply momExact_weaken; [|apply Nat.le_refl|].
    + change (topo_of 0 (S (S d))) with (Pyr (topo_of 0 (S d))). apply X with (respect := resp).
      * intros e. pose proof (momW_abs 0 (topo_of 0 (S d)) e) as Y. rewrite Cw0, pow1 in Y. exact Y.
      * intros a c. pose proof (bmom_abs 0 a c) as Y. rewrite Cw0 in Y. exact Y.
      * exact T3.
    + lra.
  - apply (conical_rel resp 0 (S d)); auto; rewrite eps1_val; lra.
  - rewrite conical_length. assert (1 <= length o)%nat; [|nia].
    eapply beta_nonempty; [|exact T3]. rewrite eps1_val. apply Rlt_le_trans with (/ 5); [lra|].
    apply Rinv_le_contravar; [apply lt_0_INR; lia|]. replace 5 with (INR 5) by (cbn; lra). apply le_INR. destruct resp; lia.
Qed.
End Accept.
