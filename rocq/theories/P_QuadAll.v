(** Every rule the factory builds: order, exactness, points and weights, by induction over the
    dimension. *)
From Coq Require Import NArith ZArith QArith PeanoNat Reals List Qreals Lia Lra Bool.
From Coquelicot Require Import Coquelicot.
From Verif Require Import M_Type M_TypeIndex M_RefGeo M_QuadFactory M_Tab M_TabGauss M_TabLobatto M_TabRadauLeft
  M_TabRadauRight M_TabJacobi1 M_TabJacobi2 M_TabSimplex M_Quadrature S_Topo S_Quad S_Quad1D S_QuadND
  P_Type P_Type2 P_Topo P_RefGeo2 P_RefVol P_QuadFactory P_QuadFix P_QuadProd P_QuadFixN P_TabSimplex P_QuadRules
  P_TabGauss P_TabLobatto P_TabRadauLeft P_TabRadauRight P_TabJacobi1 P_TabJacobi2.
Import ListNotations.
Local Open Scope R_scope.

(** ** the lowest bit of the topology id does not matter *)
Lemma topo_low id id' : N.shiftr id 1 = N.shiftr id' 1 -> forall dim,
  (forall alpha e, momW alpha (topo_of id dim) e = momW alpha (topo_of id' dim) e)
  /\ (forall x a, insideT (topo_of id dim) x a <-> insideT (topo_of id' dim) x a).
Proof.
  intros H. induction dim as [|[|d] [IH1 IH2]]; [split; reflexivity| |].
  - cbn [topo_of]. destruct (N.testbit id _), (N.testbit id' _); (split; [reflexivity|cbn [insideT]; tauto]).
  - change (topo_of id (S (S d))) with (if N.testbit id (N.of_nat (S d)) then Pri (topo_of id (S d)) else Pyr (topo_of id (S d))).
    change (topo_of id' (S (S d))) with (if N.testbit id' (N.of_nat (S d)) then Pri (topo_of id' (S d)) else Pyr (topo_of id' (S d))).
    rewrite (same_shift_bits id id' H (N.of_nat (S d))) by lia.
    destruct (N.testbit id' (N.of_nat (S d))); (split; [intros alpha e|intros x a]); cbn [momW insideT];
      rewrite ?IH1, ?IH2, ?tdim_topo_of; reflexivity.
Qed.

Lemma momExact_low id id' dim alpha n E pts : N.shiftr id 1 = N.shiftr id' 1 ->
  momExact alpha (topo_of id dim) n E pts -> momExact alpha (topo_of id' dim) n E pts.
Proof.
  intros H M e De. rewrite tdim_topo_of in *. specialize (M e). rewrite tdim_topo_of in M. specialize (M De).
  rewrite <- (proj1 (topo_low id id' H dim)). exact M.
Qed.
Lemma insidePts_low id id' dim pts : N.shiftr id 1 = N.shiftr id' 1 ->
  insidePts (topo_of id dim) pts -> insidePts (topo_of id' dim) pts.
Proof. intros H I q Hq. apply (proj2 (topo_low id id' H dim)). now apply I. Qed.

Lemma lor1_shift a b : N.lor a 1 = N.lor b 1 -> N.shiftr a 1 = N.shiftr b 1.
Proof.
  intros H. apply N.bits_inj. intros k. rewrite !N.shiftr_spec by lia.
  assert (E := f_equal (fun x => N.testbit x (k + 1)) H). cbn beta in E.
  rewrite !N.lor_spec, !testbit_1 in E. replace (k + 1 =? 0)%N with false in E by (symmetry; apply N.eqb_neq; lia).
  rewrite !orb_false_r in E. exact E.
Qed.

(** ** the tables against the common error bound *)
Lemma p10 k : (0 <= k)%Z -> 0 < IZR (10 ^ k).
Proof. intros H. apply IZR_lt, Z.pow_pos_nonneg; lia. Qed.

Lemma tableErr_eps1 p qt : eps1 <= tableErr p qt.
Proof.
  unfold eps1, tableErr. destruct (_ || _); [|lra]. destruct (p <=? 5)%Z; [|destruct (p =? 12)%Z; [|lra]].
  - change (10 ^ 20)%Z with (1000 * 10 ^ 17)%Z. rewrite mult_IZR, Rinv_mult_distr by (apply Rgt_not_eq; apply Rlt_gt; first [lra|now apply p10]).
    pose proof (Rinv_0_lt_compat _ (p10 17 ltac:(lia))). unfold Rdiv. apply Rmult_le_compat_r; lra.
  - change (10 ^ 20)%Z with (100000 * 10 ^ 15)%Z. rewrite mult_IZR, Rinv_mult_distr by (apply Rgt_not_eq; apply Rlt_gt; first [lra|now apply p10]).
    pose proof (Rinv_0_lt_compat _ (p10 15 ltac:(lia))). unfold Rdiv. apply Rmult_le_compat_r; lra.
Qed.

Lemma errD_lin e d : 0 <= e -> INR d * e <= errD 1 e d.
Proof.
  intros He. unfold errD. rewrite pow1. induction d as [|d IH]; [simpl; lra|].
  rewrite S_INR. cbn [pow]. assert (P : 1 <= (1 + e) ^ d) by (apply pow_R1_Rle; lra). nra.
Qed.

Lemma errD_pos C e d : 0 <= C -> 0 <= e -> 0 <= errD C e d.
Proof. intros H1 H2. unfold errD. assert (C ^ d <= (C + e) ^ d) by (apply pow_incr; lra). lra. Qed.

Section Factory.
Variable lapack : Z -> nat -> option (list (R * R)).
Variable e : R.
Hypothesis He : eps1 <= e.
Hypothesis Hl : lapackOk e lapack.

Lemma e_pos : 0 <= e.
Proof. pose proof eps1_pos. lra. Qed.

(** what is known of a rule of dimension [dim] *)
Definition goodN (id : N) (dim : nat) (p : Z) (qt : nat) (r : Rule) : Prop :=
  let T := topo_of id dim in
  (dim <> 0%nat -> (p <= ru_order r)%Z)
  /\ momExact (weightExp qt) T (Z.to_nat (ru_order r)) (errD (Cw (weightExp qt)) e dim) (ru_points r)
  /\ insidePts T (ru_points r)
  /\ ((p = 3%Z /\ (qt = 0 \/ qt = 3)%nat /\ (2 <= dim)%nat) \/ nonnegW (ru_points r)).

Lemma Cw0 : Cw 0 = 1.
Proof. unfold Cw. simpl. lra. Qed.

Lemma goodN_low id id' dim p qt r : N.shiftr id 1 = N.shiftr id' 1 -> goodN id dim p qt r -> goodN id' dim p qt r.
Proof.
  intros H (A & B & C & D). split; [exact A|]. split; [|split; [|exact D]].
  - eapply momExact_low; eauto.
  - eapply insidePts_low; eauto.
Qed.

Lemma tableErr_low p qt : (qt = 0 \/ qt = 3)%nat -> (p <= 5)%Z -> tableErr p qt <= e -> 5 / IZR (10 ^ 17) <= e.
Proof.
  intros Q P. unfold tableErr. replace (Nat.eqb qt 0 || Nat.eqb qt 3) with true by (destruct Q as [-> | ->]; reflexivity).
  replace (p <=? 5)%Z with true by (symmetry; now apply Z.leb_le). auto.
Qed.

Lemma wexp_table qt : (qt = 0 \/ qt = 3)%nat -> weightExp qt = 0%nat.
Proof. intros [-> | ->]; reflexivity. Qed.

Lemma triangle_good p qt : (qt = 0 \/ qt = 3)%nat -> (0 <= p <= 12)%Z -> tableErr p qt <= e ->
  goodN 0 2 p qt (storeRule triangle (run triangleInit) (triangleM p)).
Proof.
  intros Q P HE. destruct (triangle_R p P) as (A & B & C & D). split; [intros _; exact A|].
  rewrite (wexp_table qt Q), Cw0. change (topo_of 0 2) with TriT. split; [|split; [exact C|]].
  - eapply momExact_weaken; [exact B|lia|].
    apply Rle_trans with (INR 2 * e); [|apply errD_lin, e_pos]. replace (INR 2) with 2 by (simpl; lra).
    destruct (Z.eqb_spec p 12) as [->|N].
    + unfold tableErr in HE. replace (Nat.eqb qt 0 || Nat.eqb qt 3) with true in HE by (destruct Q as [-> | ->]; reflexivity).
      change (12 <=? 5)%Z with false in HE. change (12 =? 12)%Z with true in HE. cbv iota in HE.
      pose proof (Rinv_0_lt_compat _ (p10 15 ltac:(lia))). unfold Rdiv in *. lra.
    + pose proof He. unfold eps1 in H. pose proof (Rinv_0_lt_compat _ (p10 20 ltac:(lia))). unfold Rdiv. lra.
  - destruct (Z.eq_dec p 3) as [->|N]; [left; auto|right]. intros q I. apply Rlt_le. now apply D.
Qed.

Lemma tetrahedron_good p qt : (qt = 0 \/ qt = 3)%nat -> (0 <= p <= 5)%Z -> tableErr p qt <= e ->
  goodN 0 3 p qt (storeRule tetrahedron (run tetrahedronInit) (tetrahedronM p)).
Proof.
  intros Q P HE. destruct (tetrahedron_R p P) as (A & B & C & D). split; [intros _; exact A|].
  rewrite (wexp_table qt Q), Cw0. change (topo_of 0 3) with TetT. split; [|split; [exact C|]].
  - eapply momExact_weaken; [exact B|lia|].
    apply Rle_trans with (INR 3 * e); [|apply errD_lin, e_pos]. replace (INR 3) with 3 by (simpl; lra).
    apply tableErr_low in HE; auto; [|lia].
    pose proof (Rinv_0_lt_compat _ (p10 17 ltac:(lia))). unfold Rdiv in *. lra.
  - right. intros q I. apply Rlt_le. now apply D.
Qed.

Lemma prism_good p : (0 <= p <= 2)%Z -> tableErr p 0 <= e -> goodN 4 3 p 0 prismRule.
Proof.
  intros P HE. destruct prism_R as (A & B & C & D). split; [intros _; lia|].
  change (weightExp 0) with 0%nat. rewrite Cw0. change (topo_of 4 3) with PriT. split; [|split; [exact C|]].
  - eapply momExact_weaken; [exact B|lia|].
    apply Rle_trans with (INR 3 * e); [|apply errD_lin, e_pos]. replace (INR 3) with 3 by (simpl; lra).
    apply tableErr_low in HE; auto; [|lia].
    change (10 ^ 17)%Z with (10 * 10 ^ 16)%Z in HE. rewrite mult_IZR in HE. unfold Rdiv in *.
    rewrite Rinv_mult_distr in HE by (apply Rgt_not_eq; apply Rlt_gt; first [lra|now apply p10]).
    pose proof (Rinv_0_lt_compat _ (p10 16 ltac:(lia))). lra.
  - right. intros q I. apply Rlt_le. now apply D.
Qed.

Lemma line_good id p qt r : rule1D lapack p qt = Some r -> goodN id 1 p qt r.
Proof.
  intros H. apply (rule1D_good lapack e He Hl) in H. destruct H as (A & B & C & D & _).
  assert (M : forall e, momW (weightExp qt) (topo_of id 1) e = bmom (weightExp qt) 0 (e 0%nat)).
  { intros ex. cbn [topo_of]. destruct (N.testbit id _); cbn [momW tdim degree Nat.add]; ring. }
  split; [intros _; exact A|]. split; [|split; [|right; exact D]].
  - intros ex De. rewrite tdim_topo_of in *. rewrite M. specialize (B 0%nat (ex 0%nat)). cbn [degree Nat.add] in *.
    rewrite (quad_ext _ _ (fun y => (1 - y 0%nat) ^ 0 * y 0%nat ^ ex 0%nat)).
    2:{ intros x. cbn [monomial]. simpl. ring. }
    replace (errD (Cw (weightExp qt)) e 1) with e by (unfold errD; ring). apply B. exact De.
  - intros q I. specialize (C q I). cbn [topo_of]. destruct (N.testbit id _); cbn [insideT tdim]; auto.
Qed.

Lemma topo_base id d : topo_of (gt_id (tpBase id d)) d = topo_of id d.
Proof.
  unfold tpBase, GT2. cbn [gt_id]. apply topo_of_ext. intros k Hk. rewrite N.clearbit_eqb.
  replace (N.of_nat d =? N.of_nat k)%N with false by (symmetry; apply N.eqb_neq; lia). now rewrite andb_true_r.
Qed.

Lemma topo_S id d : topo_of id (S d) = if N.testbit id (N.of_nat d) then Pri (topo_of id d) else Pyr (topo_of id d).
Proof. reflexivity. Qed.

Lemma fetch_good p qt r : fetch1D lapack p qt = Some r -> good1 e (weightExp qt) 0 p r /\ (0 <= p)%Z.
Proof.
  unfold fetch1D. destruct (inRange 1 lineT p qt) eqn:E; [|discriminate].
  intros H. split; [exact (rule1D_good lapack e He Hl p qt r H)|].
  unfold inRange in E. destruct (maxOrder 1 lineT qt); [|discriminate]. rewrite andb_true_iff, Z.leb_le in E. tauto.
Qed.

Lemma tensor_good id d p qt b r : (1 <= d)%nat -> (0 <= p)%Z -> goodN id d p qt b ->
  ru_points r = ru_points r -> forall o, good1 e (weightExp qt) 0 p o ->
  N.testbit id (N.of_nat d) = true ->
  ru_order r = p -> ru_points r = tensorProduct d (ru_points b) (ru_points o) -> goodN id (S d) p qt r.
Proof.
  intros Hd Hp (A & B & C & D) _ o (OA & OB & OC & OD & _) Bit Ord Pts. specialize (A ltac:(lia)).
  split; [intros _; lia|]. rewrite topo_S, Bit, Ord, Pts. split; [|split].
  - rewrite <- errD_S.
    assert (X := tensor_exact (weightExp qt) (topo_of id d) (Z.to_nat p) (ru_points b) (ru_points o)
      (errD (Cw (weightExp qt)) e d) e (Cw (weightExp qt) ^ d) (Cw (weightExp qt))).
    rewrite tdim_topo_of in X. apply X.
    + eapply momExact_weaken; [exact B|lia|lra].
    + intros ex. rewrite <- (tdim_topo_of id d) at 2. apply momW_abs.
    + intros a c. apply bmom_abs.
    + eapply betaExact_weaken; [exact OB|lia|lra].
  - pose proof (tensor_inside (topo_of id d) (ru_points b) (ru_points o) C OC) as X. now rewrite tdim_topo_of in X.
  - destruct D as [(D1 & D2 & D3)|D]; [left; repeat split; auto; lia|right]. now apply tensor_nonneg.
Qed.

Lemma conical_good (respect : bool) id d p qt b r o : (1 <= d)%nat -> (0 <= p)%Z -> goodN id d p qt b ->
  good1 e (weightExp qt) (if respect then d else 0%nat) (if respect then p else p + Z.of_nat d)%Z o ->
  N.testbit id (N.of_nat d) = false ->
  ru_order r = p -> ru_points r = conicalProduct d respect (ru_points b) (ru_points o) -> goodN id (S d) p qt r.
Proof.
  intros Hd Hp (A & B & C & D) (OA & OB & OC & OD & _) Bit Ord Pts. specialize (A ltac:(lia)).
  split; [intros _; lia|]. rewrite topo_S, Bit, Ord, Pts. split; [|split].
  - rewrite <- errD_S.
    assert (X := conical_exact (weightExp qt) (topo_of id d) (Z.to_nat p) (ru_points b) (ru_points o)
      (errD (Cw (weightExp qt)) e d) e (Cw (weightExp qt) ^ d) (Cw (weightExp qt))).
    rewrite tdim_topo_of in X. apply X.
    + eapply momExact_weaken; [exact B|lia|lra].
    + intros ex. rewrite <- (tdim_topo_of id d) at 2. apply momW_abs.
    + intros a c. apply bmom_abs.
    + eapply betaExact_weaken; [exact OB| |lra]. destruct respect; lia.
  - pose proof (conical_inside (topo_of id d) respect (ru_points b) (ru_points o) C OC) as X. now rewrite tdim_topo_of in X.
  - destruct D as [(D1 & D2 & D3)|D]; [left; repeat split; auto; lia|right]. now apply conical_nonneg.
Qed.

Lemma simplex_id t : isSimplex t = true -> N.shiftr 0 1 = N.shiftr (gt_id t) 1.
Proof.
  unfold isSimplex. rewrite andb_true_iff, N.eqb_eq. intros [_ H]. apply lor1_shift. rewrite H. reflexivity.
Qed.
Lemma prism_id t : isPrismT t = true -> N.shiftr 4 1 = N.shiftr (gt_id t) 1.
Proof.
  unfold isPrismT, named. rewrite !andb_true_iff, N.eqb_eq. intros [_ H]. apply lor1_shift. rewrite H. reflexivity.
Qed.

Definition tensorPart (d : nat) (t : GeometryType) (p : Z) (qt : nat) : option Rule :=
  match (if inRange (S d) (tpBase (gt_id t) (S d)) p qt then factory lapack (S d) (tpBase (gt_id t) (S d)) p qt else None) with
  | None => None
  | Some b =>
      option_map (mkRule (GT2 (gt_id t) (S (S d))) p)
        (if tpPrism (gt_id t) (S d) then
           option_map (fun o => tensorProduct (S d) (ru_points b) (ru_points o)) (fetch1D lapack p qt)
         else if Nat.eqb qt qtJacobiN then
           option_map (fun o => conicalProduct (S d) true (ru_points b) (ru_points o)) (jacobiN lapack p (S d))
         else
           option_map (fun o => conicalProduct (S d) false (ru_points b) (ru_points o))
             (fetch1D lapack (p + Z.of_nat (S d)) qt))
  end.

Lemma factory_SS d t p qt : factory lapack (S (S d)) t p qt =
  match choose (S (S d)) t p qt with
  | ChSimplex => simplexRule (S (S d)) p
  | ChPrism => Some prismRule
  | _ => tensorPart d t p qt
  end.
Proof.
  unfold tensorPart. cbn [factory].
  destruct (choose_dim2 d t p qt _ eq_refl) as [E|[E|E]]; rewrite E; reflexivity.
Qed.

Lemma tensorPart_good d t p qt r :
  (forall t' r', inRange (S d) t' p qt = true -> factory lapack (S d) t' p qt = Some r' -> goodN (gt_id t') (S d) p qt r') ->
  tensorPart d t p qt = Some r -> goodN (gt_id t) (S (S d)) p qt r.
Proof.
  intros IH H. unfold tensorPart in H.
  destruct (inRange (S d) (tpBase (gt_id t) (S d)) p qt) eqn:R1; [|discriminate].
  destruct (factory lapack (S d) (tpBase (gt_id t) (S d)) p qt) as [b|] eqn:F; [|discriminate].
  assert (Hp : (0 <= p)%Z).
  { unfold inRange in R1. destruct (maxOrder _ _ _); [|discriminate]. rewrite andb_true_iff, Z.leb_le in R1. tauto. }
  apply IH in F; [|exact R1].
  assert (G : goodN (gt_id t) (S d) p qt b).
  { destruct F as (A & B & C & D). split; [exact A|]. rewrite topo_base in B, C. auto. }
  unfold tpPrism in H. destruct (N.testbit (gt_id t) (N.of_nat (S d))) eqn:Bit.
  - destruct (fetch1D lapack p qt) as [o|] eqn:O; [|discriminate]. apply fetch_good in O. injection H as <-.
    eapply tensor_good; try eassumption; try reflexivity; [lia|apply O].
  - destruct (Nat.eqb_spec qt qtJacobiN) as [->|N].
    + destruct (jacobiN lapack p (S d)) as [o|] eqn:O; [|discriminate]. apply (jacobiN_good lapack e He Hl) in O. injection H as <-.
      eapply (conical_good true); try eassumption; try reflexivity. lia.
    + destruct (fetch1D lapack (p + Z.of_nat (S d)) qt) as [o|] eqn:O; [|discriminate]. apply fetch_good in O. injection H as <-.
      eapply (conical_good false); try eassumption; try reflexivity; [lia|apply O].
Qed.

Lemma table_qt qt : (Nat.eqb qt qtLegendre || Nat.eqb qt qtJacobiN) = true -> (qt = 0 \/ qt = 3)%nat.
Proof. rewrite orb_true_iff, !Nat.eqb_eq. auto. Qed.

Lemma factory_good dim : forall t p qt r, tableErr p qt <= e -> inRange dim t p qt = true ->
  factory lapack dim t p qt = Some r -> goodN (gt_id t) dim p qt r.
Proof.
  induction dim as [|[|d] IH]; intros t p qt r HE HR H.
  - cbn [factory choose] in H. destruct (isVertex t); [|discriminate]. injection H as <-.
    split; [intros X; now elim X|]. cbn [topo_of]. split; [|split].
    + intros ex _. cbn [pointRule ru_points quad fst snd tdim monomial momW]. unfold errD. rewrite !pow_O.
      replace (1 * 1 + 0 - 1) with 0 by ring. rewrite Rabs_R0. lra.
    + intros q _. exact I.
    + right. intros q [<-|[]]. cbn [snd]. lra.
  - cbn [factory choose] in H. destruct (isLine t); [|discriminate]. destruct (Nat.ltb qt qtSize); [|discriminate].
    now apply line_good.
  - assert (Hp : (0 <= p)%Z).
    { unfold inRange in HR. destruct (maxOrder _ _ _); [|discriminate]. rewrite andb_true_iff, Z.leb_le in HR. tauto. }
    assert (IH' : forall t' r', inRange (S d) t' p qt = true -> factory lapack (S d) t' p qt = Some r' -> goodN (gt_id t') (S d) p qt r').
    { intros t' r' R' F'. now apply IH. }
    rewrite factory_SS, choose_SS in H.
    destruct d as [|[|d]].
    + destruct (isSimplex t && _ && _) eqn:C.
      * rewrite !andb_true_iff, Z.leb_le in C. destruct C as ((C1 & C2) & C3). unfold highestTriangle in C3.
        cbn [simplexRule] in H. unfold highestTriangle in H. replace (12 <? p)%Z with false in H by (symmetry; apply Z.ltb_ge; lia).
        injection H as <-. apply (goodN_low 0); [now apply simplex_id|]. apply triangle_good; auto using table_qt.
      * now apply tensorPart_good.
    + destruct (isSimplex t && _ && _) eqn:C.
      * rewrite !andb_true_iff, Z.leb_le in C. destruct C as ((C1 & C2) & C3). unfold highestTetrahedron in C3.
        cbn [simplexRule] in H. unfold highestTetrahedron in H. replace (5 <? p)%Z with false in H by (symmetry; apply Z.ltb_ge; lia).
        injection H as <-. apply (goodN_low 0); [now apply simplex_id|]. apply tetrahedron_good; auto using table_qt.
      * destruct (isPrismT t && _ && _) eqn:C'; [|now apply tensorPart_good].
        rewrite !andb_true_iff, Z.leb_le, Nat.eqb_eq in C'. destruct C' as ((C1 & ->) & C3). unfold highestPrism in C3.
        injection H as <-. apply (goodN_low 4); [now apply prism_id|]. apply prism_good; auto.
    + now apply tensorPart_good.
Qed.
End Factory.

(** ** every valid request is answered *)
Section Exists.
Variable lapack : Z -> nat -> option (list (R * R)).

Definition lapackNeeded (r : Req) : Prop :=
  rq_qt r = qtJacobiN /\ ((61 <= rq_p r)%Z \/ (4 <= rq_dim r)%nat).
Definition lapackTotal : Prop := forall p alpha, (0 <= p <= 127)%Z -> lapack p alpha <> None.

Lemma jacobiN_some p alpha : (0 <= p <= 127)%Z -> lapackTotal \/ ((p < 61)%Z /\ (alpha <= 2)%nat) ->
  exists r, jacobiN lapack p alpha = Some r.
Proof.
  intros Hp HL. unfold jacobiN, maxOrderJacobiN.
  replace (p <? 0)%Z with false by (symmetry; apply Z.ltb_ge; lia).
  replace (127 <? p)%Z with false by (symmetry; apply Z.ltb_ge; lia). cbn [orb].
  cut (exists pts, decideRule lapack p alpha = Some pts).
  { intros (pts & ->). eexists. reflexivity. }
  unfold decideRule. destruct (jacobiTable p alpha) as [q|] eqn:J.
  - apply jacobiTable_lt in J. destruct J as [J1 J2].
    destruct q as [|[|[|q]]]; [| | |lia].
    + destruct (proj2 (tableRule_some 0 1 61 gaussTable p ltac:(lia) gauss_ok) ltac:(lia)) as (r & ->). eexists. reflexivity.
    + destruct (proj2 (tableRule_some 1 1 61 jacobi1Table p ltac:(lia) jacobi1_ok) ltac:(lia)) as (r & ->). eexists. reflexivity.
    + destruct (proj2 (tableRule_some 2 1 61 jacobi2Table p ltac:(lia) jacobi2_ok) ltac:(lia)) as (r & ->). eexists. reflexivity.
  - destruct HL as [HL|[H1 H2]].
    + specialize (HL p alpha Hp). destruct (lapack p alpha); [eexists; reflexivity|contradiction].
    + unfold jacobiTable, highestGauss, highestJacobi1, highestJacobi2 in J. cbn [Z.min Z.compare] in J.
      replace (p <? _)%Z with true in J by (symmetry; apply Z.ltb_lt; exact H1).
      destruct alpha as [|[|[|alpha]]]; try discriminate. lia.
Qed.

Lemma rule1D_some p qt m : (qt < qtSize)%nat -> maxOrder1 qt = Some m -> (0 <= p <= m)%Z ->
  (qt = qtJacobiN -> lapackTotal \/ (p < 61)%Z) -> exists r, rule1D lapack p qt = Some r.
Proof.
  unfold qtSize. intros Q M Hp HL.
  destruct qt as [|[|[|[|[|[|[|qt]]]]]]]; [| | | | | | |lia]; injection M as <-; cbn [rule1D].
  - apply (tableRule_some 0 1 61); auto using gauss_ok.
  - apply (tableRule_some 1 1 61); auto using jacobi1_ok.
  - apply (tableRule_some 2 1 61); auto using jacobi2_ok.
  - apply jacobiN_some; [exact Hp|]. destruct (HL eq_refl); auto.
  - apply (tableRule_some 0 3 31); auto using lobatto_ok.
  - apply (tableRule_some 0 2 30); auto using radauLeft_ok.
  - apply (tableRule_some 0 2 30); auto using radauRight_ok.
Qed.

Lemma valid_inRange r : valid r -> inRange (rq_dim r) (rq_t r) (rq_p r) (rq_qt r) = true.
Proof.
  intros (A & B & C & N1 & Q & P). unfold inRange. destruct (rq_dim r) as [|d] eqn:E; [reflexivity|].
  destruct P as [P|(m & Em & Bm)]; [discriminate|]. rewrite Em. rewrite andb_true_iff, !Z.leb_le. lia.
Qed.

Lemma fetch_some r : valid r -> rq_dim r = 1%nat -> rq_t r = lineT ->
  (rq_qt r = qtJacobiN -> lapackTotal \/ (rq_p r < 61)%Z) -> exists o, fetch1D lapack (rq_p r) (rq_qt r) = Some o.
Proof.
  intros V D T HL. pose proof (valid_inRange r V) as I. rewrite D, T in I. unfold fetch1D. rewrite I.
  destruct V as (_ & _ & _ & _ & Q & P). rewrite D in P. destruct P as [P|(m & Em & Bm)]; [discriminate|].
  rewrite T in Em. cbn in Em. eapply rule1D_some; eauto.
Qed.

Lemma quadRule_some r : valid r -> (lapackNeeded r -> lapackTotal) -> exists x, quadRule lapack r = Some x.
Proof.
  cut (forall n r, rq_dim r = n -> valid r -> (lapackNeeded r -> lapackTotal) -> exists x, quadRule lapack r = Some x).
  { intros H. apply (H (rq_dim r) r eq_refl). }
  clear r. induction n as [|[|d] IH]; intros [dim t p qt] D V HL; cbn [rq_dim] in D; subst dim;
    unfold quadRule; rewrite (valid_inRange _ V); cbn [rq_dim rq_t rq_p rq_qt].
  - pose proof V as (_ & B & _). cbn [rq_t rq_dim] in B. cbn [factory choose]. unfold isVertex. rewrite B. eexists. reflexivity.
  - pose proof V as (_ & B & _ & _ & Q & P). cbn [rq_t rq_dim rq_qt rq_p] in *. cbn [factory choose]. unfold isLine. rewrite B.
    cbn [Nat.eqb]. replace (Nat.ltb qt qtSize) with true by (symmetry; now apply Nat.ltb_lt).
    destruct P as [P|(m & Em & Bm)]; [discriminate|]. cbn [maxOrder] in Em. unfold isLine in Em. rewrite B in Em. cbn [Nat.eqb] in Em.
    eapply rule1D_some; eauto. intros ->. destruct (Z_lt_le_dec p 61); [now right|left]. apply HL. split; [reflexivity|now left].
  - pose proof V as (A & B & C & N1 & Q & P). cbn [rq_t rq_dim rq_qt rq_p] in *.
    destruct P as [P|(m & Em & Bm)]; [discriminate|].
    assert (Bm127 : (0 <= p <= 127)%Z).
    { destruct (maxOrder_some (mkReq (S (S d)) t p qt) A B Q (Nat.neq_succ_0 _)) as (m' & Em' & Bm'). cbn [rq_dim rq_t rq_qt] in *. rewrite Em in Em'. injection Em' as <-. lia. }
    assert (TP : choose (S (S d)) t p qt = ChTensor (tpBase (gt_id t) (S d)) (tpPrism (gt_id t) (S d)) ->
                 exists x, tensorPart lapack d t p qt = Some x).
    { intros CH. pose proof (subs_valid _ V) as SV. rewrite List.Forall_forall in SV. unfold subs in SV.
      cbn [rq_dim rq_t rq_p rq_qt] in SV. rewrite CH in SV. replace (S (S d) - 1)%nat with (S d) in SV by lia.
      set (base := tpBase (gt_id t) (S d)) in *.
      assert (Vb : valid (mkReq (S d) base p qt)) by (apply SV; now left).
      destruct (IH (mkReq (S d) base p qt) eq_refl Vb) as (b & Eb).
      { intros [H1 H2]. apply HL. cbn [rq_qt rq_p rq_dim] in *. split; [exact H1|]. destruct H2; [now left|right; cbn; lia]. }
      unfold quadRule in Eb. cbn [rq_dim rq_t rq_p rq_qt] in Eb. unfold tensorPart. fold base. rewrite Eb.
      destruct (tpPrism (gt_id t) (S d)) eqn:TPr.
      - destruct (fetch_some (mkReq 1 lineT p qt)) as (o & Eo); [apply SV; right; now left|reflexivity|reflexivity| |].
        + cbn [rq_qt rq_p]. intros ->. destruct (Z_lt_le_dec p 61); [now right|left]. apply HL. split; [reflexivity|now left].
        + cbn [rq_qt rq_p] in Eo. rewrite Eo. eexists. reflexivity.
      - destruct (Nat.eqb_spec qt qtJacobiN) as [->|N].
        + destruct (jacobiN_some p (S d) Bm127) as (o & Eo).
          { destruct (Z_lt_le_dec p 61) as [L|L]; [|left; apply HL; split; [reflexivity|now left]].
            destruct (le_lt_dec (S d) 2) as [L2|L2]; [now right|left]. apply HL. split; [reflexivity|right; cbn; lia]. }
          rewrite Eo. eexists. reflexivity.
        + destruct (fetch_some (mkReq 1 lineT (p + Z.of_nat (S d)) qt)) as (o & Eo); [apply SV; right; now left|reflexivity|reflexivity| |].
          * cbn [rq_qt]. intros ->. now elim N.
          * cbn [rq_qt rq_p] in Eo. rewrite Eo. eexists. reflexivity. }
    rewrite factory_SS. pose proof (choose_SS d t p qt) as CS.
    destruct (choose_dim2 d t p qt _ eq_refl) as [E|[E|E]]; rewrite E; [|eexists; reflexivity|auto].
    rewrite E in CS. destruct d as [|[|d]].
    + destruct (isSimplex t && _ && _) eqn:X; [|discriminate]. rewrite !andb_true_iff, Z.leb_le in X.
      cbn [simplexRule]. replace (highestTriangle <? p)%Z with false by (symmetry; apply Z.ltb_ge; tauto). eexists. reflexivity.
    + destruct (isSimplex t && _ && _) eqn:X; [|destruct (isPrismT t && _ && _); discriminate]. rewrite !andb_true_iff, Z.leb_le in X.
      cbn [simplexRule]. replace (highestTetrahedron <? p)%Z with false by (symmetry; apply Z.ltb_ge; tauto). eexists. reflexivity.
    + discriminate.
Qed.
End Exists.
