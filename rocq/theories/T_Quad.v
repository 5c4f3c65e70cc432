(** C40 (delivered order), C41, C42 and C43: the quadrature tables, the products and the rules
    returned for every request. *)
From Coq Require Import NArith ZArith QArith PeanoNat Reals List Qreals Lia Lra Bool.
From Coquelicot Require Import Coquelicot.
From Verif Require Import M_Type M_TypeIndex M_RefGeo M_QuadFactory M_Tab M_TabGauss M_TabLobatto M_TabRadauLeft
  M_TabRadauRight M_TabJacobi1 M_TabJacobi2 M_TabSimplex M_Quadrature S_Topo S_RefGeo S_Quad S_Quad1D S_QuadND
  P_Type P_Type2 P_Topo P_RefGeo2 P_RefGeo4 P_RefVol P_QuadFactory P_QuadFix P_QuadProd P_QuadFixN P_TabSimplex P_QuadRules
  P_TabGauss P_TabLobatto P_TabRadauLeft P_TabRadauRight P_TabJacobi1 P_TabJacobi2 P_QuadAll.
Import ListNotations.
Local Open Scope R_scope.

(** ** C41: the one dimensional tables.  For every polynomial with real coefficients, of every
    degree up to the delivered order. *)
Lemma tab_correct alpha gap hi tab : (alpha <= 2)%nat -> tab_ok alpha gap hi tab = true ->
  tableCorrect alpha gap (Z.of_nat hi) (/ IZR (10 ^ 20)) tab.
Proof.
  intros Ha H p. destruct (tab_ok_spec alpha gap hi tab p Ha H) as [A B]. split; [exact A|].
  intros e He. destruct (B e He) as (B1 & B2 & B3 & B4 & _). auto.
Qed.

Theorem C41_gauss_legendre : tableCorrect 0 1 61 (/ IZR (10 ^ 20)) gaussTable.
Proof. apply (tab_correct 0 1 61); [lia|exact gauss_ok]. Qed.
Print Assumptions C41_gauss_legendre.
Theorem C41_gauss_lobatto : tableCorrect 0 3 31 (/ IZR (10 ^ 20)) lobattoTable.
Proof. apply (tab_correct 0 3 31); [lia|exact lobatto_ok]. Qed.
Print Assumptions C41_gauss_lobatto.
Theorem C41_gauss_radau_left : tableCorrect 0 2 30 (/ IZR (10 ^ 20)) radauLeftTable.
Proof. apply (tab_correct 0 2 30); [lia|exact radauLeft_ok]. Qed.
Print Assumptions C41_gauss_radau_left.
Theorem C41_gauss_radau_right : tableCorrect 0 2 30 (/ IZR (10 ^ 20)) radauRightTable.
Proof. apply (tab_correct 0 2 30); [lia|exact radauRight_ok]. Qed.
Print Assumptions C41_gauss_radau_right.
(** the two Gauss-Jacobi tables, with the weight functions 2(1-x) and 4(1-x)^2 *)
Theorem C41_gauss_jacobi_1 : tableCorrect 1 1 61 (/ IZR (10 ^ 20)) jacobi1Table.
Proof. apply (tab_correct 1 1 61); [lia|exact jacobi1_ok]. Qed.
Print Assumptions C41_gauss_jacobi_1.
Theorem C41_gauss_jacobi_2 : tableCorrect 2 1 61 (/ IZR (10 ^ 20)) jacobi2Table.
Proof. apply (tab_correct 2 1 61); [lia|exact jacobi2_ok]. Qed.
Print Assumptions C41_gauss_jacobi_2.

(** the end points that characterise Lobatto and Radau rules are present up to 1e-99 *)
Lemma node_chk (d y : Q) tab :
  forallb (fun e => existsb (fun xw => Qle_bool (y - d) (fst xw) && Qle_bool (fst xw) (y + d)) (en_data e)) tab = true ->
  hasNode (Q2R d) (Q2R y) tab.
Proof.
  intros H p e He. apply switchOn_In in He. destruct He as [I _]. rewrite forallb_forall in H. specialize (H e I).
  apply existsb_exists in H. destruct H as ([x w] & J & E). exists x, w. split; [exact J|].
  cbn [fst] in E. apply andb_true_iff in E. destruct E as [E1 E2]. apply Qle_bool_iff, Qle_Rle in E1. apply Qle_bool_iff, Qle_Rle in E2.
  rewrite Q2R_minus in E1. rewrite Q2R_plus in E2. apply Rabs_le. lra.
Qed.
Theorem C41_end_points : let d := / IZR (10 ^ 99) in
  hasNode d 0 lobattoTable /\ hasNode d 1 lobattoTable /\ hasNode d 0 radauLeftTable /\ hasNode d 1 radauRightTable.
Proof.
  intros d. replace d with (Q2R (1 # 10 ^ 99)) by (unfold Q2R, d; cbn [Qnum Qden]; rewrite Rmult_1_l; reflexivity).
  replace 1 with (Q2R 1) by (unfold Q2R; cbn; lra). replace 0 with (Q2R 0) by (unfold Q2R; cbn; lra).
  repeat apply conj; apply node_chk; vm_compute; reflexivity.
Qed.
Print Assumptions C41_end_points.

(** but not exactly: the seven point Lobatto rule has no point at 0 (nor has, as 2.9e-121 is a
    double, the rule a program works with) *)
Theorem C41_end_points_exact_refuted :
  exists p e, switchOn lobattoTable p = Some e /\ length (en_data e) = 7%nat
    /\ forall x w, In (x, w) (en_data e) -> 0 < Q2R x.
Proof.
  exists 11%Z. destruct (proj2 (proj1 (C41_gauss_lobatto 11%Z)) ltac:(lia)) as (e & He). exists e.
  split; [exact He|].
  assert (G : option_map (fun e => (length (en_data e), forallb (fun xw => Z.ltb 0 (Qnum (fst xw))) (en_data e))) (switchOn lobattoTable 11)
              = Some (7%nat, true)) by (vm_compute; reflexivity).
  rewrite He in G. injection G as G1 G2. split; [exact G1|]. intros x w I. rewrite forallb_forall in G2.
  specialize (G2 _ I). apply Z.ltb_lt in G2. unfold Q2R. apply Rmult_lt_0_compat; [now apply IZR_lt|].
  apply Rinv_0_lt_compat. now apply IZR_lt.
Qed.
Print Assumptions C41_end_points_exact_refuted.

(** The six highest_order constants that maxOrder uses are those of the tables. *)
Theorem C41_highest_order : forall p qt, (qt < 7)%nat -> qt <> 3%nat ->
  ((exists r, rule1D (fun _ _ => None) p qt = Some r) <-> (exists m, maxOrder1 qt = Some m /\ (0 <= p <= m)%Z)).
Proof.
  intros p qt Q N. destruct qt as [|[|[|[|[|[|[|qt]]]]]]]; [| | |now elim N| | | |lia]; cbn [rule1D maxOrder1].
  - rewrite (tableRule_some 0 1 61 gaussTable p ltac:(lia) gauss_ok). split; [intros H; exists 61%Z; auto|intros (m & E & H); injection E as <-; exact H].
  - rewrite (tableRule_some 1 1 61 jacobi1Table p ltac:(lia) jacobi1_ok). split; [intros H; exists 61%Z; auto|intros (m & E & H); injection E as <-; exact H].
  - rewrite (tableRule_some 2 1 61 jacobi2Table p ltac:(lia) jacobi2_ok). split; [intros H; exists 61%Z; auto|intros (m & E & H); injection E as <-; exact H].
  - rewrite (tableRule_some 0 3 31 lobattoTable p ltac:(lia) lobatto_ok). split; [intros H; exists 31%Z; auto|intros (m & E & H); injection E as <-; exact H].
  - rewrite (tableRule_some 0 2 30 radauLeftTable p ltac:(lia) radauLeft_ok). split; [intros H; exists 30%Z; auto|intros (m & E & H); injection E as <-; exact H].
  - rewrite (tableRule_some 0 2 30 radauRightTable p ltac:(lia) radauRight_ok). split; [intros H; exists 30%Z; auto|intros (m & E & H); injection E as <-; exact H].
Qed.
Print Assumptions C41_highest_order.

(** The three point Gauss rule applied to 1 - 2x + 10 x^4: the integral is 2. *)
Example C41_example :
  exists e, switchOn gaussTable 4 = Some e /\ length (en_data e) = 3%nat /\ en_order e = 5%Z
    /\ Rabs (qsum (en_data e) (fun x => 1 - 2 * x + 10 * x ^ 4) - 2) <= 13 / IZR (10 ^ 20).
Proof.
  destruct (proj2 (proj1 (C41_gauss_legendre 4%Z)) ltac:(lia)) as (e & He). exists e. split; [exact He|].
  assert (S1 : switchOn gaussTable 4 = Some e) by exact He.
  destruct (proj2 (C41_gauss_legendre 4%Z) e He) as (_ & O & _ & X).
  assert (L : (length (en_data e), en_order e) = (3%nat, 5%Z)).
  { assert (G : option_map (fun e => (length (en_data e), en_order e)) (switchOn gaussTable 4) = Some (3%nat, 5%Z)) by (vm_compute; reflexivity).
    rewrite S1 in G. injection G as G1 G2. now rewrite G1, G2. }
  injection L as L1 L2. split; [exact L1|]. split; [exact L2|].
  specialize (X [1; -2; 0; 0; 10]). rewrite L2 in X. specialize (X ltac:(cbn; lia)).
  cbn [norm1] in X. rewrite !Rabs_R0, (Rabs_right 1), (Rabs_right 10), (Rabs_left (-2)) in X by lra.
  replace (13 / IZR (10 ^ 20)) with (/ IZR (10 ^ 20) * (1 + (- -2 + (0 + (0 + (10 + 0)))))) by (unfold Rdiv; ring).
  replace (qsum (en_data e) (fun x => 1 - 2 * x + 10 * x ^ 4)) with (qsum (en_data e) (poly [1; -2; 0; 0; 10])).
  2:{ generalize (en_data e). induction l as [|[x w] l IH]; cbn [qsum]; [reflexivity|]. rewrite IH. f_equal. f_equal. cbn [poly]. ring. }
  assert (I2 : RInt (fun x => omega 0 x * poly [1; -2; 0; 0; 10] x) 0 1 = 2); [|rewrite I2 in X; exact X].
  apply (is_RInt_unique (V := R_CompleteNormedModule)).
  evar_last.
  - apply (is_RInt_derive (fun x => x - x ^ 2 + 2 * x ^ 5)).
    + intros x _. auto_derive; [exact I|]. unfold omega. cbn [poly pow]. ring.
    + intros x _. apply (ex_derive_continuous (K := R_AbsRing) (V := R_NormedModule)). unfold omega. cbn [poly pow]. auto_derive. exact I.
  - unfold minus, plus, opp. simpl. ring.
Qed.

(** ** C42: the triangle, tetrahedron and prism tables *)

(** All assignments of the initialisation stay inside the arrays G[MAXP+1][MAXP], W, O. *)
Definition inBounds (maxp dim : nat) (a : Assign) : Prop :=
  match a with
  | AG m i j _ => (m <= maxp /\ i < maxp /\ j < dim)%nat
  | AV m i _ | AW m i _ => (m <= maxp /\ i < maxp)%nat
  | AO m _ => (m <= maxp)%nat
  end.
Definition inBoundsB (maxp dim : nat) (a : Assign) : bool :=
  match a with
  | AG m i j _ => Nat.leb m maxp && Nat.ltb i maxp && Nat.ltb j dim
  | AV m i _ | AW m i _ => Nat.leb m maxp && Nat.ltb i maxp
  | AO m _ => Nat.leb m maxp
  end.
Lemma inBoundsB_ok maxp dim l : forallb (inBoundsB maxp dim) l = true -> List.Forall (inBounds maxp dim) l.
Proof.
  intros H. apply List.Forall_forall. intros a I. rewrite forallb_forall in H. specialize (H a I).
  destruct a; cbn [inBounds inBoundsB] in *; rewrite ?andb_true_iff, ?Nat.leb_le, ?Nat.ltb_lt in H; tauto.
Qed.
Theorem C42_in_bounds :
  List.Forall (inBounds 33 2) triangleInit /\ List.Forall (inBounds 15 3) tetrahedronInit
  /\ List.Forall (inBounds 6 3) prismInit.
Proof. repeat apply conj; apply inBoundsB_ok; vm_compute; reflexivity. Qed.
Print Assumptions C42_in_bounds.

Lemma weights_sum alpha T n err pts : momExact alpha T n err pts ->
  Rabs (quad pts (fun _ => 1) - IintW alpha T (fun _ => 1)) <= err.
Proof.
  intros H. apply momExact_exact in H. specialize (H [(1, fun _ => 0%nat)]).
  assert (E : forall x, peval (tdim T) [(1, fun _ => 0%nat)] x = 1).
  { intros x. cbn [peval]. replace (monomial (tdim T) (fun _ => 0%nat) x) with 1; [ring|].
    clear. induction (tdim T) as [|m IH]; cbn [monomial]; [reflexivity|]. rewrite <- IH, pow_O. ring. }
  rewrite (quad_ext _ _ _ E), (IintW_ext _ _ _ _ E) in H. cbn [pnorm] in H. rewrite Rabs_R1 in H.
  replace (err * (1 + 0)) with err in H by ring. apply H.
  intros c e [[= <- <-]|[]]. replace (degree (tdim T) (fun _ => 0%nat)) with 0%nat; [lia|].
  clear. induction (tdim T) as [|m IH]; cbn [degree]; lia.
Qed.
Lemma weights_volume T n err pts : momExact 0 T n err pts -> Rabs (quad pts (fun _ => 1) - volumeT T) <= err.
Proof. intros H. apply weights_sum in H. rewrite IintW_Iint in H. exact H. Qed.

Lemma hull_of id dim pts : insidePts (topo_of id dim) pts ->
  forall q, In q pts -> in_hull dim (referenceCorners id dim) (fst q).
Proof.
  intros H q I. rewrite corners_verts. rewrite <- (tdim_topo_of id dim) at 1. apply in_hull_insideT. now apply H.
Qed.

(** triangle: order 12 with error 3e-15, all others with 1e-20 *)
Theorem C42_triangle : forall p, (0 <= p <= 12)%Z ->
  let err := if Z.eqb p 12 then 3 / IZR (10 ^ 15) else 1 / IZR (10 ^ 20) in
  exists r, simplexRule 2 p = Some r /\ (p <= ru_order r)%Z
    /\ exactND 0 (topo_of 0 2) (Z.to_nat (ru_order r)) err (ru_points r)
    /\ (forall q, In q (ru_points r) -> in_hull 2 (referenceCorners 0 2) (fst q))
    /\ Rabs (quad (ru_points r) (fun _ => 1) - volumeT (topo_of 0 2)) <= err
    /\ (p <> 3%Z -> forall q, In q (ru_points r) -> 0 < snd q).
Proof.
  intros p Hp err. destruct (triangle_R p Hp) as (A & B & C & D). fold err in B.
  eexists. split; [cbn [simplexRule]; unfold highestTriangle; now replace (12 <? p)%Z with false by (symmetry; apply Z.ltb_ge; lia)|].
  split; [exact A|]. split; [now apply momExact_exact|]. split; [now apply hull_of|]. split; [now apply (weights_volume TriT) in B|exact D].
Qed.
Print Assumptions C42_triangle.

(** the order 3 triangle rule has a negative weight *)
Theorem C42_triangle_negative_weight_refuted :
  exists r q, simplexRule 2 3 = Some r /\ In q (ru_points r) /\ snd q = - 9 / 32.
Proof.
  exists (storeRule triangle (run triangleInit) 4), ((fun k => Q2R (st_G (run triangleInit) 4 0 k)) : Vec, Q2R (st_W (run triangleInit) 4 0)).
  split; [reflexivity|]. split; [left; reflexivity|]. cbn [snd].
  assert (E : Qeq (st_W (run triangleInit) 4 0) (-9 # 32)) by (apply Qeq_bool_iff; vm_compute; reflexivity).
  rewrite (Qeq_eqR _ _ E). unfold Q2R. cbn. lra.
Qed.
Print Assumptions C42_triangle_negative_weight_refuted.

Theorem C42_tetrahedron : forall p, (0 <= p <= 5)%Z ->
  exists r, simplexRule 3 p = Some r /\ (p <= ru_order r)%Z
    /\ exactND 0 (topo_of 0 3) (Z.to_nat (ru_order r)) (1 / IZR (10 ^ 17)) (ru_points r)
    /\ (forall q, In q (ru_points r) -> in_hull 3 (referenceCorners 0 3) (fst q))
    /\ Rabs (quad (ru_points r) (fun _ => 1) - volumeT (topo_of 0 3)) <= 1 / IZR (10 ^ 17)
    /\ (forall q, In q (ru_points r) -> 0 < snd q).
Proof.
  intros p Hp. destruct (tetrahedron_R p Hp) as (A & B & C & D).
  eexists. split; [cbn [simplexRule]; unfold highestTetrahedron; now replace (5 <? p)%Z with false by (symmetry; apply Z.ltb_ge; lia)|].
  split; [exact A|]. split; [now apply momExact_exact|]. split; [now apply hull_of|]. split; [now apply (weights_volume TetT) in B|exact D].
Qed.
Print Assumptions C42_tetrahedron.

Theorem C42_prism :
  (2 <= ru_order prismRule)%Z
  /\ exactND 0 (topo_of 5 3) (Z.to_nat (ru_order prismRule)) (1 / IZR (10 ^ 16)) (ru_points prismRule)
  /\ (forall q, In q (ru_points prismRule) -> in_hull 3 (referenceCorners 5 3) (fst q))
  /\ Rabs (quad (ru_points prismRule) (fun _ => 1) - volumeT (topo_of 5 3)) <= 1 / IZR (10 ^ 16)
  /\ (forall q, In q (ru_points prismRule) -> 0 < snd q).
Proof.
  destruct prism_R as (A & B & C & D). split; [exact A|].
  apply (momExact_low 4 5 3) in B; [|reflexivity]. apply (insidePts_low 4 5 3) in C; [|reflexivity].
  split; [now apply momExact_exact|]. split; [now apply hull_of|]. split; [now apply weights_volume in B|exact D].
Qed.
Print Assumptions C42_prism.

(** out of range: the constructors throw *)
Theorem C42_out_of_range : forall p, ((12 < p)%Z -> simplexRule 2 p = None) /\ ((5 < p)%Z -> simplexRule 3 p = None).
Proof.
  intros p. split; intros H; cbn [simplexRule]; unfold highestTriangle, highestTetrahedron;
    match goal with |- (if ?c then _ else _) = _ => replace c with true by (symmetry; apply Z.ltb_lt; lia) end; reflexivity.
Qed.
Print Assumptions C42_out_of_range.

(** The triangle rule of order 2 applied to x y; the integral is 1/24. *)
Example C42_example :
  exists r, simplexRule 2 2 = Some r /\ length (ru_points r) = 3%nat
    /\ Rabs (quad (ru_points r) (fun x => x 0%nat * x 1%nat) - / 24) <= / IZR (10 ^ 20).
Proof.
  destruct (triangle_R 2 ltac:(lia)) as (A & B & _).
  eexists. split; [reflexivity|]. split; [reflexivity|].
  specialize (B (fun _ => 1%nat)). cbn [tdim TriT degree Nat.add] in B. specialize (B ltac:(lia)).
  change (2 =? 12)%Z with false in B. cbv iota in B.
  replace (/ IZR (10 ^ 20)) with (1 / IZR (10 ^ 20)) by (unfold Rdiv; ring).
  replace (/ 24) with (momW 0 TriT (fun _ => 1%nat)).
  - rewrite (quad_ext _ _ (monomial 2 (fun _ => 1%nat))); [exact B|]. intros x. cbn [monomial]. simpl. ring.
  - cbn [momW TriT tdim degree Nat.add]. rewrite !bmom0. cbn. lra.
Qed.

(** ** C43: products with the interval.  For an arbitrary base polytope [b], an arbitrary base
    rule that is exact up to [E] and an arbitrary one dimensional rule that is exact up to [eps]
    for the degree the code requests. *)
Theorem C43_tensor_exact : forall alpha b p E eps base oned,
  exactND alpha b p E base ->
  (forall k, (k <= p)%nat -> Rabs (quad oned (fun y => y 0%nat ^ k) - RInt (fun t => omega alpha t * t ^ k) 0 1) <= eps) ->
  exactND alpha (Pri b) p (E * (Cw alpha + eps) + Cw alpha ^ tdim b * eps) (tensorProduct (tdim b) base oned).
Proof.
  intros alpha b p E eps base oned Hb Ho. apply momExact_exact.
  intros e De. cbn [tdim degree] in *. cbn [momW].
  rewrite (quad_tensor (tdim b) base oned _ (monomial (tdim b) e) (fun z => z ^ e (tdim b))).
  2:{ intros x y. apply mono_split. }
  apply prod_err.
  - apply exact_momExact in Hb. apply Hb. lia.
  - specialize (Ho (e (tdim b)) ltac:(lia)). unfold bmom.
    rewrite (RInt_ext _ (fun t => omega alpha t * t ^ e (tdim b))); [exact Ho|]. intros t _. simpl. ring.
  - apply momW_abs.
  - apply bmom_abs.
Qed.
Print Assumptions C43_tensor_exact.

(** the cone: the 1d rule is requested for order p + tdim b and the weights get the factor
    (1-z)^(tdim b), or ([respect], GaussJacobi_n_0) it integrates against (1-z)^(tdim b) *)
Theorem C43_conical_exact : forall alpha b p E eps base oned (respect : bool),
  exactND alpha b p E base ->
  (forall a c, (a + c <= if respect then p else p + tdim b)%nat ->
     Rabs (quad oned (fun y => (1 - y 0%nat) ^ a * y 0%nat ^ c)
           - RInt (fun t => omega alpha t * ((1 - t) ^ (if respect then tdim b else 0) * ((1 - t) ^ a * t ^ c))) 0 1) <= eps) ->
  exactND alpha (Pyr b) p (E * (Cw alpha + eps) + Cw alpha ^ tdim b * eps) (conicalProduct (tdim b) respect base oned).
Proof.
  intros alpha b p E eps base oned respect Hb Ho. apply momExact_exact. apply conical_exact.
  - now apply exact_momExact.
  - apply momW_abs.
  - apply bmom_abs.
  - intros a c H. unfold bmom. specialize (Ho a c H).
    rewrite (RInt_ext _ (fun t => omega alpha t * ((1 - t) ^ (if respect then tdim b else 0) * ((1 - t) ^ a * t ^ c)))); [exact Ho|].
    intros t _. rewrite pow_add. toR_. ring.
Qed.
Print Assumptions C43_conical_exact.

(** In particular, exact factors give an exact product. *)
Theorem C43_exact_products : forall b p base oned,
  exactND 0 b p 0 base ->
  (forall a c, (a + c <= p + tdim b)%nat ->
     quad oned (fun y => (1 - y 0%nat) ^ a * y 0%nat ^ c) = RInt (fun t => (1 - t) ^ a * t ^ c) 0 1) ->
  (forall P, pdegree_le (S (tdim b)) P p ->
     quad (tensorProduct (tdim b) base oned) (peval (S (tdim b)) P) = Iint (Pri b) (peval (S (tdim b)) P)
     /\ quad (conicalProduct (tdim b) false base oned) (peval (S (tdim b)) P) = Iint (Pyr b) (peval (S (tdim b)) P)).
Proof.
  intros b p base oned Hb Ho P HP. rewrite <- !IintW_Iint.
  assert (Z0 : forall x y N, Rabs (x - y) <= (0 * (Cw 0 + 0) + Cw 0 ^ tdim b * 0) * N -> x = y).
  { intros x y N H. replace ((0 * (Cw 0 + 0) + Cw 0 ^ tdim b * 0) * N) with 0 in H by ring.
    pose proof (Rabs_pos (x - y)). assert (A : Rabs (x - y) = 0) by lra. apply Rminus_diag_uniq.
    destruct (Req_dec (x - y) 0) as [X|X]; [exact X|]. apply Rabs_no_R0 in X. contradiction. }
  assert (OM : forall a c, RInt (fun t => omega 0 t * ((1 - t) ^ 0 * ((1 - t) ^ a * t ^ c))) 0 1 = RInt (fun t => (1 - t) ^ a * t ^ c) 0 1).
  { intros a c. apply RInt_ext. intros t _. rewrite omega_0. simpl. ring. }
  split.
  - eapply Z0. apply (C43_tensor_exact 0 b p 0 0 base oned Hb); [|exact HP].
    intros k Hk. specialize (Ho 0%nat k ltac:(lia)).
    rewrite (quad_ext _ _ (fun y => (1 - y 0%nat) ^ 0 * y 0%nat ^ k)) by (intros; simpl; ring). rewrite Ho.
    assert (OK : RInt (fun t => omega 0 t * t ^ k) 0 1 = RInt (fun t => (1 - t) ^ 0 * t ^ k) 0 1).
    { apply RInt_ext. intros t _. rewrite omega_0, pow_O. reflexivity. }
    rewrite OK. rewrite Rminus_diag_eq by reflexivity. rewrite Rabs_R0. lra.
  - eapply Z0. apply (C43_conical_exact 0 b p 0 0 base oned false Hb); [|exact HP].
    intros a c H. rewrite (Ho a c H), OM. rewrite Rminus_diag_eq by reflexivity. rewrite Rabs_R0. lra.
Qed.
Print Assumptions C43_exact_products.

(** Points of the products lie in the product and the cone, weights stay nonnegative; the number
    of points is the product of the numbers. *)
Theorem C43_points_inside : forall id d (respect : bool) base oned,
  (forall q, In q base -> in_hull d (referenceCorners id d) (fst q)) ->
  (forall q, In q oned -> 0 <= fst q 0%nat <= 1) ->
  (N.testbit id (N.of_nat d) = true ->
     forall q, In q (tensorProduct d base oned) -> in_hull (S d) (referenceCorners id (S d)) (fst q))
  /\ (N.testbit id (N.of_nat d) = false ->
     forall q, In q (conicalProduct d respect base oned) -> in_hull (S d) (referenceCorners id (S d)) (fst q)).
Proof.
  intros id d respect base oned Hb Ho.
  assert (HB : insidePts (topo_of id d) base).
  { intros q I. specialize (Hb q I). rewrite corners_verts in Hb. rewrite <- (tdim_topo_of id d) in Hb at 1. now apply in_hull_insideT in Hb. }
  split; intros Bit; apply hull_of; rewrite topo_S, Bit.
  - pose proof (tensor_inside _ _ _ HB Ho) as X. now rewrite tdim_topo_of in X.
  - pose proof (conical_inside _ respect _ _ HB Ho) as X. now rewrite tdim_topo_of in X.
Qed.
Print Assumptions C43_points_inside.

Lemma length_prod {A B C} (g : A -> B -> C) (base : list A) (oned : list B) :
  length (flat_map (fun b => map (g b) oned) base) = (length base * length oned)%nat.
Proof. induction base as [|q base IH]; [reflexivity|]. cbn [flat_map length]. rewrite app_length, map_length, IH. reflexivity. Qed.

Theorem C43_weights : forall d (respect : bool) base oned,
  (forall q, In q base -> 0 <= snd q) -> (forall q, In q oned -> 0 <= snd q) ->
  (forall q, In q oned -> 0 <= fst q 0%nat <= 1) ->
  (forall q, In q (tensorProduct d base oned) -> 0 <= snd q)
  /\ (forall q, In q (conicalProduct d respect base oned) -> 0 <= snd q)
  /\ length (tensorProduct d base oned) = (length base * length oned)%nat
  /\ length (conicalProduct d respect base oned) = (length base * length oned)%nat.
Proof.
  intros d respect base oned H1 H2 H3.
  split; [now apply tensor_nonneg|]. split; [now apply conical_nonneg|].
  split.
  - apply length_prod.
  - apply length_prod.
Qed.
Print Assumptions C43_weights.

(** ** Every rule of every request.  [lapack] is the eigenvalue solver behind GaussJacobi_n_0. *)

(** the order is delivered *)
Theorem C40_delivered_order : forall lapack e r x, lapackOk e lapack ->
  valid r -> quadRule lapack r = Some x -> rq_dim r <> 0%nat -> (rq_p r <= ru_order x)%Z.
Proof.
  intros lapack e r x Hl V H Hd. unfold quadRule in H. rewrite (valid_inRange r V) in H.
  assert (Hl' : lapackOk (Rmax e (tableErr (rq_p r) (rq_qt r))) lapack).
  { intros p a data E. destruct (Hl p a data E) as (A & B & C). split; [exact A|]. split; [exact B|].
    intros a' b' Hab. eapply Rle_trans; [now apply C|apply Rmax_l]. }
  eapply (factory_good lapack (Rmax e (tableErr (rq_p r) (rq_qt r)))) in H; auto.
  - apply H. exact Hd.
  - eapply Rle_trans; [apply tableErr_eps1|apply Rmax_r].
  - apply Rmax_r.
  - now apply valid_inRange.
Qed.
Print Assumptions C40_delivered_order.

(** every valid request is answered: without LAPACK all but GaussJacobi_n_0 from order 61 or
    dimension 4 on *)
Theorem C40_answered : forall lapack r, valid r ->
  (rq_qt r = qtJacobiN -> (61 <= rq_p r)%Z \/ (4 <= rq_dim r)%nat ->
     forall p alpha, (0 <= p <= 127)%Z -> lapack p alpha <> None) ->
  exists x, quadRule lapack r = Some x.
Proof. intros lapack r V H. apply quadRule_some; [exact V|]. intros [H1 H2]. exact (H H1 H2). Qed.
Print Assumptions C40_answered.

(** The rule is for the requested geometry type. *)
Theorem C40_type : forall lapack r x, valid r -> gt_none (rq_t r) = false ->
  quadRule lapack r = Some x -> gt_eqb (ru_type x) (rq_t r) = true.
Proof.
  intros lapack r x V Nn H. unfold quadRule in H. rewrite (valid_inRange r V) in H.
  destruct r as [dim t p qt]. pose proof V as (A & B & C & _). cbn [rq_dim rq_t rq_p rq_qt] in *.
  assert (G : forall y, gt_none y = false -> gt_dim y = dim -> N.shiftr (gt_id y) 1 = N.shiftr (gt_id t) 1 -> gt_eqb y t = true).
  { intros y Y1 Y2 Y3. unfold gt_eqb. rewrite Y1, Nn, Y2, B, Y3, Nat.eqb_refl, N.eqb_refl. reflexivity. }
  destruct dim as [|[|d]].
  - cbn [factory choose] in H. destruct (isVertex t); [|discriminate]. injection H as <-. apply G; try reflexivity.
    cbn [pointRule ru_type vertex GT3 gt_id]. replace (gt_id t) with 0%N by (cbn in C; lia). reflexivity.
  - cbn [factory choose] in H. destruct (isLine t); [|discriminate]. destruct (Nat.ltb qt qtSize); [|discriminate].
    assert (T : ru_type x = line).
    { destruct qt as [|[|[|[|[|[|[|qt]]]]]]]; cbn [rule1D] in H; try discriminate;
        try (unfold tableRule in H; destruct (switchOn _ p); [|discriminate]; injection H as <-; reflexivity).
      unfold jacobiN in H. destruct (_ || _); [discriminate|]. destruct (decideRule lapack p 0); [|discriminate]. injection H as <-. reflexivity. }
    rewrite T. apply G; try reflexivity. change (gt_id line) with 0%N.
    assert (K : (gt_id t = 0 \/ gt_id t = 1)%N) by (cbn in C; lia). destruct K as [-> | ->]; reflexivity.
  - assert (TP : tensorPart lapack d t p qt = Some x -> gt_eqb (ru_type x) t = true).
    { intros HT. unfold tensorPart in HT. destruct (if inRange _ _ _ _ then _ else _); [|discriminate].
      assert (E : ru_type x = GT2 (gt_id t) (S (S d))).
      { destruct (tpPrism (gt_id t) (S d)); [destruct (fetch1D lapack p qt)|destruct (Nat.eqb qt qtJacobiN);
          [destruct (jacobiN lapack p (S d))|destruct (fetch1D lapack (p + Z.of_nat (S d)) qt)]]; try discriminate; injection HT as <-; reflexivity. }
      rewrite E. apply G; try reflexivity. unfold GT2. cbn [gt_dim]. unfold to_uchar. apply Nat.mod_small.
      apply Nat.lt_trans with 31%nat; [exact A|apply Nat.ltb_lt; reflexivity]. }
    rewrite factory_SS, choose_SS in H. destruct d as [|[|d]]; [| |auto].
    + destruct (isSimplex t && _ && _) eqn:S1; [|auto]. rewrite !andb_true_iff in S1. destruct S1 as ((S1 & _) & _). cbn [simplexRule] in H.
      destruct (_ <? _)%Z; [discriminate|]. injection H as <-. apply G; try reflexivity. now apply simplex_id in S1.
    + destruct (isSimplex t && _ && _) eqn:S1.
      * rewrite !andb_true_iff in S1. destruct S1 as ((S1 & _) & _). cbn [simplexRule] in H.
        destruct (_ <? _)%Z; [discriminate|]. injection H as <-. apply G; try reflexivity. now apply simplex_id in S1.
      * destruct (isPrismT t && _ && _) eqn:S2; [|auto]. rewrite !andb_true_iff in S2. destruct S2 as ((S2 & _) & _). injection H as <-.
        apply G; try reflexivity. now apply prism_id in S2.
Qed.
Print Assumptions C40_type.

(** the main theorem: for every valid request - every geometry type of every dimension, every
    quadrature type and every order up to maxOrder - the rule integrates all polynomials up to
    the delivered order over the reference element, its points lie in the reference element and
    its weights are nonnegative, except for order 3 with GaussLegendre or GaussJacobi_n_0 *)
Theorem C43_all_rules : forall lapack e r x,
  lapackOk e lapack -> tableErr (rq_p r) (rq_qt r) <= e -> valid r -> quadRule lapack r = Some x ->
  let T := topo_of (gt_id (rq_t r)) (rq_dim r) in
  let alpha := weightExp (rq_qt r) in
  exactND alpha T (Z.to_nat (ru_order x)) (errD (Cw alpha) e (rq_dim r)) (ru_points x)
  /\ (forall q, In q (ru_points x) -> in_hull (rq_dim r) (referenceCorners (gt_id (rq_t r)) (rq_dim r)) (fst q))
  /\ ((rq_p r <> 3%Z \/ (rq_qt r <> 0 /\ rq_qt r <> 3)%nat \/ (rq_dim r < 2)%nat) ->
        forall q, In q (ru_points x) -> 0 <= snd q).
Proof.
  intros lapack e r x Hl HE V H T alpha. unfold quadRule in H. rewrite (valid_inRange r V) in H.
  eapply (factory_good lapack e) in H; auto.
  - destruct H as (A & B & C & D). split; [|split].
    + now apply momExact_exact.
    + now apply hull_of.
    + intros K. destruct D as [(D1 & D2 & D3)|D]; [exfalso; lia|exact D].
  - eapply Rle_trans; [apply tableErr_eps1|exact HE].
  - now apply valid_inRange.
Qed.
Print Assumptions C43_all_rules.

(** the weights of the plain rules sum to the volume *)
Theorem C43_weights_sum : forall lapack e r x,
  lapackOk e lapack -> tableErr (rq_p r) (rq_qt r) <= e -> valid r -> quadRule lapack r = Some x ->
  rq_qt r <> 1%nat -> rq_qt r <> 2%nat ->
  Rabs (quad (ru_points x) (fun _ => 1) - volumeT (topo_of (gt_id (rq_t r)) (rq_dim r))) <= errD 1 e (rq_dim r).
Proof.
  intros lapack e r x Hl HE V H N1 N2. destruct (C43_all_rules lapack e r x Hl HE V H) as (A & _).
  assert (W : weightExp (rq_qt r) = 0%nat).
  { unfold weightExp. destruct (rq_qt r) as [|[|[|k]]]; try reflexivity; [now elim N1|now elim N2]. }
  rewrite W, Cw0 in A. eapply weights_volume. apply exact_momExact. exact A.
Qed.
Print Assumptions C43_weights_sum.

(** For GaussJacobi_1_0 and GaussJacobi_2_0 the weights sum to the integral of the weight
    function, in every dimension. *)
Theorem C43_weight_function : forall lapack e r x,
  lapackOk e lapack -> tableErr (rq_p r) (rq_qt r) <= e -> valid r -> quadRule lapack r = Some x ->
  let alpha := weightExp (rq_qt r) in
  Rabs (quad (ru_points x) (fun _ => 1) - IintW alpha (topo_of (gt_id (rq_t r)) (rq_dim r)) (fun _ => 1))
    <= errD (Cw alpha) e (rq_dim r).
Proof.
  intros lapack e r x Hl HE V H alpha. destruct (C43_all_rules lapack e r x Hl HE V H) as (A & _).
  eapply weights_sum. apply exact_momExact. exact A.
Qed.
Print Assumptions C43_weight_function.

(** Without LAPACK no assumption is left. *)
Theorem C43_all_rules_no_lapack : forall r x,
  valid r -> quadRule (fun _ _ => None) r = Some x ->
  let T := topo_of (gt_id (rq_t r)) (rq_dim r) in
  let alpha := weightExp (rq_qt r) in
  exactND alpha T (Z.to_nat (ru_order x)) (errD (Cw alpha) (tableErr (rq_p r) (rq_qt r)) (rq_dim r)) (ru_points x)
  /\ (forall q, In q (ru_points x) -> in_hull (rq_dim r) (referenceCorners (gt_id (rq_t r)) (rq_dim r)) (fst q)).
Proof.
  intros r x V H T alpha.
  destruct (C43_all_rules (fun _ _ => None) (tableErr (rq_p r) (rq_qt r)) r x) as (A & B & _); auto; [|lra].
  intros p a data E. discriminate.
Qed.
Print Assumptions C43_all_rules_no_lapack.

(** Equal requests (C39: the same address) give equal rules. *)
Lemma factory_same lapack d : forall s t p qt, gt_none s = gt_none t -> gt_dim s = gt_dim t ->
  N.shiftr (gt_id s) 1 = N.shiftr (gt_id t) 1 ->
  option_map (fun x => (ru_order x, ru_points x)) (factory lapack d s p qt)
  = option_map (fun x => (ru_order x, ru_points x)) (factory lapack d t p qt).
Proof.
  induction d as [|[|d] IH]; intros s t p qt A D B.
  - cbn [factory choose]. unfold isVertex. rewrite D. destruct (Nat.eqb (gt_dim t) 0); reflexivity.
  - cbn [factory choose]. unfold isLine. rewrite D. destruct (Nat.eqb (gt_dim t) 1); [|reflexivity]. destruct (Nat.ltb qt qtSize); reflexivity.
  - assert (TP : option_map (fun x => (ru_order x, ru_points x)) (tensorPart lapack d s p qt)
               = option_map (fun x => (ru_order x, ru_points x)) (tensorPart lapack d t p qt)).
    { unfold tensorPart. set (bs := tpBase (gt_id s) (S d)). set (bt := tpBase (gt_id t) (S d)).
      assert (SB : N.shiftr (gt_id bs) 1 = N.shiftr (gt_id bt) 1) by (now apply shift_clearbit).
      specialize (IH bs bt p qt eq_refl eq_refl SB).
      unfold inRange. rewrite (maxOrder_same (S d) bs bt qt eq_refl eq_refl SB).
      rewrite (tpPrism_same (gt_id s) (gt_id t) (S d) (Nat.neq_succ_0 d) B).
      destruct (match maxOrder (S d) bt qt with Some m => (0 <=? p)%Z && (p <=? m)%Z | None => false end); [|reflexivity].
      destruct (factory lapack (S d) bs p qt) as [x|], (factory lapack (S d) bt p qt) as [y|]; cbn [option_map] in IH; try discriminate; [|reflexivity].
      injection IH as I1 I2. rewrite I2.
      destruct (tpPrism (gt_id t) (S d)); [destruct (fetch1D lapack p qt)|destruct (Nat.eqb qt qtJacobiN);
        [destruct (jacobiN lapack p (S d))|destruct (fetch1D lapack (p + Z.of_nat (S d)) qt)]]; reflexivity. }
    rewrite !factory_SS, !choose_SS, (isSimplex_same s t A B), (isPrismT_same s t A D B).
    destruct d as [|[|d]]; repeat match goal with |- context [if ?c then ChSimplex else _] => destruct c end;
      try reflexivity; try exact TP.
    destruct (isPrismT t && _ && _); [reflexivity|exact TP].
Qed.

Theorem C39_equal_requests_equal_rules : forall lapack r r' x x',
  valid r -> valid r' -> same_rule r r' -> quadRule lapack r = Some x -> quadRule lapack r' = Some x' ->
  ru_order x = ru_order x' /\ ru_points x = ru_points x'.
Proof.
  intros lapack r r' x x' V V' (D & Q & T & P) H H'. unfold quadRule in H, H'.
  rewrite (valid_inRange _ V) in H. rewrite (valid_inRange _ V') in H'.
  destruct V as (_ & B & _ & N1 & _), V' as (_ & B' & _ & N1' & _).
  destruct (gt_eqb_same (rq_t r) (rq_t r')) as [E1 E2]; auto; [congruence|].
  assert (F := factory_same lapack (rq_dim r) (rq_t r) (rq_t r') (rq_p r) (rq_qt r) E1 ltac:(congruence) E2).
  destruct P as [P|P].
  - rewrite <- D in H'. rewrite P in *. cbn [factory choose] in H, H'. destruct (isVertex (rq_t r)); [|discriminate].
    destruct (isVertex (rq_t r')); [|discriminate]. injection H as <-. injection H' as <-. auto.
  - rewrite <- D, <- Q, <- P in H'. rewrite H, H' in F. injection F as F1 F2. auto.
Qed.
Print Assumptions C39_equal_requests_equal_rules.

(** A request that uses all constructions: the pyramid over the square, order 2: 2 points in
    each direction of the base times 3 of the 1d rule of order 4. *)
Example C43_example :
  option_map (fun x => (ru_order x, length (ru_points x))) (quadRule (fun _ _ => None) (mkReq 3 pyramid 2 0)) = Some (2%Z, 12%nat)
  /\ exists x, quadRule (fun _ _ => None) (mkReq 3 pyramid 2 0) = Some x
       /\ Rabs (quad (ru_points x) (fun y => y 2%nat) - / 12) <= errD 1 (tableErr 2 0) 3.
Proof.
  assert (L : option_map (fun x => (ru_order x, length (ru_points x))) (quadRule (fun _ _ => None) (mkReq 3 pyramid 2 0)) = Some (2%Z, 12%nat)) by (vm_compute; reflexivity).
  split; [exact L|].
  destruct (quadRule (fun _ _ => None) (mkReq 3 pyramid 2 0)) as [x|] eqn:E; [|discriminate].
  injection L as L1 L2. exists x. split; [reflexivity|].
  assert (V : valid (mkReq 3 pyramid 2 0)).
  { split; [cbn; lia|]. split; [reflexivity|]. split; [cbn; lia|]. split; [cbn; discriminate|].
    split; [cbn; unfold qtSize; lia|]. right. exists 59%Z. split; [vm_compute; reflexivity|cbn; lia]. }
  destruct (C43_all_rules_no_lapack _ x V E) as [A _]. cbn [rq_t rq_dim rq_p rq_qt weightExp] in A.
  rewrite Cw0, L1 in A. apply exact_momExact in A.
  specialize (A (fun k => if Nat.eqb k 2 then 1%nat else 0%nat)).
  assert (TT : topo_of (gt_id pyramid) 3 = Pyr (Pri (Pri Pt))) by reflexivity. rewrite TT in A.
  cbn [tdim degree Nat.eqb Nat.add] in A. specialize (A ltac:(cbn; lia)).
  rewrite (quad_ext _ _ (monomial 3 (fun k => if Nat.eqb k 2 then 1%nat else 0%nat))) by (intros y; cbn [monomial Nat.eqb]; simpl; ring).
  replace (/ 12) with (momW 0 (Pyr (Pri (Pri Pt))) (fun k => if Nat.eqb k 2 then 1%nat else 0%nat)); [exact A|].
  cbn [momW tdim degree Nat.eqb Nat.add]. rewrite !bmom0. cbn. lra.
Qed.
