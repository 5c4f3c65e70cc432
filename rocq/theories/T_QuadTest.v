(** C83: what the quadrature test program checks, and that the rules of the library pass. *)
From Coq Require Import NArith ZArith QArith PeanoNat Bool List Reals Factorial Lia Lra.
From Coquelicot Require Import Coquelicot.
From Verif Require Import M_Type M_TypeIndex M_RefGeo M_QuadFactory M_Quadrature M_QuadTest
  S_Topo S_RefGeo S_Quad S_Quad1D S_QuadND S_QuadTest
  P_Type P_Type2 P_Topo P_RefGeo2 P_RefVol P_QuadFactory P_QuadFix P_QuadProd P_QuadAll P_Gauss2 T_RefGeo T_Quad
  P_QuadTest1 P_QuadTest2 P_QuadTest3 P_QuadTest4 P_QuadTest5.
Import ListNotations.
Local Open Scope R_scope.

(** analyticalSolution is the integral of the power of a coordinate over the reference element,
    for cubes and simplices of every dimension, the prism and the pyramid; it throws for all
    other types *)
Theorem C83_analytic : forall dim t p k, gt_dim t = dim -> (k < dim)%nat ->
  (namedType t -> analyticalSolution dim t p k = Some (Iint (topo_of (gt_id t) dim) (fun x => x k ^ p)))
  /\ (~ namedType t -> analyticalSolution dim t p k = None).
Proof. intros. split; [now apply analytical_spec|apply analytical_none]. Qed.
Print Assumptions C83_analytic.

(** checkQuadrature compares the powers given by the order of the rule, and no others *)
Theorem C83_check : forall eps dim q, 0 <= eps -> gt_dim (ru_type q) = dim -> (0 < dim)%nat ->
  (checkQuadrature eps dim q = Some true
     <-> namedType (ru_type q) /\ powersOk eps (topo_of (gt_id (ru_type q)) dim) (Z.to_nat (ru_order q)) (ru_points q))
  /\ (checkQuadrature eps dim q = None <-> ~ namedType (ru_type q)).
Proof.
  intros eps dim q He Hd H0.
  assert (D : namedType (ru_type q) \/ ~ namedType (ru_type q)).
  { unfold namedType. destruct (isCube _); [auto|]. destruct (isSimplex _); [auto|]. destruct (isPrismT _); [auto|].
    destruct (isPyramidT _); [auto 6|right]. intros [H|[H|[H|H]]]; discriminate. }
  destruct D as [D|D].
  - destruct (checkQuadrature_named eps dim q He Hd D) as (b & -> & B). split.
    + split; [intros [= ->]; split; [exact D|now apply B]|]. intros [_ H]. apply B in H. now rewrite H.
    + split; [discriminate|intros H; now elim H].
  - assert (E : checkQuadrature eps dim q = None) by (unfold checkQuadrature; cbv zeta; now rewrite maxRel_none).
    rewrite E. split; [split; [discriminate|intros [H _]; now elim D]|split; [intros _; exact D|reflexivity]].
Qed.
Print Assumptions C83_check.

(** checkWeights compares the sum of the weights with the volume *)
Theorem C83_weights : forall eps dim q, (dim <= 13)%nat ->
  checkWeights eps dim q = true <-> weightsOk eps (topo_of (gt_id (ru_type q)) dim) (ru_points q).
Proof.
  intros eps dim q Hd. unfold checkWeights, weightsOk. cbv zeta. rewrite negb_true_iff, weightSum_quad1, C21_volume_small_dimension by exact Hd.
  unfold Rltb. destruct (Rlt_dec _ _); split; intros; try reflexivity; try discriminate; lra.
Qed.
Print Assumptions C83_weights.

(** a rule that integrates the polynomials up to its order is accepted, whatever eps is *)
Theorem C83_exact_accepted : forall eps dim q, 0 <= eps -> gt_dim (ru_type q) = dim -> (0 < dim <= 13)%nat -> namedType (ru_type q) ->
  (forall P, pdegree_le dim P (Z.to_nat (ru_order q)) ->
     quad (ru_points q) (peval dim P) = Iint (topo_of (gt_id (ru_type q)) dim) (peval dim P)) ->
  checkQuadrature eps dim q = Some true /\ checkWeights eps dim q = true.
Proof.
  intros eps dim q He Hd Hr Hn H. set (id := gt_id (ru_type q)) in *. set (n := Z.to_nat (ru_order q)) in *.
  assert (M : momExact 0 (topo_of id dim) n 0 (ru_points q)).
  { apply exact_momExact. intros P D. rewrite tdim_topo_of in *. rewrite IintW_Iint, H by exact D. rewrite Rminus_diag_eq, Rabs_R0 by reflexivity. lra. }
  split.
  - apply C83_check; [exact He|exact Hd|lia|]. split; [exact Hn|]. fold id n. intros k. rewrite tdim_topo_of. intros Hk. cbv zeta.
    specialize (M (powE k n)). rewrite tdim_topo_of in M. specialize (M (powE_degree dim k n)).
    rewrite (quad_ext _ (monomial dim (powE k n)) (fun x => x k ^ n)) in M by (intros; now apply powE_in).
    rewrite Iint_pow by (rewrite tdim_topo_of; exact Hk). eapply Rle_trans; [exact M|]. apply Rmult_le_pos.
    + destruct n; cbn [tolerance]; [lra|]. apply Rmult_le_pos; [|exact He]. apply Rmult_le_pos; [apply pow_le; lra|apply pos_INR].
    + apply Rplus_le_le_0_compat; apply Rabs_pos.
  - apply C83_weights; [lia|]. unfold weightsOk. fold id. apply mom_volume in M. eapply Rle_trans; [exact M|].
    apply Rmult_le_pos; [apply pos_INR|exact He].
Qed.
Print Assumptions C83_exact_accepted.

(** ** the rules of the library *)
Lemma named_same s t : gt_eqb s t = true -> gt_none t = false -> gt_dim s = gt_dim t /\ N.shiftr (gt_id s) 1 = N.shiftr (gt_id t) 1 /\ (namedType t -> namedType s).
Proof.
  intros E Nn. unfold gt_eqb in E. rewrite Nn in E. apply andb_true_iff in E. destruct E as [E1 E2]. apply Bool.eqb_prop in E1. cbn [orb] in E2.
  rewrite E1 in E2. cbn [orb] in E2. apply andb_true_iff in E2. destruct E2 as [E2 E3]. apply Nat.eqb_eq in E2. apply N.eqb_eq in E3.
  split; [exact E2|]. split; [exact E3|].
  assert (L : forall x, N.lor (gt_id s) 1 = x <-> N.lor (gt_id t) 1 = x).
  { intros x. assert (Q : N.lor (gt_id s) 1 = N.lor (gt_id t) 1); [|now rewrite Q]. apply N.bits_inj. intros i. rewrite !N.lor_spec.
    destruct (N.eq_dec i 0) as [->|I]; [now rewrite !orb_true_r|]. f_equal.
    assert (X := f_equal (fun z => N.testbit z (i - 1)) E3). cbn beta in X. rewrite !N.shiftr_spec in X by lia.
    now replace (i - 1 + 1)%N with i in X by lia. }
  intros [H|[H|[H|H]]].
  - left. unfold isCube in *. rewrite E1, E2. rewrite Nn in H. cbn [negb andb] in *. apply N.eqb_eq in H. apply N.eqb_eq.
    rewrite N.shiftr_lxor in *. now rewrite E3.
  - right. left. unfold isSimplex in *. rewrite E1. rewrite Nn in H. cbn [negb andb] in *. apply N.eqb_eq in H. apply N.eqb_eq. now apply L.
  - do 2 right. left. unfold isPrismT, named in *. rewrite E1, E2. rewrite Nn in H. cbn [negb] in *. rewrite andb_true_l in *.
    apply andb_true_iff in H. destruct H as [H1 H2]. rewrite H1. apply N.eqb_eq in H2. apply N.eqb_eq. now apply L.
  - do 3 right. unfold isPyramidT, named in *. rewrite E1, E2. rewrite Nn in H. cbn [negb] in *. rewrite andb_true_l in *.
    apply andb_true_iff in H. destruct H as [H1 H2]. rewrite H1. apply N.eqb_eq in H2. apply N.eqb_eq. now apply L.
Qed.
Lemma named_none t : namedType t -> gt_none t = false.
Proof.
  unfold namedType, isCube, isSimplex, isPrismT, isPyramidT, named. destruct (gt_none t); [|reflexivity]. cbn. intros [H|[H|[H|H]]]; discriminate.
Qed.

(** every rule without weight function for a named reference element of dimension up to 4
    passes both checks with the epsilon of double; the rules computed with LAPACK are assumed
    as accurate as the tables *)
Theorem C83_library_accepted : forall lapack r x, lapackOk (/ IZR (10 ^ 20)) lapack -> valid r -> (rq_dim r <= 4)%nat ->
  namedType (rq_t r) -> rq_qt r <> 1%nat -> rq_qt r <> 2%nat -> quadRule lapack r = Some x ->
  checkQuadrature epsDouble (rq_dim r) x = Some true /\ checkWeights epsDouble (rq_dim r) x = true.
Proof.
  intros lapack r x Hl V Hd Nt N1 N2 H. pose proof (named_none _ Nt) as Nn.
  pose proof (C40_type lapack r x V Nn H) as Ty. destruct (named_same _ _ Ty Nn) as (T1 & T2 & T3). specialize (T3 Nt).
  pose proof (proj1 (proj2 V)) as Dm. unfold quadRule in H. rewrite (valid_inRange r V) in H.
  assert (Eps : 0 <= epsDouble) by (rewrite eps_val; lra).
  destruct (Nat.eq_dec (rq_dim r) 0) as [D0|D0].
  - rewrite D0 in *. cbn [factory choose] in H. destruct (isVertex (rq_t r)); [|discriminate]. injection H as <-. split.
    + unfold checkQuadrature. cbv zeta. cbn [maxRelativeError]. f_equal. apply negb_true_iff. unfold Rltb.
      destruct (Rlt_dec _ _) as [L|]; [|reflexivity]. exfalso. apply (Rlt_not_le _ _ L). rewrite testEpsilon_tol.
      destruct (Z.to_nat (ru_order pointRule)) as [|n] eqn:En; unfold tolerance; [lra|].
      apply Rmult_le_pos; [|exact Eps]. apply Rmult_le_pos; [apply pow_le; lra|apply pos_INR].
    + apply C83_weights; [lia|]. unfold weightsOk, volumeT. cbn [pointRule ru_type ru_points topo_of Iint quad snd length].
      replace (1 * 1 + 0 - 1) with 0 by ring. rewrite Rabs_R0. change (INR 1) with 1. lra.
  - assert (A : accepted (gt_id (rq_t r)) (rq_dim r) x).
    { eapply (factory_accepted lapack Hl); try exact H; auto; [lia|now apply valid_inRange]. }
    apply (accepted_low _ (gt_id (ru_type x))) in A; [|congruence]. destruct A as [A B]. split.
    + apply C83_check; auto; [congruence|lia].
    + apply C83_weights; [lia|exact B].
Qed.
Print Assumptions C83_library_accepted.

(** ** the whole test *)
Section Main.
Variable lapack : Z -> nat -> option (list (R * R)).
Hypothesis Hl : lapackOk (/ IZR (10 ^ 20)) lapack.

Lemma orders_ok dim t qt n : (dim <= 4)%nat -> (n <= 1000)%nat -> namedType t -> (qt <> 1 /\ qt <> 2)%nat ->
  (qt = qtJacobiN -> forall p alpha, (0 <= p <= 127)%Z -> lapack p alpha <> None) ->
  (forall p, (p < n)%nat -> valid (mkReq dim t (Z.of_nat p) qt)) ->
  checkOrders lapack epsDouble dim t qt n = Some (true, false).
Proof.
  intros Hd Hn Nt Q L. induction n as [|p IH]; intros H; cbn [checkOrders]; [reflexivity|]. rewrite IH; [|lia|intros; apply H; lia].
  pose proof (H p (Nat.lt_succ_diag_r p)) as V. destruct (C40_answered lapack _ V) as (x & E).
  { cbn [rq_qt rq_p rq_dim]. intros A _. exact (L A). }
  rewrite E. pose proof (C40_type lapack _ x V (named_none _ Nt) E) as T. cbn [rq_t] in T. unfold gt_neqb. rewrite T. cbn [negb orb].
  destruct (C83_library_accepted lapack _ x Hl V Hd Nt (proj1 Q) (proj2 Q) E) as [C1 C2]. cbn [rq_dim] in *. rewrite C1, C2.
  destruct (Z.ltb_spec (ru_order x) (Z.of_nat p)) as [B|B]; [|reflexivity]. exfalso.
  destruct (Nat.eq_dec dim 0) as [D|D].
  - subst dim. unfold quadRule in E. rewrite (valid_inRange _ V) in E. cbn [rq_dim rq_t rq_p rq_qt factory choose] in E.
    destruct (isVertex t); [|discriminate]. injection E as <-. cbn [pointRule ru_order] in B. unfold INT_MAX in B. lia.
  - pose proof (C40_delivered_order lapack _ _ x Hl V E D) as O. cbn [rq_p] in O. lia.
Qed.

(** the order limit [m] is fine for the calls with [t] *)
Lemma valid_upto dim t qt m k : (qt < qtSize)%nat -> (dim < 31)%nat -> gt_dim t = dim -> (gt_id t < 2 ^ N.of_nat dim)%N -> gt_none t = false ->
  (dim = 0%nat \/ maxOrder dim t qt = Some k) -> (Z.of_nat m <= k)%Z -> forall p, (p < S m)%nat -> valid (mkReq dim t (Z.of_nat p) qt).
Proof.
  intros Hq Hd Ht Hi Hn Hm Hk p Hp. unfold valid. cbn [rq_dim rq_t rq_p rq_qt]. repeat split; try assumption; [rewrite Hn; discriminate|].
  destruct Hm as [Hm|Hm]; [left; exact Hm|right]. exists k. split; [exact Hm|lia].
Qed.

Definition lapackTotal (qt : nat) : Prop := qt = qtJacobiN -> forall p alpha, (0 <= p <= 127)%Z -> lapack p alpha <> None.

Lemma check_cube4 m qt k : (qt = 0 \/ qt = 4 \/ qt = 5 \/ qt = 6)%nat -> (forall d, (1 <= d <= 4)%nat -> maxOrder d (cube d) qt = Some k) ->
  (k <= 900)%Z -> (Z.of_nat m <= k)%Z -> check lapack epsDouble 4 (cube 4) m qt = Some true.
Proof.
  intros Hq Hk Hk9 Hm.
  assert (S1 : forall d, (d <= 4)%nat -> checkOrders lapack epsDouble d (cube d) qt (S m) = Some (true, false)).
  { intros d Hd. apply orders_ok; [exact Hd|lia| | | |].
    - left. do 5 (destruct d; [reflexivity|]). lia.
    - lia.
    - intros ->. destruct Hq as [|[|[|]]]; discriminate.
    - apply (valid_upto _ _ _ _ k); [unfold qtSize; lia|lia| | | | |exact Hm].
      + do 5 (destruct d; [reflexivity|]). lia.
      + do 5 (destruct d; [reflexivity|]). lia.
      + reflexivity.
      + destruct (Nat.eq_dec d 0); [now left|right; apply Hk; lia]. }
  pose proof (S1 4%nat) as A4. pose proof (S1 3%nat) as A3. pose proof (S1 2%nat) as A2. pose proof (S1 1%nat) as A1. pose proof (S1 0%nat) as A0.
  unfold check. rewrite A4 by lia. change (isCube (cube 4)) with true. cbn [Nat.ltb Nat.leb orb].
  rewrite A3 by lia. change (isCube (cube 3)) with true. cbn [Nat.ltb Nat.leb orb].
  rewrite A2 by lia. change (isCube (cube 2)) with true. cbn [Nat.ltb Nat.leb orb].
  rewrite A1 by lia. change (isCube (cube 1)) with true. cbn [Nat.ltb Nat.leb orb].
  rewrite A0 by lia. reflexivity.
Qed.
Lemma check_simplex4 m qt k : (qt = 0 \/ qt = 3)%nat -> lapackTotal qt -> (forall d, (1 <= d <= 4)%nat -> exists j, maxOrder d (simplex d) qt = Some j /\ (k <= j)%Z) ->
  (k <= 900)%Z -> (Z.of_nat m <= k)%Z -> check lapack epsDouble 4 (simplex 4) m qt = Some true.
Proof.
  intros Hq Hl' Hk Hk9 Hm.
  assert (S1 : forall d, (d <= 4)%nat -> checkOrders lapack epsDouble d (simplex d) qt (S m) = Some (true, false)).
  { intros d Hd. apply orders_ok; [exact Hd|lia| | | |].
    - right. left. reflexivity.
    - lia.
    - exact Hl'.
    - assert (J : d = 0%nat \/ exists j, maxOrder d (simplex d) qt = Some j /\ (k <= j)%Z).
      { destruct (Nat.eq_dec d 0); [now left|right; apply Hk; lia]. }
      destruct J as [J|(j & J & Kj)].
      + apply (valid_upto _ _ _ _ k); [unfold qtSize; lia|lia| | |reflexivity|now left|exact Hm]; subst d; reflexivity.
      + apply (valid_upto _ _ _ _ j); [unfold qtSize; lia|lia| | |reflexivity|now right|lia]; clear J; (do 5 (destruct d; [reflexivity|])); lia. }
  pose proof (S1 4%nat) as A4. pose proof (S1 3%nat) as A3. pose proof (S1 2%nat) as A2. pose proof (S1 1%nat) as A1. pose proof (S1 0%nat) as A0.
  unfold check. rewrite A4 by lia. change (isCube (simplex 4)) with false. change (isSimplex (simplex 4)) with true. cbn [Nat.ltb Nat.leb orb].
  rewrite A3 by lia. change (isCube (simplex 3)) with false. change (isSimplex (simplex 3)) with true. cbn [Nat.ltb Nat.leb orb].
  rewrite A2 by lia. change (isCube (simplex 2)) with false. change (isSimplex (simplex 2)) with true. cbn [Nat.ltb Nat.leb orb].
  rewrite A1 by lia. change (isCube (simplex 1)) with true. cbn [Nat.ltb Nat.leb orb]. change (cube 0) with (simplex 0).
  rewrite A0 by lia. reflexivity.
Qed.
Lemma check_three t m k : t = prism \/ t = pyramid -> maxOrder 3 t 0 = Some k -> (k <= 900)%Z -> (Z.of_nat m <= k)%Z ->
  check lapack epsDouble 3 t m 0 = Some true.
Proof.
  intros Ht Hk Hk9 Hm. unfold check. rewrite orders_ok; [| lia | lia | | lia | discriminate | ].
  - destruct Ht as [-> | ->]; reflexivity.
  - unfold namedType. destruct Ht as [-> | ->]; [do 2 right; left; reflexivity|do 3 right; reflexivity].
  - apply (valid_upto _ _ _ _ k); [unfold qtSize; lia|lia| | | |now right|exact Hm]; destruct Ht as [-> | ->]; reflexivity.
Qed.

(** main succeeds for every order up to 58, that is also for the default 45 *)
Theorem C83_main_section : forall hasLapack m, (hasLapack = true -> lapackTotal qtJacobiN) -> (m <= 58)%nat ->
  runMain lapack hasLapack epsDouble m = Some true.
Proof.
  intros h m Hh Hm. unfold runMain, mainCalls. rewrite !fold_left_app. cbn [fold_left].
  rewrite (check_cube4 m 0 61) by (auto; try lia; intros d Hd; destruct d as [|[|[|[|[|d]]]]]; try lia; reflexivity).
  rewrite (check_cube4 (Nat.min m 31) 4 31) by (auto; try lia; intros d Hd; destruct d as [|[|[|[|[|d]]]]]; try lia; reflexivity).
  rewrite (check_cube4 (Nat.min m 30) 5 30) by (auto; try lia; intros d Hd; destruct d as [|[|[|[|[|d]]]]]; try lia; reflexivity).
  rewrite (check_cube4 (Nat.min m 30) 6 30) by (auto; try lia; intros d Hd; destruct d as [|[|[|[|[|d]]]]]; try lia; reflexivity).
  rewrite (check_simplex4 m 0 58);
    [|auto|discriminate|intros d Hd; destruct d as [|[|[|[|[|d]]]]]; [lia| | | | |lia]; (eexists; split; [vm_compute; reflexivity|vm_compute; discriminate])|lia|lia].
  assert (T : check lapack epsDouble 3 prism m 0 = Some true) by (eapply check_three; [now left|vm_compute; reflexivity|lia|lia]).
  assert (Y : check lapack epsDouble 3 pyramid m 0 = Some true) by (eapply check_three; [now right|vm_compute; reflexivity|lia|lia]).
  destruct h; cbn [fold_left]; [rewrite (check_simplex4 m 3 58)|]; rewrite ?T, ?Y; try reflexivity;
    [auto|now apply Hh|intros d Hd; destruct d as [|[|[|[|[|d]]]]]; [lia| | | | |lia]; (eexists; split; [vm_compute; reflexivity|vm_compute; discriminate])|lia|lia].
Qed.

Lemma orders_none dim t qt p : checkOrders lapack epsDouble dim t qt p = Some (true, false) -> quadRule lapack (mkReq dim t (Z.of_nat p) qt) = None ->
  forall n, (p < n)%nat -> checkOrders lapack epsDouble dim t qt n = None.
Proof.
  intros H N n Hn. induction n as [|n IH]; [lia|]. cbn [checkOrders]. destruct (Nat.eq_dec n p) as [-> |D]; [now rewrite H, N|]. now rewrite IH by lia.
Qed.
(** beyond that the rule for the four-dimensional simplex does not exist, and main throws *)
Theorem C83_limit_section : forall hasLapack m, (58 < m)%nat -> runMain lapack hasLapack epsDouble m = None.
Proof.
  intros h m Hm.
  assert (E : check lapack epsDouble 4 (simplex 4) m 0 = None).
  { unfold check. rewrite (orders_none 4 (simplex 4) 0 59); [reflexivity| |reflexivity|lia].
    apply orders_ok; [lia|lia|right; left; reflexivity|lia|discriminate|]. intros p Hp.
    apply (valid_upto 4 (simplex 4) 0 58 58); [unfold qtSize; lia|lia|reflexivity|reflexivity|reflexivity|right; reflexivity|lia|lia]. }
  assert (A : forall l, fold_left (fun acc c => match acc, c with
    | Some s, (dim, t, m, qt) => match check lapack epsDouble dim t m qt with Some b => Some (s && b) | None => None end
    | None, _ => None end) l None = None) by (induction l; [reflexivity|assumption]).
  unfold runMain, mainCalls. rewrite !fold_left_app. cbn [fold_left]. rewrite E.
  repeat match goal with |- context [match check ?a ?b ?c ?d ?e ?f with _ => _ end] => destruct (check a b c d e f) end; rewrite ?A; reflexivity.
Qed.
End Main.

(** test-quadrature.cc:242-293: with the epsilon of double the test succeeds for the default
    maximal order 45, and for every other up to 58; beyond it throws *)
Theorem C83_main : forall lapack hasLapack m, lapackOk (/ IZR (10 ^ 20)) lapack ->
  (hasLapack = true -> forall p alpha, (0 <= p <= 127)%Z -> lapack p alpha <> None) ->
  runMain lapack hasLapack epsDouble m = if (m <=? 58)%nat then Some true else None.
Proof.
  intros lapack h m Hl Ht. destruct (Nat.leb_spec m 58).
  - apply C83_main_section; auto. intros E _. now apply Ht.
  - now apply C83_limit_section.
Qed.
Print Assumptions C83_main.

(** ** what the test does not see *)
Lemma tol_one n : (47 <= n)%nat -> 1 <= tolerance epsDouble n.
Proof.
  intros H. destruct n as [|n]; [lia|]. unfold tolerance. rewrite eps_val.
  assert (A : 2 ^ 47 <= 2 ^ S n) by (apply Rle_pow; [lra|lia]).
  assert (B : 47 <= INR (S n)) by (replace 47 with (INR 47) by (cbn; lra); apply le_INR; lia).
  assert (C : 2 ^ 47 * 47 <= 2 ^ S n * INR (S n)) by (apply Rmult_le_compat; try lra; apply pow_le; lra).
  replace (2 ^ 47) with 140737488355328 in C by lra.
  lra.
Qed.
(** from order 47 on the tolerance is at least one: checkQuadrature accepts every list of points
    whatsoever *)
Theorem C83_vacuous_from_47 : forall dim q, gt_dim (ru_type q) = dim -> (0 < dim)%nat -> namedType (ru_type q) -> (47 <= ru_order q)%Z ->
  checkQuadrature epsDouble dim q = Some true.
Proof.
  intros dim q Hd H0 Hn Ho. apply C83_check; auto; [rewrite eps_val; lra|]. split; [exact Hn|]. intros k Hk I E.
  assert (T : 1 <= tolerance epsDouble (Z.to_nat (ru_order q))) by (apply tol_one; lia).
  assert (A : Rabs (I - E) <= Rabs I + Rabs E).
  { unfold Rminus. eapply Rle_trans; [apply Rabs_triang|]. rewrite Rabs_Ropp. lra. }
  pose proof (Rabs_pos I). pose proof (Rabs_pos E).
  eapply Rle_trans; [exact A|]. rewrite <- (Rmult_1_l (Rabs I + Rabs E)) at 1. apply Rmult_le_compat_r; lra.
Qed.
Print Assumptions C83_vacuous_from_47.

(** the powers below the order are not tested: this one-point rule of order 2 on the line is
    accepted for every eps, and the integral of x is wrong by more than 7/100 *)
Definition oneMoment : Rule := mkRule (cube 1) 2 [((fun _ => sqrt (/ 3)), 1)].
Lemma one_moment : forall eps, 0 <= eps ->
  checkQuadrature eps 1 oneMoment = Some true /\ checkWeights eps 1 oneMoment = true
  /\ 7 / 100 < quad (ru_points oneMoment) (fun x => x 0%nat) - Iint (topo_of (gt_id (ru_type oneMoment)) 1) (fun x => x 0%nat).
Proof.
  intros eps He.
  assert (Q : sqrt (/ 3) * sqrt (/ 3) = / 3) by (apply sqrt_sqrt; lra).
  assert (M : forall n, Iint (topo_of (gt_id (cube 1)) 1) (fun x => x 0%nat ^ n) = 1 / INR (n + 1)).
  { intros n. assert (A := analytical_spec 1 (cube 1) n 0 eq_refl (Nat.lt_succ_diag_r 0) (or_introl eq_refl)). injection A as A. symmetry. exact A. }
  split; [|split].
  - apply C83_check; [exact He|reflexivity|lia|]. split; [now left|]. intros k Hk. change (tdim _) with 1%nat in Hk. assert (k = 0)%nat by lia. subst k.
    intros I E. cbn [oneMoment ru_order ru_type] in *. change (Z.to_nat 2) with 2%nat in *. unfold E. rewrite M. unfold I.
    cbn [oneMoment ru_points quad fst snd pow]. replace (1 * (sqrt (/ 3) * (sqrt (/ 3) * 1)) + 0) with (/ 3) by lra.
    replace (/ 3 - 1 / INR (2 + 1)) with 0 by (cbn; lra). rewrite Rabs_R0. apply Rmult_le_pos.
    + cbn. apply Rmult_le_pos; lra.
    + apply Rplus_le_le_0_compat; apply Rabs_pos.
  - apply C83_weights; [lia|]. unfold weightsOk. specialize (M 0%nat). cbn [pow] in M. unfold volumeT. cbn [oneMoment ru_type]. rewrite M.
    cbn [oneMoment ru_points quad fst snd length]. replace (1 * 1 + 0 - 1 / INR (0 + 1)) with 0 by (cbn; lra). rewrite Rabs_R0. change (INR 1) with 1. lra.
  - specialize (M 1%nat). cbn [oneMoment ru_type]. replace (Iint (topo_of (gt_id (cube 1)) 1) (fun x => x 0%nat)) with (1 / INR (1 + 1)).
    2:{ rewrite <- M. apply Iint_ext. intros. ring. }
    cbn [oneMoment ru_points quad fst snd]. assert (57 / 100 + 5 / 1000 < sqrt (/ 3)).
    { rewrite <- (sqrt_Rsqr (57 / 100 + 5 / 1000)) by lra. apply sqrt_lt_1; unfold Rsqr; lra. }
    replace (INR (1 + 1)) with 2 by (cbn; lra). lra.
Qed.

Theorem C83_one_moment_refuted : exists q, gt_dim (ru_type q) = 1%nat /\ isCube (ru_type q) = true /\ ru_order q = 2%Z
  /\ (forall eps, 0 <= eps -> checkQuadrature eps 1 q = Some true /\ checkWeights eps 1 q = true)
  /\ 7 / 100 < quad (ru_points q) (fun x => x 0%nat) - Iint (topo_of (gt_id (ru_type q)) 1) (fun x => x 0%nat).
Proof.
  exists oneMoment. do 3 (split; [reflexivity|]). split; [|now apply (one_moment 0), Rle_refl].
  intros eps He. destruct (one_moment eps He) as (A & B & _). now split.
Qed.
Print Assumptions C83_one_moment_refuted.

(** at the default maximal order the test accepts a rule that doubles the only integral it
    looks at *)
Definition twiceRule : Rule := mkRule (cube 1) 45 [((fun _ => Rpower (2 / 46) (/ 45)), 1)].
Theorem C83_factor_two_refuted : exists q, gt_dim (ru_type q) = 1%nat /\ isCube (ru_type q) = true /\ ru_order q = 45%Z
  /\ checkQuadrature epsDouble 1 q = Some true /\ checkWeights epsDouble 1 q = true
  /\ quad (ru_points q) (fun x => x 0%nat ^ 45) = 2 * Iint (topo_of (gt_id (ru_type q)) 1) (fun x => x 0%nat ^ 45).
Proof.
  exists twiceRule. do 3 (split; [reflexivity|]).
  assert (M : forall n, Iint (topo_of (gt_id (cube 1)) 1) (fun x => x 0%nat ^ n) = 1 / INR (n + 1)).
  { intros n. assert (A := analytical_spec 1 (cube 1) n 0 eq_refl (Nat.lt_succ_diag_r 0) (or_introl eq_refl)). injection A as A. symmetry. exact A. }
  assert (P : 0 < Rpower (2 / 46) (/ 45)) by apply exp_pos.
  assert (Q : quad (ru_points twiceRule) (fun x => x 0%nat ^ 45) = 2 / 46).
  { unfold twiceRule. cbn [ru_points quad fst snd]. rewrite <- Rpower_pow by exact P. rewrite Rpower_mult.
    replace (/ 45 * INR 45) with 1 by (rewrite INR_IZR_INZ; cbn [Z.of_nat Pos.of_succ_nat Pos.succ]; lra). rewrite Rpower_1 by lra. ring. }
  assert (E : Iint (topo_of (gt_id (ru_type twiceRule)) 1) (fun x => x 0%nat ^ 45) = 1 / 46).
  { cbn [twiceRule ru_type]. rewrite M, INR_IZR_INZ. reflexivity. }
  assert (T : tolerance epsDouble 45 = 45 / 128).
  { unfold tolerance, epsDouble. rewrite INR_IZR_INZ. cbn [Z.of_nat Pos.of_succ_nat Pos.succ]. lra. }
  split; [|split].
  - apply C83_check; [rewrite eps_val; lra|reflexivity|lia|]. split; [now left|]. intros k Hk. change (tdim _) with 1%nat in Hk. assert (k = 0)%nat by lia. subst k.
    cbv zeta. change (Z.to_nat (ru_order twiceRule)) with 45%nat. rewrite Q, E, T, !Rabs_pos_eq by lra. lra.
  - apply C83_weights; [lia|]. unfold weightsOk. specialize (M 0%nat). cbn [pow] in M. unfold volumeT. cbn [twiceRule ru_type]. rewrite M.
    cbn [twiceRule ru_points quad fst snd length]. replace (1 * 1 + 0 - 1 / INR (0 + 1)) with 0 by (cbn; lra). rewrite Rabs_R0, eps_val. change (INR 1) with 1. lra.
  - rewrite Q, E. lra.
Qed.
Print Assumptions C83_factor_two_refuted.

(** ** examples *)
Example C83_pyramid_z : analyticalSolution 3 pyramid 1 2 = Some (2 / INR 24) /\ Iint (topo_of (gt_id pyramid) 3) (fun x => x 2%nat ^ 1) = 1 / 12.
Proof.
  split; [reflexivity|]. assert (A := proj1 (C83_analytic 3 pyramid 1 2 eq_refl ltac:(lia)) ltac:(do 3 right; reflexivity)).
  change (analyticalSolution 3 pyramid 1 2) with (Some (2 / INR 24)) in A. apply (f_equal (fun o => match o with Some v => v | None => 0 end)) in A.
  cbv beta iota in A. rewrite <- A. rewrite INR_IZR_INZ. cbn [Z.of_nat Pos.of_succ_nat Pos.succ]. lra.
Qed.
Example C83_triangle_x2 : analyticalSolution 2 (simplex 2) 2 0 = Some (1 / (1 * INR 3 * INR 4)).
Proof. reflexivity. Qed.
(** the midpoint rule of the line, claimed to be of order 2, is rejected *)
Example C83_midpoint_rejected : checkQuadrature epsDouble 1 (mkRule (cube 1) 2 [((fun _ => / 2), 1)]) = Some false.
Proof.
  set (q := mkRule _ _ _).
  destruct (checkQuadrature_named epsDouble 1 q) as (b & -> & B); [rewrite eps_val; lra|reflexivity|now left|].
  destruct b; [|reflexivity]. exfalso. destruct B as [B _]. specialize (B eq_refl 0%nat (Nat.lt_succ_diag_r 0)). cbv zeta in B.
  assert (A := analytical_spec 1 (cube 1) 2 0 eq_refl (Nat.lt_succ_diag_r 0) (or_introl eq_refl)). apply (f_equal (fun o => match o with Some v => v | None => 0 end)) in A.
  change (Z.to_nat (ru_order q)) with 2%nat in B. change (ru_type q) with (cube 1) in B. rewrite <- A in B.
  change (analyticalSolution 1 (cube 1) 2 0) with (Some (1 / INR 3)) in B. cbv beta iota in B.
  replace (INR 3) with 3 in B by (cbn; lra). unfold q, tolerance in B. cbn [quad ru_points fst snd] in B. replace (INR 2) with 2 in B by (cbn; lra). rewrite eps_val in B.
  rewrite (Rabs_left (1 * _ + 0 - _)), !Rabs_pos_eq in B by lra. lra.
Qed.
Example C83_no_prism4 : analyticalSolution 4 (GT3 9 4 false) 1 0 = None.
Proof. reflexivity. Qed.
