(** The rules of the factory pass the checks of the quadrature test program (end). *)
From Coq Require Import NArith ZArith QArith PeanoNat Bool List Reals Factorial Lia Lra.
From Coquelicot Require Import Coquelicot.
From Verif Require Import M_Type M_TypeIndex M_RefGeo M_QuadFactory M_Tab M_TabSimplex M_Quadrature M_QuadTest
  S_Topo S_RefGeo S_Quad S_Quad1D S_QuadND S_QuadTest
  P_Type P_Type2 P_Topo P_RefGeo2 P_RefVol P_QuadFactory P_QuadFix P_QuadProd P_QuadFixN P_TabSimplex P_QuadRules P_QuadAll P_Gauss2
  P_QuadTest1 P_QuadTest2 P_QuadTest3 P_QuadTest4.
Import ListNotations.
Local Open Scope R_scope.

Lemma accepted_low a b d x : N.shiftr a 1 = N.shiftr b 1 -> accepted a d x -> accepted b d x.
Proof.
  intros H [A B]. split.
  - intros k. rewrite tdim_topo_of. intros Hk. specialize (A k). rewrite tdim_topo_of in A. specialize (A Hk). cbv zeta in *.
    now rewrite <- (shiftr_Iint a b H).
  - unfold weightsOk, volumeT in *. now rewrite <- (shiftr_Iint a b H).
Qed.

Lemma store_length t s m : length (ru_points (storeRule t s m)) = m.
Proof. unfold storeRule. cbn [ru_points]. now rewrite map_length, seq_length. Qed.
Lemma triangle12_order : ru_order (storeRule triangle (run triangleInit) 33) = 12%Z.
Proof. vm_compute. reflexivity. Qed.
Lemma prism_order : ru_order prismRule = 2%Z.
Proof. vm_compute. reflexivity. Qed.
Lemma tol12 : tolerance epsDouble 12 = 49152 / 4503599627370496.
Proof. cbn [tolerance]. rewrite eps_val. replace (INR 12) with 12 by (cbn; lra). replace (2 ^ 12) with 4096 by (cbn; lra). lra. Qed.
Lemma triErr (b : bool) : 0 <= (if b then 3 / IZR (10 ^ 15) else 1 / IZR (10 ^ 20)).
Proof. destruct b; lra. Qed.
Ltac ris := cbn [risingProduct Nat.add]; rewrite ?INR_IZR_INZ; cbn [Z.of_nat Pos.of_succ_nat Pos.succ].

(** ** the tables *)
Lemma triangle_accept p : (0 <= p <= 12)%Z -> accepted 0 2 (storeRule triangle (run triangleInit) (triangleM p)).
Proof.
  intros Hp. destruct (triangle_R p Hp) as (A & B & _). change TriT with (topo_of 0 2) in B. destruct (Z.eqb_spec p 12) as [->|N].
  - change (triangleM 12) with 33%nat in *. rewrite triangle12_order in *. change (Z.to_nat 12) with 12%nat in *. split.
    + rewrite triangle12_order. change (Z.to_nat 12) with 12%nat. eapply relOK_powers; [apply momExact_rel; [|exact B]; lra|].
      rewrite tol12. ris. lra.
    + eapply (weights_of _ _ _ _ _ 33); [exact B|rewrite store_length; lia|]. rewrite eps_val. ris. lra.
  - apply (fine_accept 0 2 (1 / IZR (10 ^ 20))); [lia|lra|exact B].
Qed.
Lemma tetrahedron_accept p : (0 <= p <= 5)%Z -> accepted 0 3 (storeRule tetrahedron (run tetrahedronInit) (tetrahedronM p)).
Proof.
  intros Hp. destruct (tetrahedron_R p Hp) as (A & B & _). change TetT with (topo_of 0 3) in B. split.
  - eapply relOK_powers; [apply momExact_rel; [|exact B]; lra|]. apply fine3; [lia|]. split; lra.
  - eapply (weights_of _ _ _ _ _ 1); [exact B| |].
    + eapply mom_nonempty; [| |exact B]; [lia|lra].
    + rewrite eps_val. cbn [INR]. lra.
Qed.
Lemma prism_accept : accepted 4 3 prismRule.
Proof.
  destruct prism_R as (_ & B & _). change PriT with (topo_of 4 3) in B. rewrite prism_order in B. change (Z.to_nat 2) with 2%nat in B. split.
  - rewrite prism_order. change (Z.to_nat 2) with 2%nat. intros k. rewrite tdim_topo_of. intros Hk. cbv zeta.
    specialize (B (powE k 2)). rewrite tdim_topo_of in B. specialize (B (powE_degree 3 k 2)).
    rewrite (quad_ext _ (monomial 3 (powE k 2)) (fun x => x k ^ 2)) in B by (intros; now apply powE_in).
    rewrite Iint_pow by (rewrite tdim_topo_of; exact Hk).
    assert (M : 1 / 12 <= momW 0 (topo_of 4 3) (powE k 2)).
    { rewrite prism_mom by (auto; reflexivity). destruct (Nat.ltb k 2); ris; [lra|]. change (fact 2) with 2%nat. ris. lra. }
    set (E := momW 0 (topo_of 4 3) (powE k 2)) in *. set (I := quad (ru_points prismRule) (fun x => x k ^ 2)) in *.
    replace (tolerance epsDouble 2) with (8 / 4503599627370496) by (cbn [tolerance]; rewrite eps_val; cbn; lra).
    eapply Rle_trans; [exact B|]. pose proof (Rabs_pos I). rewrite (Rabs_right E) by lra. lra.
  - eapply (weights_of _ _ _ _ _ 6); [exact B|unfold prismRule; rewrite store_length; lia|]. rewrite eps_val. ris. lra.
Qed.

Section Accept.
Variable lapack : Z -> nat -> option (list (R * R)).
Hypothesis Hl : lapackOk eps1 lapack.

Lemma ne x y : 0 <= x -> x <= y -> 0 <= y. Proof. lra. Qed.

(** the tetrahedron of order 12 *)
Lemma tet12 t qt r : isSimplex t = true -> (qt = 0 \/ qt = 3)%nat -> factory lapack 3 t 12 qt = Some r ->
  ru_order r = 12%Z /\ momExact 0 (topo_of 0 3) 12 (4 / 1000000000000000) (ru_points r)
  /\ relOK 0 3 12 (7 / 10000000000000) (ru_points r) /\ (33 <= length (ru_points r))%nat.
Proof.
  intros H Q F. rewrite factory_SS, choose_SS, H in F.
  replace (12 <=? highestTetrahedron)%Z with false in F by reflexivity. rewrite !andb_false_r in F.
  eapply (chain lapack Hl 1 t 12 qt r (3 / 1000000000000000) (3 / 1000000000000000 * risingProduct 12 2) 33) in F;
    [|exact H|now apply wexp_table|pose proof (risingProduct_pos 12 2); lra|lia|].
  - destruct F as (F1 & F2 & F3 & F4). split; [exact F1|]. change (Z.to_nat 12) with 12%nat in *. split; [|split; [|exact F4]].
    + eapply momExact_weaken; [exact F2|lia|]. rewrite eps1_val. lra.
    + eapply relOK_weaken; [|exact F3]. rewrite eps1_val. ris. lra.
  - intros b _ Fb. apply triangle_is in Fb; [|apply base_simplex; [exact H|lia]|exact Q|lia]. subst b. change (triangleM 12) with 33%nat.
    destruct (triangle_R 12 ltac:(lia)) as (_ & B & _). change (triangleM 12) with 33%nat in B. rewrite triangle12_order in B. change (12 =? 12)%Z with true in B. cbv iota in B.
    change TriT with (topo_of 0 2) in B. change (Z.to_nat 12) with 12%nat in *.
    assert (B' : momExact 0 (topo_of 0 2) 12 (3 / 1000000000000000) (ru_points (storeRule triangle (run triangleInit) 33))) by (eapply momExact_weaken; [exact B|lia|lra]).
    split; [exact B'|]. split; [|rewrite store_length; lia]. apply momExact_rel; [lra|exact B'].
Qed.

Lemma simplex4 t p qt r : isSimplex t = true -> (qt = 0 \/ qt = 3)%nat -> (0 <= p <= 5 \/ p = 12)%Z -> factory lapack 4 t p qt = Some r ->
  accepted 0 4 r.
Proof.
  intros H Q P F. rewrite factory_SS, choose_SS in F. destruct P as [P| ->].
  - pose proof (risingProduct_pos (Z.to_nat p) 3) as RP.
    eapply (chain lapack Hl 2 t p qt r (1 / 100000000000000000) (1 / 100000000000000000 * risingProduct (Z.to_nat p) 3) 1) in F;
      [|exact H|now apply wexp_table|lra|lia|].
    + destruct F as (F1 & F2 & F3 & F4). split.
      * rewrite F1. eapply relOK_powers; [exact F3|]. rewrite eps1_val.
        assert (C : (p = 0 \/ p = 1 \/ p = 2 \/ p = 3 \/ p = 4 \/ p = 5)%Z) by lia.
        destruct C as [-> |[-> |[-> |[-> |[-> | ->]]]]];
          [change (Z.to_nat 0) with 0%nat|change (Z.to_nat 1) with 1%nat|change (Z.to_nat 2) with 2%nat
          |change (Z.to_nat 3) with 3%nat|change (Z.to_nat 4) with 4%nat|change (Z.to_nat 5) with 5%nat];
          cbn [tolerance pow]; rewrite eps_val; ris; lra.
      * eapply (weights_of _ _ _ _ _ 1); [exact F2|exact F4|]. rewrite eps1_val, eps_val. cbn [INR]. lra.
    + intros b _ Fb. apply tetrahedron_is in Fb; [|apply base_simplex; [exact H|lia]|exact Q|lia]. subst b.
      destruct (tetrahedron_R p P) as (A & B & _). change TetT with (topo_of 0 3) in B.
      assert (B' : momExact 0 (topo_of 0 3) (Z.to_nat p) (1 / 100000000000000000) (ru_points (storeRule tetrahedron (run tetrahedronInit) (tetrahedronM p)))).
      { eapply momExact_weaken; [exact B|lia|lra]. }
      split; [exact B'|]. split; [apply momExact_rel; [lra|exact B']|]. eapply mom_nonempty; [| |exact B']; [lia|lra].
  - eapply (chain lapack Hl 2 t 12 qt r (4 / 1000000000000000) (7 / 10000000000000) 33) in F;
      [|exact H|now apply wexp_table|lra|lia|].
    + destruct F as (F1 & F2 & F3 & F4). split.
      * rewrite F1. eapply relOK_powers; [exact F3|]. change (Z.to_nat 12) with 12%nat. rewrite eps1_val, tol12. ris. lra.
      * eapply (weights_of _ _ _ _ _ 33); [exact F2|exact F4|]. rewrite eps1_val, eps_val. ris. lra.
    + intros b _ Fb. apply tet12 in Fb; [|apply base_simplex; [exact H|lia]|exact Q]. destruct Fb as (_ & B1 & B2 & B3). auto.
Qed.

Lemma prism_tensor t p qt r : isPrismT t = true -> (qt = 0 \/ qt = 3)%nat -> (0 <= p <= 5 \/ p = 12)%Z -> tensorPart lapack 1 t p qt = Some r ->
  accepted 4 3 r.
Proof.
  intros H Q P F. pose proof (prism_id t H) as ID.
  apply tensor_parts in F; [|exact Hl|now apply wexp_table|].
  2:{ apply named_shift in H. destruct H as [_ H]. assert (X := f_equal (fun z => N.testbit z 2) H). cbn beta in X.
      rewrite N.lor_spec in X. change (N.testbit 5 2) with true in X. change (N.testbit 1 2) with false in X. now rewrite orb_false_r in X. }
  destruct F as (b & o & _ & F & O & Pt & Or). apply triangle_is in F; [|idtac|exact Q|lia].
  2:{ assert (K : (gt_id t = 4 \/ gt_id t = 5)%N).
      { rewrite !N.shiftr_div_pow2 in ID. change (4 / 2 ^ 1)%N with 2%N in ID. change (2 ^ 1)%N with 2%N in ID.
        pose proof (N.div_mod (gt_id t) 2 ltac:(discriminate)) as D1. pose proof (N.mod_lt (gt_id t) 2 ltac:(discriminate)) as D2.
        rewrite <- ID in D1. clear - D1 D2. revert D1 D2. generalize (gt_id t mod 2)%N. intros m D1 D2. rewrite D1. clear D1. change (2 * 2)%N with 4%N. assert (m = 0 \/ m = 1)%N as [-> | ->] by lia; [left|right]; reflexivity. }
      unfold tpBase. destruct K as [-> | ->]; reflexivity. }
  subst b. destruct (triangle_R p ltac:(lia)) as (A & B & _). change TriT with (topo_of 0 2) in B.
  set (E := if (p =? 12)%Z then 3 / IZR (10 ^ 15) else 1 / IZR (10 ^ 20)) in *.
  assert (M : momExact 0 (topo_of 4 3) (Z.to_nat p) (E * (1 + eps1) + 1 * eps1) (ru_points r)).
  { rewrite Pt. change (topo_of 4 3) with (Pri (topo_of 0 2)).
    assert (X := tensor_exact 0 (topo_of 0 2) (Z.to_nat p) (ru_points (storeRule triangle (run triangleInit) (triangleM p))) o E eps1 1 1).
    rewrite tdim_topo_of in X. apply X.
    - eapply momExact_weaken; [exact B|lia|lra].
    - intros e. pose proof (momW_abs 0 (topo_of 0 2) e) as Y. rewrite Cw0, pow1 in Y. exact Y.
    - intros a c. pose proof (bmom_abs 0 a c) as Y. rewrite Cw0 in Y. exact Y.
    - exact O. }
  rewrite <- Or in M. destruct P as [P| ->].
  - apply (fine_accept 4 3 (E * (1 + eps1) + 1 * eps1)); [lia| |exact M]. unfold E. replace (p =? 12)%Z with false by (symmetry; apply Z.eqb_neq; lia).
    rewrite eps1_val. lra.
  - unfold E in M. change (12 =? 12)%Z with true in M. cbv iota in M. rewrite Or in M. change (Z.to_nat 12) with 12%nat in M. split.
    + rewrite Or. change (Z.to_nat 12) with 12%nat. eapply relOK_powers; [apply momExact_rel; [|exact M]; rewrite eps1_val; lra|].
      rewrite tol12, eps1_val. ris. lra.
    + eapply (weights_of _ _ _ _ _ 33); [exact M| |rewrite eps_val, eps1_val; ris; lra].
      rewrite Pt, tensor_length, store_length. change (triangleM 12) with 33%nat. assert (1 <= length o)%nat; [|nia].
      eapply beta_nonempty; [|exact O]. rewrite eps1_val. cbn [INR]. lra.
Qed.

(** every rule of a named reference element of dimension 1 to 4 *)
Lemma factory_accepted dim t p qt r : (1 <= dim <= 4)%nat -> gt_dim t = dim -> namedType t -> (qt <> 1 /\ qt <> 2)%nat ->
  inRange dim t p qt = true -> factory lapack dim t p qt = Some r -> accepted (gt_id t) dim r.
Proof.
  intros Hd Ht Nt Q HR F.
  assert (W : weightExp qt = 0%nat) by (destruct qt as [|[|[|qt]]]; try reflexivity; lia).
  assert (Hp : (0 <= p)%Z).
  { unfold inRange in HR. destruct dim as [|d]; [lia|]. destruct (maxOrder _ _ _); [|discriminate]. rewrite andb_true_iff, Z.leb_le in HR. tauto. }
  assert (FINE : goodN eps1 (gt_id t) dim p qt r -> accepted (gt_id t) dim r).
  { intros (_ & G & _). rewrite W, Cw0 in G. apply (fine_accept (gt_id t) dim (errD 1 eps1 dim)); [lia|now apply errD_fine|exact G]. }
  destruct (Req_dec (tableErr p qt) eps1) as [TE|TE].
  { apply FINE. eapply (factory_good lapack eps1 (Rle_refl _) Hl); eauto. rewrite TE. lra. }
  assert (K : (qt = 0 \/ qt = 3)%nat /\ (0 <= p <= 5 \/ p = 12)%Z).
  { unfold tableErr in TE. fold eps1 in TE. destruct (Nat.eqb qt 0 || Nat.eqb qt 3) eqn:Eq; [|now elim TE].
    rewrite orb_true_iff, !Nat.eqb_eq in Eq. split; [exact Eq|]. destruct (Z.leb_spec p 5); [left; lia|].
    destruct (Z.eqb_spec p 12); [right; assumption|now elim TE]. }
  destruct K as [Kq Kp].
  destruct (Nat.eq_dec dim 1) as [->|D1]; [apply FINE; eapply (square_good lapack Hl); eauto|].
  destruct Nt as [C|[S|[P|Y]]].
  - apply FINE. eapply (square_good lapack Hl); [lia| |exact F]. right. change 1%N with (N.of_nat 1). apply cube_bits; [exact C|lia].
  - apply (accepted_low 0); [now apply simplex_id|]. assert (Dm : (dim = 2 \/ dim = 3 \/ dim = 4)%nat) by lia. destruct Dm as [-> |[-> | ->]].
    + apply triangle_is in F; [|exact S|exact Kq|lia]. subst r. apply triangle_accept. lia.
    + destruct Kp as [Kp| ->].
      * apply tetrahedron_is in F; [|exact S|exact Kq|lia]. subst r. now apply tetrahedron_accept.
      * apply tet12 in F; [|exact S|exact Kq]. destruct F as (F1 & F2 & F3 & F4). split.
        -- rewrite F1. eapply relOK_powers; [exact F3|]. change (Z.to_nat 12) with 12%nat. rewrite tol12. lra.
        -- eapply (weights_of _ _ _ _ _ 33); [exact F2|exact F4|]. rewrite eps_val. ris. lra.
    + eapply simplex4; eauto.
  - apply (accepted_low 4); [now apply prism_id|]. assert (dim = 3%nat) as -> by (apply named_shift in P; lia).
    assert (S0 : isSimplex t = false).
    { apply named_shift in P. destruct P as [_ P]. unfold isSimplex. rewrite P. apply andb_false_r. }
    rewrite factory_SS, choose_SS, S0, P in F. cbn [andb] in F.
    destruct (Nat.eqb qt qtLegendre && (p <=? highestPrism)%Z); [injection F as <-; apply prism_accept|]. eapply prism_tensor; eauto.
  - apply FINE. assert (dim = 3%nat) as -> by (apply named_shift in Y; lia). eapply (square_good lapack Hl); [lia| |exact F]. right.
    apply named_shift in Y. destruct Y as [_ Y]. assert (X := f_equal (fun z => N.testbit z 1) Y). cbn beta in X.
    rewrite N.lor_spec in X. change (N.testbit 3 1) with true in X. change (N.testbit 1 1) with false in X. now rewrite orb_false_r in X.
Qed.
End Accept.
