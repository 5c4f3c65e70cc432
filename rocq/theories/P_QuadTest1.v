(** Integrals of the powers of one coordinate over the reference elements. *)
From Coq Require Import NArith ZArith PeanoNat Bool List Reals Factorial Lia Lra.
From Coquelicot Require Import Coquelicot.
From Verif Require Import M_Type M_RefGeo M_QuadFactory M_Quadrature M_QuadTest S_Topo S_RefGeo S_Quad1D S_QuadND
  P_Topo P_RefGeo2 P_RefVol P_QuadProd P_QuadAll.
Import ListNotations.
Local Open Scope R_scope.

Definition powE (k n : nat) : nat -> nat := fun j => if Nat.eqb j k then n else 0%nat.

Lemma powE_out d k n : (d <= k)%nat -> degree d (powE k n) = 0%nat /\ forall x, monomial d (powE k n) x = 1.
Proof.
  induction d as [|d IH]; intros H; [split; reflexivity|]. destruct (IH ltac:(lia)) as [A B].
  assert (E : powE k n d = 0%nat) by (unfold powE; destruct (Nat.eqb_spec d k); [lia|reflexivity]).
  cbn [degree monomial]. rewrite A, E. split; [reflexivity|]. intros x. rewrite B. simpl. ring.
Qed.
Lemma powE_in d k n : (k < d)%nat -> degree d (powE k n) = n /\ forall x, monomial d (powE k n) x = x k ^ n.
Proof.
  induction d as [|d IH]; intros H; [lia|]. cbn [degree monomial]. destruct (Nat.eq_dec k d) as [->|N].
  - destruct (powE_out d d n (Nat.le_refl d)) as [A B]. rewrite A. unfold powE at 1 3. rewrite Nat.eqb_refl.
    split; [reflexivity|]. intros x. rewrite B. ring.
  - destruct (IH ltac:(lia)) as [A B]. assert (E : powE k n d = 0%nat) by (unfold powE; destruct (Nat.eqb_spec d k); [lia|reflexivity]).
    rewrite A, E. split; [lia|]. intros x. rewrite B. simpl. ring.
Qed.
Lemma powE_zero d k : degree d (powE k 0) = 0%nat.
Proof. induction d as [|d IH]; [reflexivity|]. cbn [degree]. rewrite IH. unfold powE. destruct (Nat.eqb d k); reflexivity. Qed.

Lemma IintW_mono alpha T e : IintW alpha T (monomial (tdim T) e) = momW alpha T e.
Proof.
  pose proof (IintW_peval alpha T [(1, e)]) as H. cbn [pmom] in H.
  rewrite (IintW_ext _ _ _ (monomial (tdim T) e)) in H by (intros; cbn; ring). rewrite H. ring.
Qed.
Lemma Iint_pow T k n : (k < tdim T)%nat -> Iint T (fun x => x k ^ n) = momW 0 T (powE k n).
Proof.
  intros H. rewrite <- IintW_mono, IintW_Iint. apply Iint_ext. intros x. symmetry. now apply powE_in.
Qed.
Lemma volume_momW T k n : (tdim T <= k)%nat -> volumeT T = momW 0 T (powE k n).
Proof.
  intros H. rewrite <- IintW_mono, IintW_Iint. apply Iint_ext. intros x. symmetry. now apply powE_out.
Qed.

(** ** values *)
Lemma risingProduct_pos p d : 0 < risingProduct p d.
Proof.
  induction d as [|d IH]; cbn [risingProduct]; [lra|]. apply Rmult_lt_0_compat; [exact IH|]. apply lt_0_INR. lia.
Qed.
Lemma risingProduct_fact p d : risingProduct p d = INR (fact (p + d)) / INR (fact p).
Proof.
  induction d as [|d IH]; cbn [risingProduct].
  - rewrite Nat.add_0_r. field. apply INR_fact_neq_0.
  - rewrite IH. rewrite Nat.add_succ_r. change (fact (S (p + d))) with (S (p + d) * fact (p + d))%nat. rewrite mult_INR. field. apply INR_fact_neq_0.
Qed.
Lemma bmom0 a b : bmom 0 a b = INR (fact a) * INR (fact b) / INR (fact (S (a + b))).
Proof. rewrite bmom_Beta, Nat.add_0_r, Beta_val. simpl pow. ring. Qed.
Lemma bmom0_0l b : bmom 0 0 b = 1 / INR (b + 1).
Proof.
  rewrite bmom0. cbn [Nat.add]. change (fact (S b)) with (S b * fact b)%nat. rewrite mult_INR, Nat.add_1_r.
  change (INR (fact 0)) with 1. field. split; [apply not_0_INR; discriminate|apply INR_fact_neq_0].
Qed.
Lemma bmom0_0r a : bmom 0 a 0 = 1 / INR (a + 1).
Proof.
  rewrite bmom0. rewrite Nat.add_0_r. change (fact (S a)) with (S a * fact a)%nat. rewrite mult_INR, Nat.add_1_r.
  change (INR (fact 0)) with 1. field. split; [apply not_0_INR; discriminate|apply INR_fact_neq_0].
Qed.
Lemma bmom0_rising a b : bmom 0 a b = INR (fact a) / risingProduct b (S a).
Proof.
  rewrite bmom0, risingProduct_fact. replace (b + S a)%nat with (S (a + b)) by lia. field.
  split; [apply INR_fact_neq_0|apply INR_fact_neq_0].
Qed.

Lemma momW_S id d e : momW 0 (topo_of id (S d)) e
  = momW 0 (topo_of id d) e * bmom 0 (if N.testbit id (N.of_nat d) then 0%nat else (d + degree d e)%nat) (e d).
Proof. cbn [topo_of]. destruct (N.testbit id _); cbn [momW]; rewrite tdim_topo_of; reflexivity. Qed.

Lemma powE_at k n : powE k n k = n.
Proof. unfold powE. now rewrite Nat.eqb_refl. Qed.
Lemma powE_ne k n j : j <> k -> powE k n j = 0%nat.
Proof. intros H. unfold powE. destruct (Nat.eqb_spec j k); [contradiction|reflexivity]. Qed.

Lemma cube_mom id d k n : (forall i, (1 <= i < d)%nat -> N.testbit id (N.of_nat i) = true) ->
  momW 0 (topo_of id d) (powE k n) = if Nat.ltb k d then 1 / INR (n + 1) else 1.
Proof.
  induction d as [|d IH]; intros H; [reflexivity|]. rewrite momW_S, IH by (intros; apply H; lia).
  assert (Z : (if N.testbit id (N.of_nat d) then 0 else d + degree d (powE k n))%nat = 0%nat).
  { destruct d as [|d]; [destruct (N.testbit id _); reflexivity|]. now rewrite H by lia. }
  rewrite Z. destruct (Nat.eq_dec k d) as [->|N].
  - rewrite powE_at, bmom0_0l. replace (Nat.ltb d d) with false by (symmetry; apply Nat.ltb_irrefl).
    replace (Nat.ltb d (S d)) with true by (symmetry; apply Nat.ltb_lt; lia). ring.
  - rewrite powE_ne, bmom0_0l by auto. replace (Nat.ltb k (S d)) with (Nat.ltb k d).
    2:{ destruct (Nat.ltb_spec k d), (Nat.ltb_spec k (S d)); try reflexivity; lia. }
    change (INR (0 + 1)) with 1. field.
Qed.

Lemma simplex_mom id d k n : (forall i, (1 <= i < d)%nat -> N.testbit id (N.of_nat i) = false) ->
  momW 0 (topo_of id d) (powE k n) = if Nat.ltb k d then 1 / risingProduct n d else 1 / INR (fact d).
Proof.
  induction d as [|d IH]; intros H; [cbn; lra|]. rewrite momW_S, IH by (intros; apply H; lia).
  assert (Z : (if N.testbit id (N.of_nat d) then 0 else d + degree d (powE k n))%nat = (d + degree d (powE k n))%nat).
  { destruct d as [|d]; [destruct (N.testbit id _); reflexivity|]. now rewrite H by lia. }
  rewrite Z. destruct (Nat.eq_dec k d) as [->|N].
  - rewrite powE_at. destruct (powE_out d d n (Nat.le_refl d)) as [-> _]. rewrite Nat.add_0_r.
    replace (Nat.ltb d d) with false by (symmetry; apply Nat.ltb_irrefl).
    replace (Nat.ltb d (S d)) with true by (symmetry; apply Nat.ltb_lt; lia). rewrite bmom0_rising.
    field. split; [pose proof (risingProduct_pos n (S d)); lra|apply INR_fact_neq_0].
  - rewrite powE_ne, bmom0_0r by auto. replace (Nat.ltb k (S d)) with (Nat.ltb k d).
    2:{ destruct (Nat.ltb_spec k d), (Nat.ltb_spec k (S d)); try reflexivity; lia. }
    destruct (Nat.ltb_spec k d) as [L|L].
    + destruct (powE_in d k n L) as [-> _]. cbn [risingProduct]. replace (n + S d)%nat with (d + n + 1)%nat by lia.
      field. split; [apply not_0_INR; lia|]. pose proof (risingProduct_pos n d). lra.
    + destruct (powE_out d k n L) as [-> _]. change (fact (S d)) with (S d * fact d)%nat. rewrite mult_INR.
      replace (d + 0 + 1)%nat with (S d) by lia. field. split; [apply INR_fact_neq_0|apply not_0_INR; discriminate].
Qed.

(** lower bounds for every reference element *)
Lemma risingProduct_ge1 n d : 1 <= risingProduct n d.
Proof.
  induction d as [|d IH]; cbn [risingProduct]; [lra|]. assert (1 <= INR (n + S d)) by (replace 1 with (INR 1) by reflexivity; apply le_INR; lia). nra.
Qed.
Lemma inv_le_mult a b c : 0 < a -> 0 < b -> / a <= c -> 0 <= c -> / (a * b) <= c * / b.
Proof. intros Ha Hb H Hc. rewrite Rinv_mult_distr by lra. apply Rmult_le_compat_r; [|exact H]. left. now apply Rinv_0_lt_compat. Qed.
Lemma mom_lower id d k n :
  (if Nat.ltb k d then / risingProduct n d else / INR (fact d)) <= momW 0 (topo_of id d) (powE k n).
Proof.
  induction d as [|d IH]; [cbn; lra|]. rewrite momW_S.
  pose proof (momW_bounds 0 (topo_of id d) (powE k n)) as [P _]. pose proof (INR_fact_lt_0 d) as F.
  destruct (Nat.eq_dec k d) as [->|N].
  - replace (Nat.ltb d (S d)) with true by (symmetry; apply Nat.ltb_lt; lia).
    replace (Nat.ltb d d) with false in IH by (symmetry; apply Nat.ltb_irrefl). rewrite powE_at.
    destruct (powE_out d d n (Nat.le_refl d)) as [-> _]. rewrite Nat.add_0_r.
    assert (B : INR (fact d) / risingProduct n (S d) <= bmom 0 (if N.testbit id (N.of_nat d) then 0%nat else d) n).
    { destruct (N.testbit id _); [|rewrite bmom0_rising; lra]. rewrite bmom0_0l, risingProduct_fact.
      (* d! n! / (n+d+1)! <= 1/(n+1) *)
      clear. assert (G : forall m, INR (fact m) * INR (fact n) * INR (n + 1) <= INR (fact (n + S m))).
      { induction m as [|m IH].
        - change (INR (fact 0)) with 1. rewrite Nat.add_1_r. change (fact (S n)) with (S n * fact n)%nat. rewrite mult_INR. lra.
        - rewrite (Nat.add_succ_r n (S m)). change (fact (S m)) with (S m * fact m)%nat.
          change (fact (S (n + S m))) with (S (n + S m) * fact (n + S m))%nat. rewrite !mult_INR.
          assert (INR (S m) <= INR (S (n + S m))) by (apply le_INR; lia).
          assert (0 <= INR (S m)) by apply pos_INR.
          assert (0 <= INR (fact m) * INR (fact n) * INR (n + 1)) by (repeat apply Rmult_le_pos; apply pos_INR). nra. }
      specialize (G d). pose proof (INR_fact_lt_0 n). pose proof (INR_fact_lt_0 (n + S d)).
      assert (0 < INR (n + 1)) by (apply lt_0_INR; lia).
      replace (INR (fact d) / (INR (fact (n + S d)) / INR (fact n))) with (INR (fact d) * INR (fact n) / INR (fact (n + S d))) by (field; lra).
      apply (Rmult_le_reg_r (INR (fact (n + S d)) * INR (n + 1))); [nra|]. field_simplify; lra. }
    eapply Rle_trans; [|apply Rmult_le_compat; [left; apply Rinv_0_lt_compat; exact F| |exact IH|exact B]].
    + right. field. split; [pose proof (risingProduct_pos n (S d)); lra|lra].
    + apply Rlt_le, Rdiv_lt_0_compat; [exact F|apply risingProduct_pos].
  - rewrite powE_ne, bmom0_0r by auto. replace (Nat.ltb k (S d)) with (Nat.ltb k d).
    2:{ destruct (Nat.ltb_spec k d), (Nat.ltb_spec k (S d)); try reflexivity; lia. }
    assert (Q : / INR (d + degree d (powE k n) + 1) <= 1 / INR ((if N.testbit id (N.of_nat d) then 0 else d + degree d (powE k n)) + 1)).
    { unfold Rdiv. rewrite Rmult_1_l. apply Rinv_le_contravar; [apply lt_0_INR; lia|apply le_INR; destruct (N.testbit id _); lia]. }
    eapply Rle_trans; [|apply Rmult_le_compat_l; [exact P|exact Q]].
    destruct (Nat.ltb_spec k d) as [L|L].
    + destruct (powE_in d k n L) as [-> _]. cbn [risingProduct]. replace (d + n + 1)%nat with (n + S d)%nat by lia.
      apply inv_le_mult; auto; [apply risingProduct_pos|apply lt_0_INR; lia].
    + destruct (powE_out d k n L) as [-> _]. change (fact (S d)) with (S d * fact d)%nat. rewrite mult_INR, Rmult_comm.
      replace (d + 0 + 1)%nat with (S d) by lia. apply inv_le_mult; auto. apply lt_0_INR. lia.
Qed.
