(** Orders and nested requests. *)
From Coq Require Import NArith ZArith PeanoNat Bool List Lia.
From Verif Require Import M_Type M_TypeIndex M_QuadFactory S_Quad P_Type P_Type2.
Import ListNotations.
Local Open Scope Z_scope.

Lemma max1_bounds qt : (qt < qtSize)%nat -> exists l, maxOrder1 qt = Some l /\ 30 <= l <= 127.
Proof.
  unfold qtSize. intros H.
  do 7 (destruct qt as [|qt]; [eexists; split; [reflexivity|]; cbv; split; discriminate|]). lia.
Qed.

Lemma uint_small z : 0 <= z < 2 ^ 32 -> uint z = z.
Proof. intros H. now apply Z.mod_small. Qed.

Lemma uint_id z : 0 <= z <= 1000 -> uint z = z.
Proof. intros H. apply uint_small. split; [lia|]. apply Z.le_lt_trans with 1000; [lia|reflexivity]. Qed.

Lemma tpBase_dim id d : (d < 31)%nat -> gt_dim (tpBase id d) = d.
Proof.
  intros H. unfold tpBase, GT2. cbn [gt_dim]. unfold to_uchar. apply Nat.mod_small.
  apply Nat.lt_trans with 31%nat; [exact H|]. apply Nat.ltb_lt. reflexivity.
Qed.

(** the value of maxOrder from dimension 2 on: the tables never raise it *)
Definition tensorMax (t : GeometryType) (d qt : nat) (b l : Z) : Z :=
  if tpPrism (gt_id t) d then Z.min b l
  else if Nat.eqb qt qtJacobiN then Z.min b l else Z.min b (l - Z.of_nat d).

Lemma maxOrder_spec d t qt : (d < 30)%nat -> gt_dim t = S d -> (qt < qtSize)%nat ->
  exists m, maxOrder (S d) t qt = Some m /\ 30 - Z.of_nat d <= m <= 127
  /\ (d = 0%nat -> maxOrder1 qt = Some m)
  /\ (d <> 0%nat -> exists b l, maxOrder d (tpBase (gt_id t) d) qt = Some b
       /\ maxOrder1 qt = Some l /\ m = tensorMax t d qt b l).
Proof.
  revert t. induction d as [|d IH]; intros t Hd Ht Hq.
  - destruct (max1_bounds qt Hq) as (l & El & Bl). exists l. cbn [maxOrder]. unfold isLine.
    rewrite Ht. cbn [Nat.eqb]. repeat split; auto; try lia.
  - destruct (max1_bounds qt Hq) as (l & El & Bl).
    destruct (IH (tpBase (gt_id t) (S d))) as (b & Eb & Bb & _); try lia; auto.
    { apply tpBase_dim. lia. }
    assert (T : 30 - Z.of_nat (S d) <= tensorMax t (S d) qt b l <= 127).
    { unfold tensorMax. destruct (tpPrism _ _); [lia|]. destruct (Nat.eqb _ _); lia. }
    exists (tensorMax t (S d) qt b l). split; [|split; [lia|split; [lia|]]].
    2:{ intros _. exists b, l. repeat split; auto. }
    set (base := tpBase (gt_id t) (S d)) in *.
    assert (U : uint (l - Z.of_nat (S d)) = l - Z.of_nat (S d)) by (apply uint_id; lia).
    change (maxOrder (S (S d)) t qt) with
      (match maxOrder (S d) base qt, maxOrder1 qt with
          | Some b, Some l =>
              let tensor :=
                if tpPrism (gt_id t) (S d) then Z.min b l
                else if Nat.eqb qt qtJacobiN then Z.min b l
                else Z.min b (uint (l - Z.of_nat (S d))) in
              Some
                match S (S d) with
                | 2%nat => if isSimplex t then Z.max tensor highestTriangle else tensor
                | 3%nat =>
                    let order :=
                      if isSimplex t then Z.max tensor highestTetrahedron else tensor in
                    if isPrismT t then Z.max order highestPrism else order
                | _ => tensor
                end
          | _, _ => None
          end).
    rewrite Eb, El. cbv zeta. rewrite U. fold (tensorMax t (S d) qt b l).
    set (T' := tensorMax t (S d) qt b l) in *. f_equal.
    unfold highestTriangle, highestTetrahedron, highestPrism.
    destruct d as [|[|d]]; [| |reflexivity].
    + destruct (isSimplex t); lia.
    + destruct (isSimplex t), (isPrismT t); lia.
Qed.

Lemma maxOrder_some r : (rq_dim r < 31)%nat -> gt_dim (rq_t r) = rq_dim r -> (rq_qt r < qtSize)%nat ->
  rq_dim r <> 0%nat ->
  exists m, maxOrder (rq_dim r) (rq_t r) (rq_qt r) = Some m /\ 31 - Z.of_nat (rq_dim r) <= m <= 127.
Proof.
  intros A B C D. destruct (rq_dim r) as [|d] eqn:E; [lia|].
  destruct (maxOrder_spec d (rq_t r) (rq_qt r)) as (m & Em & Bm & _); auto; try lia.
  exists m. split; [exact Em|lia].
Qed.

(** ** the type only matters through its index *)

Lemma same_shift_bits a b : N.shiftr a 1 = N.shiftr b 1 -> forall k, (1 <= k)%N ->
  N.testbit a k = N.testbit b k.
Proof.
  intros H k Hk. assert (E := f_equal (fun x => N.testbit x (k - 1)) H). cbn beta in E.
  rewrite !N.shiftr_spec in E by lia. now replace (k - 1 + 1)%N with k in E by lia.
Qed.

Lemma same_shift_lor a b : N.shiftr a 1 = N.shiftr b 1 -> N.lor a 1 = N.lor b 1.
Proof.
  intros H. apply N.bits_inj. intros k. rewrite !N.lor_spec, !testbit_1.
  destruct (N.eqb_spec k 0); [now rewrite !orb_true_r|].
  rewrite (same_shift_bits a b H k) by lia. reflexivity.
Qed.

Lemma shift_clearbit a b d : N.shiftr a 1 = N.shiftr b 1 ->
  N.shiftr (N.clearbit a (N.of_nat d)) 1 = N.shiftr (N.clearbit b (N.of_nat d)) 1.
Proof.
  intros H. apply N.bits_inj. intros k. rewrite !N.shiftr_spec by lia.
  rewrite !N.clearbit_eqb. rewrite (same_shift_bits a b H (k + 1)) by lia. reflexivity.
Qed.

Lemma tpPrism_same a b d : (d <> 0)%nat -> N.shiftr a 1 = N.shiftr b 1 -> tpPrism a d = tpPrism b d.
Proof. intros Hd H. unfold tpPrism. apply same_shift_bits; [exact H|lia]. Qed.

Lemma isSimplex_same s t : gt_none s = gt_none t -> N.shiftr (gt_id s) 1 = N.shiftr (gt_id t) 1 ->
  isSimplex s = isSimplex t.
Proof. intros A B. unfold isSimplex. now rewrite A, (same_shift_lor _ _ B). Qed.
Lemma isPrismT_same s t : gt_none s = gt_none t -> gt_dim s = gt_dim t ->
  N.shiftr (gt_id s) 1 = N.shiftr (gt_id t) 1 -> isPrismT s = isPrismT t.
Proof. intros A D B. unfold isPrismT, named. now rewrite A, D, (same_shift_lor _ _ B). Qed.

Lemma maxOrder_same d s t qt : gt_none s = gt_none t -> gt_dim s = gt_dim t ->
  N.shiftr (gt_id s) 1 = N.shiftr (gt_id t) 1 -> maxOrder d s qt = maxOrder d t qt.
Proof.
  revert s t. induction d as [|d IH]; intros s t A D B.
  - cbn. unfold isVertex. now rewrite D.
  - destruct d as [|d]; [cbn; unfold isLine; now rewrite D|].
    cbn [maxOrder]. cbn [maxOrder] in IH.
    rewrite (IH (tpBase (gt_id s) (S d)) (tpBase (gt_id t) (S d)));
      [|reflexivity|reflexivity|now apply shift_clearbit].
    rewrite (tpPrism_same (gt_id s) (gt_id t) (S d) (Nat.neq_succ_0 d) B), (isSimplex_same s t A B),
      (isPrismT_same s t A D B). reflexivity.
Qed.

Lemma gt_eqb_same s t : gt_dim s = gt_dim t -> (gt_none s = true -> gt_id s = 0%N) ->
  (gt_none t = true -> gt_id t = 0%N) -> gt_eqb s t = true ->
  gt_none s = gt_none t /\ N.shiftr (gt_id s) 1 = N.shiftr (gt_id t) 1.
Proof.
  intros D Ns Nt. unfold gt_eqb. rewrite andb_true_iff, orb_true_iff, andb_true_iff, N.eqb_eq.
  intros [E F]. apply eqb_prop in E. split; [exact E|]. destruct F as [F|[_ F]]; [|exact F].
  rewrite (Ns F), (Nt ltac:(congruence)). reflexivity.
Qed.

Lemma valid_wf r : valid r -> wf (rq_t r).
Proof.
  intros (A & B & C & _). split; rewrite B; [exact A|]. now rewrite bit_pow.
Qed.

Lemma index_same r r' : valid r -> valid r' -> rq_dim r = rq_dim r' ->
  (local_index (rq_t r) = local_index (rq_t r') <-> gt_eqb (rq_t r) (rq_t r') = true).
Proof.
  intros V V' D. apply local_index_inj; [now apply valid_wf|now apply valid_wf|].
  destruct V as (_ & B & _), V' as (_ & B' & _). congruence.
Qed.

Lemma maxOrder_index r r' : valid r -> valid r' -> rq_dim r = rq_dim r' -> rq_qt r = rq_qt r' ->
  local_index (rq_t r) = local_index (rq_t r') ->
  maxOrder (rq_dim r) (rq_t r) (rq_qt r) = maxOrder (rq_dim r') (rq_t r') (rq_qt r').
Proof.
  intros V V' D Q I. rewrite D, Q. apply (index_same r r' V V' D) in I.
  destruct V as (_ & B & _ & N1 & _), V' as (_ & B' & _ & N2 & _).
  assert (E : gt_dim (rq_t r) = gt_dim (rq_t r')) by congruence.
  destruct (gt_eqb_same _ _ E N1 N2 I). now apply maxOrder_same.
Qed.

(** ** nested requests *)

Lemma choose_SS d t p qt : choose (S (S d)) t p qt =
  match d with
  | 0%nat => if isSimplex t && (Nat.eqb qt qtLegendre || Nat.eqb qt qtJacobiN)
             && (p <=? highestTriangle) then ChSimplex
             else ChTensor (tpBase (gt_id t) (S d)) (tpPrism (gt_id t) (S d))
  | 1%nat => if isSimplex t && (Nat.eqb qt qtLegendre || Nat.eqb qt qtJacobiN)
             && (p <=? highestTetrahedron) then ChSimplex
          else if isPrismT t && Nat.eqb qt qtLegendre && (p <=? highestPrism) then ChPrism
          else ChTensor (tpBase (gt_id t) (S d)) (tpPrism (gt_id t) (S d))
  | _ => ChTensor (tpBase (gt_id t) (S d)) (tpPrism (gt_id t) (S d))
  end.
Proof. destruct d as [|[|d]]; reflexivity. Qed.

Lemma choose_tensor d t p qt base pr : choose (S (S d)) t p qt = ChTensor base pr ->
  base = tpBase (gt_id t) (S d) /\ pr = tpPrism (gt_id t) (S d).
Proof.
  rewrite choose_SS.
  destruct d as [|[|d]]; repeat match goal with |- context [if ?c then _ else _] => destruct c end;
    intros H; inversion H; auto.
Qed.

Lemma choose_dim2 d t p qt c : choose (S (S d)) t p qt = c ->
  c = ChSimplex \/ c = ChPrism \/ c = ChTensor (tpBase (gt_id t) (S d)) (tpPrism (gt_id t) (S d)).
Proof.
  rewrite choose_SS.
  destruct d as [|[|d]]; repeat match goal with |- context [if ?c then _ else _] => destruct c end;
    intros <-; auto.
Qed.

Lemma jacobiTable_lt p alpha q : jacobiTable p alpha = Some q -> p < 61 /\ (q < 3)%nat.
Proof.
  unfold jacobiTable. destruct (Z.ltb_spec p (Z.min highestGauss (Z.min highestJacobi1 highestJacobi2)));
    [|discriminate].
  intros E. split; [exact H|]. unfold qtLegendre, qtJacobi1, qtJacobi2 in E.
  destruct alpha as [|[|[|]]]; inversion E; lia.
Qed.

Lemma valid_line p qt m : maxOrder1 qt = Some m -> (qt < qtSize)%nat -> 0 <= p <= m ->
  valid (mkReq 1 lineT p qt).
Proof.
  intros E Q B. split; [cbn; lia|]. split; [reflexivity|]. split; [cbn; lia|].
  split; [cbn; discriminate|]. split; [exact Q|]. right. exists m. split; [exact E|exact B].
Qed.

Lemma valid_jacobiSubs p alpha : 0 <= p -> List.Forall valid (jacobiSubs p alpha).
Proof.
  intros H. unfold jacobiSubs. destruct (jacobiTable p alpha) as [q|] eqn:E; constructor; [|constructor].
  apply jacobiTable_lt in E. destruct E as [A B].
  apply (valid_line p q 61); [|unfold qtSize; lia|lia].
  destruct q as [|[|[|]]]; try reflexivity. lia.
Qed.

Lemma clearbit_lt id d : (id < 2 ^ N.of_nat (S d) -> N.clearbit id (N.of_nat d) < 2 ^ N.of_nat d)%N.
Proof.
  intros H. apply pow_bits_lt. intros k Hk. rewrite N.clearbit_eqb.
  destruct (N.eqb_spec (N.of_nat d) k); [now rewrite andb_false_r|].
  rewrite (bits_lt_pow _ _ H k) by lia. reflexivity.
Qed.

Lemma subs_valid r : valid r -> List.Forall valid (subs r).
Proof.
  intros V. pose proof V as (A & B & C & N1 & Q & P). unfold subs.
  destruct r as [dim t p qt]. cbn [rq_dim rq_t rq_p rq_qt] in *.
  destruct dim as [|[|d]].
  - cbn [choose]. destruct (isVertex t); constructor.
  - destruct P as [P|(m & Em & Bm)]; [discriminate|].
    cbn [choose]. destruct (isLine t); [|constructor]. destruct (Nat.ltb qt qtSize); [|constructor].
    destruct (Nat.eqb qt qtJacobiN); [|constructor]. apply valid_jacobiSubs. lia.
  - destruct P as [P|(m & Em & Bm)]; [discriminate|].
    destruct (choose_dim2 d t p qt _ eq_refl) as [E|[E|E]]; rewrite E; [constructor|constructor|].
    destruct (maxOrder_spec (S d) t qt) as (m' & Em' & Bm' & _ & X); auto; try lia.
    destruct (X ltac:(discriminate)) as (b & l & Eb & El & Et). clear X.
    rewrite Em in Em'. injection Em' as Em'. rewrite <- Em' in Et, Bm'. replace (S (S d) - 1)%nat with (S d) by lia.
    assert (Hb : p <= b).
    { clear E. unfold tensorMax in Et. destruct (tpPrism (gt_id t) (S d)); [lia|].
      destruct (Nat.eqb qt qtJacobiN); lia. }
    assert (Hl : p <= l).
    { clear E. unfold tensorMax in Et. destruct (tpPrism (gt_id t) (S d)); [lia|].
      destruct (Nat.eqb qt qtJacobiN); lia. }
    assert (Vb : valid (mkReq (S d) (tpBase (gt_id t) (S d)) p qt)).
    { split; [cbn; lia|]. split; [apply (tpBase_dim (gt_id t) (S d)); lia|].
      split; [apply clearbit_lt; exact C|]. split; [cbn; discriminate|]. split; [exact Q|].
      right. exists b. split; [exact Eb|cbn; lia]. }
    constructor; [exact Vb|]. unfold tensorMax in Et.
    destruct (tpPrism (gt_id t) (S d)).
    + constructor; [|constructor]. apply (valid_line p qt l); auto; lia.
    + destruct (Nat.eqb qt qtJacobiN).
      * apply valid_jacobiSubs. lia.
      * constructor; [|constructor]. apply (valid_line _ qt l); auto; lia.
Qed.

(** ** the nesting is well founded *)

Definition rank (r : Req) : nat := 2 * rq_dim r + (if Nat.eqb (rq_qt r) qtJacobiN then 1 else 0).

Lemma jacobiSubs_rank p alpha q : In q (jacobiSubs p alpha) -> rank q = 2%nat.
Proof.
  unfold jacobiSubs. destruct (jacobiTable p alpha) as [x|] eqn:E; [|intros []].
  intros [<-|[]]. apply jacobiTable_lt in E. destruct E as [_ B]. unfold rank. cbn.
  destruct x as [|[|[|x]]]; try reflexivity. lia.
Qed.

Lemma subs_rank r q : In q (subs r) -> (rank q < rank r)%nat.
Proof.
  unfold subs. destruct r as [dim t p qt]. cbn [rq_dim rq_t rq_p rq_qt].
  destruct dim as [|[|d]].
  - cbn [choose]. destruct (isVertex t); intros [].
  - cbn [choose]. destruct (isLine t); [|intros []]. destruct (Nat.ltb qt qtSize); [|intros []].
    destruct (Nat.eqb qt qtJacobiN) eqn:E; [|intros []]. intros H. apply jacobiSubs_rank in H.
    rewrite H. unfold rank. cbn [rq_dim rq_qt]. rewrite E. lia.
  - destruct (choose_dim2 d t p qt _ eq_refl) as [E|[E|E]]; rewrite E; [intros []|intros []|].
    replace (S (S d) - 1)%nat with (S d) by lia. intros [<-|H].
    + unfold rank. cbn [rq_dim rq_qt]. lia.
    + destruct (tpPrism (gt_id t) (S d)).
      * destruct H as [<-|[]]. unfold rank. cbn [rq_dim rq_qt]. lia.
      * destruct (Nat.eqb qt qtJacobiN) eqn:E2.
        -- apply jacobiSubs_rank in H. rewrite H. unfold rank. cbn [rq_dim rq_qt]. lia.
        -- destruct H as [<-|[]]. unfold rank. cbn [rq_dim rq_qt]. lia.
Qed.
