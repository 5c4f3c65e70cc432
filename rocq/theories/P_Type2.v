(** Proofs about predicates, extensions, indices and dispatch. *)
From Coq Require Import NArith PeanoNat Bool List Lia.
From Verif Require Import M_Type M_TypeIndex P_Type.
Import ListNotations.
Local Open Scope N_scope.

Definition wf (t : GeometryType) : Prop := (gt_dim t < 31)%nat /\ gt_id t < bit (gt_dim t).

Lemma shiftr1 x : N.shiftr x 1 = x / 2.
Proof. now rewrite <- N.div2_spec, N.div2_div. Qed.

Lemma lor1 x : N.lor x 1 = 2 * (x / 2) + 1.
Proof.
  apply N.bits_inj. intros k. rewrite N.lor_spec, testbit_1.
  destruct k as [|p] using N.peano_ind.
  - rewrite N.testbit_odd_0. apply orb_true_r.
  - rewrite N.testbit_odd_succ by lia. rewrite <- N.div2_div, N.div2_spec.
    rewrite N.shiftr_spec', <- N.add_1_r.
    destruct (N.eqb_spec (p + 1) 0); [lia|]. apply orb_false_r.
Qed.

Lemma lor1_eq x k : (N.lor x 1 =? 2 * k + 1) = (x / 2 =? k).
Proof.
  rewrite lor1. destruct (N.eqb_spec (x / 2) k).
  - apply N.eqb_eq. lia.
  - apply N.eqb_neq. lia.
Qed.

Lemma lxor_shiftr1_eq0 x y : (N.shiftr (N.lxor x y) 1 =? 0) = (x / 2 =? y / 2).
Proof.
  rewrite N.shiftr_lxor, !shiftr1.
  destruct (N.eqb_spec (x / 2) (y / 2)) as [->|H].
  - rewrite N.lxor_nilpotent. reflexivity.
  - apply N.eqb_neq. intros E. apply N.lxor_eq in E. contradiction.
Qed.

Lemma half_pred_bit d : (bit d - 1) / 2 = bit (d - 1) - 1.
Proof.
  destruct d as [|d]; [reflexivity|]. rewrite bit_S. replace (S d - 1)%nat with d by lia.
  pose proof (bit_pos d).
  replace (2 * bit d - 1) with ((bit d - 1) * 2 + 1) by lia.
  rewrite N.div_add_l by lia. change (1 / 2) with 0. lia.
Qed.

Lemma isSimplex_key t : isSimplex t = negb (gt_none t) && (key t =? 0).
Proof.
  unfold isSimplex, key. rewrite shiftr1. change 1 with (2 * 0 + 1) at 2. now rewrite lor1_eq.
Qed.
Lemma isCube_key t : isCube t = negb (gt_none t) && (key t =? (bit (gt_dim t) - 1) / 2).
Proof. unfold isCube, key. now rewrite lxor_shiftr1_eq0, shiftr1. Qed.
Lemma named_key d k t :
  named d (2 * k + 1) t = negb (gt_none t) && Nat.eqb (gt_dim t) d && (key t =? k).
Proof. unfold named, key. now rewrite lor1_eq, shiftr1. Qed.

Definition predicates : list (GeometryType -> bool) :=
  [isVertex; isLine; isTriangle; isQuadrilateral; isTetrahedron; isPyramidT; isPrismT;
   isHexahedron; isSimplex; isCube].

Lemma predicates_respect_eqb p s t :
  In p predicates -> gt_none s = false -> gt_eqb s t = true -> p s = p t.
Proof.
  intros Hp Hn He. apply gt_eqb_spec in He. destruct He as [Hn' [H|[Hd Hk]]]; [congruence|].
  unfold predicates in Hp. simpl in Hp.
  repeat (destruct Hp as [<-|Hp]);
    try (unfold isVertex, isLine; rewrite Hd; reflexivity);
    try (unfold isTriangle, isQuadrilateral, isTetrahedron, isPyramidT, isPrismT, isHexahedron;
         change 1 with (2 * 0 + 1); change 3 with (2 * 1 + 1); change 5 with (2 * 2 + 1);
         change 7 with (2 * 3 + 1); rewrite !named_key, Hn, <- Hn', Hn, Hd, Hk; reflexivity).
  - rewrite !isSimplex_key. rewrite <- Hn', Hn, Hk. reflexivity.
  - rewrite !isCube_key. rewrite <- Hn', Hn, Hk, Hd. reflexivity.
  - contradiction.
Qed.

Lemma key_lt d t : gt_dim t = S d -> gt_id t < bit (S d) -> key t < bit d.
Proof.
  intros _ H. unfold key. rewrite shiftr1. rewrite bit_S in H.
  apply N.div_lt_upper_bound; lia.
Qed.

Definition exactly_one (l : list bool) : Prop := length (filter (fun b => b) l) = 1%nat.

Lemma dim2_classified t :
  gt_dim t = 2%nat -> gt_none t = false -> gt_id t < bit 2 ->
  exactly_one [isTriangle t; isQuadrilateral t].
Proof.
  intros Hd Hn Hi. unfold isTriangle, isQuadrilateral.
  change 1 with (2 * 0 + 1). change 3 with (2 * 1 + 1).
  rewrite !named_key, Hn, Hd. simpl.
  assert (key t < 2) by (apply (key_lt 1); auto).
  assert (K : key t = 0 \/ key t = 1) by lia. destruct K as [->| ->]; reflexivity.
Qed.

Lemma dim3_classified t :
  gt_dim t = 3%nat -> gt_none t = false -> gt_id t < bit 3 ->
  exactly_one [isTetrahedron t; isPyramidT t; isPrismT t; isHexahedron t].
Proof.
  intros Hd Hn Hi. unfold isTetrahedron, isPyramidT, isPrismT, isHexahedron.
  change 1 with (2 * 0 + 1). change 3 with (2 * 1 + 1). change 5 with (2 * 2 + 1).
  change 7 with (2 * 3 + 1).
  rewrite !named_key, Hn, Hd. simpl.
  assert (key t < 4) by (apply (key_lt 2); auto).
  assert (K : key t = 0 \/ key t = 1 \/ key t = 2 \/ key t = 3) by lia.
  destruct K as [->|[->|[->| ->]]]; reflexivity.
Qed.

Lemma to_uchar_small d : (d < 256)%nat -> to_uchar d = d.
Proof. apply Nat.mod_small. Qed.

Lemma bit_pred_half_0 d : (bit d - 1) / 2 = 0 <-> (d <= 1)%nat.
Proof.
  destruct d as [|[|d]].
  - split; [lia|reflexivity].
  - split; [lia|reflexivity].
  - rewrite half_pred_bit. replace (S (S d) - 1)%nat with (S d) by lia.
    rewrite bit_S. pose proof (bit_pos d). lia.
Qed.

Lemma simplex_is d : (d < 256)%nat ->
  isSimplex (simplex d) = true /\ (isCube (simplex d) = true <-> (d <= 1)%nat).
Proof.
  intros H. rewrite isSimplex_key, isCube_key. unfold simplex, GT3, key.
  cbn [gt_dim gt_none gt_id negb andb]. rewrite to_uchar_small by assumption.
  change (N.shiftr 0 1) with 0. split; [reflexivity|].
  rewrite N.eqb_eq, <- (bit_pred_half_0 d). split; auto.
Qed.

Lemma cube_is d : (d < 256)%nat ->
  isCube (cube d) = true /\ (isSimplex (cube d) = true <-> (d <= 1)%nat).
Proof.
  intros H. rewrite isSimplex_key, isCube_key. unfold cube, GT3, key.
  cbn [gt_dim gt_none gt_id negb andb]. rewrite to_uchar_small by assumption.
  rewrite shiftr1.
  destruct (Nat.ltb_spec 1 d).
  - rewrite N.eqb_refl. split; [reflexivity|]. rewrite N.eqb_eq. apply bit_pred_half_0.
  - change (0 / 2) with 0. split.
    + apply N.eqb_eq. symmetry. apply bit_pred_half_0. lia.
    + rewrite N.eqb_eq. split; auto.
Qed.

Lemma key_eq_of_eqb s t : gt_none s = false -> gt_none t = false ->
  gt_eqb s t = true <-> gt_dim s = gt_dim t /\ key s = key t.
Proof.
  intros Hs Ht. rewrite gt_eqb_spec, Hs, Ht. intuition discriminate.
Qed.

(** every simplex/cube is == to the factory's *)
Lemma isSimplex_iff t : (gt_dim t < 256)%nat ->
  isSimplex t = true <-> gt_eqb t (simplex (gt_dim t)) = true.
Proof.
  intros H. rewrite isSimplex_key, andb_true_iff, negb_true_iff, N.eqb_eq.
  rewrite gt_eqb_spec. unfold simplex, GT3. cbn [gt_dim gt_none gt_id].
  rewrite to_uchar_small by assumption. unfold key at 3. cbn [gt_id].
  change (N.shiftr 0 1) with 0. destruct (gt_none t); intuition congruence.
Qed.
Lemma isCube_iff t : (gt_dim t < 256)%nat ->
  isCube t = true <-> gt_eqb t (cube (gt_dim t)) = true.
Proof.
  intros H. rewrite isCube_key, andb_true_iff, negb_true_iff, N.eqb_eq.
  rewrite gt_eqb_spec. unfold cube, GT3. cbn [gt_dim gt_none gt_id].
  rewrite to_uchar_small by assumption. unfold key at 3. cbn [gt_id]. rewrite shiftr1.
  assert (E : (bit (gt_dim t) - 1) / 2
              = (if Nat.ltb 1 (gt_dim t) then bit (gt_dim t) - 1 else 0) / 2).
  { destruct (Nat.ltb_spec 1 (gt_dim t)); [reflexivity|].
    apply bit_pred_half_0. lia. }
  rewrite E. destruct (gt_none t); intuition congruence.
Qed.

(** ** Extensions *)

Lemma ldiff1_testbit x k : N.testbit (N.ldiff x 1) k = N.testbit x k && negb (k =? 0).
Proof. now rewrite N.ldiff_spec, testbit_1. Qed.
Lemma lor1_testbit x k : N.testbit (N.lor x 1) k = N.testbit x k || (k =? 0).
Proof. now rewrite N.lor_spec, testbit_1. Qed.

Lemma conicalStep_bit t s : isConicalStep t s
  = negb (gt_none t) && negb (N.testbit (gt_id t) (N.of_nat s) && negb (Nat.eqb s 0)).
Proof.
  unfold isConicalStep. rewrite land_bit_eq0, ldiff1_testbit.
  replace (N.of_nat s =? 0) with (Nat.eqb s 0); [reflexivity|].
  destruct s; reflexivity.
Qed.
Lemma prismaticStep_bit t s : isPrismaticStep t s
  = negb (gt_none t) && (N.testbit (gt_id t) (N.of_nat s) || Nat.eqb s 0).
Proof.
  unfold isPrismaticStep. rewrite land_bit_eq0, lor1_testbit, negb_involutive.
  replace (N.of_nat s =? 0) with (Nat.eqb s 0); [reflexivity|].
  destruct s; reflexivity.
Qed.

Lemma id_high_bit t k : gt_id t < bit (gt_dim t) -> (gt_dim t <= k)%nat ->
  N.testbit (gt_id t) (N.of_nat k) = false.
Proof. intros H Hk. apply (proj1 (lt_bit_bits _ _) H). lia. Qed.

Lemma lor_bit_land_pred x d : x < bit d -> N.land (N.lor x (bit d)) (bit d - 1) = x.
Proof.
  intros H. apply N.bits_inj. intros k. rewrite testbit_land_pred, N.lor_spec, bit_testbit.
  destruct (N.ltb_spec k (N.of_nat d)).
  - destruct (N.eqb_spec k (N.of_nat d)); [lia|]. now rewrite orb_false_r, andb_true_r.
  - rewrite andb_false_r. symmetry. now apply (proj1 (lt_bit_bits _ _) H).
Qed.

Lemma lor_bit_lt x d : x < bit d -> N.lor x (bit d) < bit (S d).
Proof.
  intros H. apply lt_bit_bits. intros k Hk. rewrite N.lor_spec, bit_testbit.
  rewrite (proj1 (lt_bit_bits _ _) H) by lia. apply N.eqb_neq. lia.
Qed.

Lemma ext_wf t : (gt_dim t < 30)%nat -> wf t ->
  wf (conicalExtension t) /\ wf (prismaticExtension t).
Proof.
  intros Hd [_ Hi]. unfold wf, conicalExtension, prismaticExtension, GT3.
  cbn [gt_dim gt_none gt_id]. rewrite to_uchar_small by lia.
  replace (gt_dim t + 1)%nat with (S (gt_dim t)) by lia. repeat split; try lia.
  - rewrite bit_S. lia.
  - now apply lor_bit_lt.
Qed.

Lemma conicalExtension_spec t : wf t -> gt_none t = false -> (gt_dim t < 255)%nat ->
  isConical (conicalExtension t) = Some true
  /\ (1 <= gt_dim t -> isPrismatic (conicalExtension t) = Some false)%nat
  /\ getBase (conicalExtension t) = t.
Proof.
  intros [_ Hi] Hn Hd. unfold isConical, isPrismatic, conicalExtension, getBase, GT3.
  cbn [gt_dim gt_none gt_id]. rewrite Hn.
  rewrite (to_uchar_small (gt_dim t + 1)) by lia.
  replace (gt_dim t + 1)%nat with (S (gt_dim t)) by lia.
  rewrite conicalStep_bit, prismaticStep_bit. cbn [gt_dim gt_none gt_id negb andb].
  rewrite id_high_bit by (auto; lia). cbn [andb negb orb].
  split; [reflexivity|]. split.
  - intros ?. destruct (Nat.eqb_spec (gt_dim t) 0); [lia|reflexivity].
  - replace (S (gt_dim t) - 1)%nat with (gt_dim t) by lia.
    rewrite to_uchar_small by lia. rewrite land_pred_id by assumption.
    destruct t; simpl in *; now rewrite Hn.
Qed.

Lemma prismaticExtension_spec t : wf t -> gt_none t = false -> (gt_dim t < 255)%nat ->
  isPrismatic (prismaticExtension t) = Some true
  /\ (1 <= gt_dim t -> isConical (prismaticExtension t) = Some false)%nat
  /\ getBase (prismaticExtension t) = t.
Proof.
  intros [_ Hi] Hn Hd. unfold isConical, isPrismatic, prismaticExtension, getBase, GT3.
  cbn [gt_dim gt_none gt_id]. rewrite Hn.
  rewrite (to_uchar_small (gt_dim t + 1)) by lia.
  replace (gt_dim t + 1)%nat with (S (gt_dim t)) by lia.
  rewrite conicalStep_bit, prismaticStep_bit. cbn [gt_dim gt_none gt_id negb andb].
  rewrite N.lor_spec, bit_testbit, N.eqb_refl, orb_true_r. cbn [andb negb orb].
  split; [reflexivity|]. split.
  - intros ?. destruct (Nat.eqb_spec (gt_dim t) 0); [lia|reflexivity].
  - replace (S (gt_dim t) - 1)%nat with (gt_dim t) by lia.
    rewrite to_uchar_small by lia. rewrite lor_bit_land_pred by assumption.
    destruct t; simpl in *; now rewrite Hn.
Qed.

Lemma lor_base_high x d : x < bit (S d) ->
  x = if N.testbit x (N.of_nat d) then N.lor (N.land x (bit d - 1)) (bit d)
      else N.land x (bit d - 1).
Proof.
  intros H. apply N.bits_inj. intros k. pose proof (proj1 (lt_bit_bits _ _) H k) as Hk.
  destruct (N.testbit x (N.of_nat d)) eqn:E; rewrite ?N.lor_spec, testbit_land_pred, ?bit_testbit.
  - destruct (N.ltb_spec k (N.of_nat d)).
    + destruct (N.eqb_spec k (N.of_nat d)); [lia|]. now rewrite orb_false_r, andb_true_r.
    + rewrite andb_false_r. simpl. destruct (N.eqb_spec k (N.of_nat d)); [now subst|].
      apply Hk. lia.
  - destruct (N.ltb_spec k (N.of_nat d)).
    + now rewrite andb_true_r.
    + rewrite andb_false_r. destruct (N.eqb_spec k (N.of_nat d)); [now subst|].
      apply Hk. lia.
Qed.

(** every type is, bit for bit, one of the two extensions of its base *)
Lemma ext_of_base t : wf t -> (1 <= gt_dim t)%nat ->
  wf (getBase t) /\
  ((t = conicalExtension (getBase t)) \/ (t = prismaticExtension (getBase t))).
Proof.
  intros [Hd Hi] H1. destruct t as [d nn i]. cbn [gt_dim gt_id] in *.
  destruct d as [|d]; [lia|].
  unfold wf, getBase, conicalExtension, prismaticExtension, GT3. cbn [gt_dim gt_none gt_id].
  replace (S d - 1)%nat with d by lia. rewrite (to_uchar_small d) by lia.
  rewrite to_uchar_small by lia. replace (d + 1)%nat with (S d) by lia.
  split; [split; [lia|apply land_pred_lt]|].
  rewrite (lor_base_high _ _ Hi) at 1 3.
  destruct (N.testbit i (N.of_nat d)); [right|left]; reflexivity.
Qed.

Lemma ext_distinct t : (1 <= gt_dim t)%nat -> wf t -> (gt_dim t < 255)%nat -> gt_none t = false ->
  gt_eqb (conicalExtension t) (prismaticExtension t) = false.
Proof.
  intros H1 [_ Hi] H2 Hn. apply not_true_iff_false. rewrite key_eq_of_eqb by assumption.
  intros [_ E]. unfold key, conicalExtension, prismaticExtension, GT3 in E. cbn [gt_id] in E.
  assert (X : N.testbit (N.shiftr (gt_id t) 1) (N.of_nat (gt_dim t - 1))
              = N.testbit (N.shiftr (N.lor (gt_id t) (bit (gt_dim t))) 1) (N.of_nat (gt_dim t - 1)))
    by now rewrite E.
  rewrite !N.shiftr_spec', N.lor_spec, bit_testbit in X.
  replace (N.of_nat (gt_dim t - 1) + 1) with (N.of_nat (gt_dim t)) in X by lia.
  rewrite N.eqb_refl, orb_true_r, id_high_bit in X by (auto; lia). discriminate.
Qed.

(** ** Local index *)

Lemma regular_size_0 : regular_size 0 = 1. Proof. reflexivity. Qed.
Lemma regular_size_S d : regular_size (S d) = bit d.
Proof.
  unfold regular_size. rewrite shiftr1, bit_S.
  replace (2 * bit d) with (bit d * 2) by lia. rewrite N.div_mul by lia. lia.
Qed.
Lemma regular_size_pos d : 0 < regular_size d.
Proof. destruct d; [reflexivity|]. rewrite regular_size_S. apply bit_pos. Qed.

Lemma key_lt_regular t : gt_id t < bit (gt_dim t) -> key t < regular_size (gt_dim t).
Proof.
  intros H. destruct (gt_dim t) eqn:E.
  - rewrite bit_0 in H. unfold key. replace (gt_id t) with 0 by lia. reflexivity.
  - rewrite regular_size_S. eapply key_lt; eauto.
Qed.

Lemma local_index_lt t : wf t -> local_index t < local_size (gt_dim t).
Proof.
  intros [_ H]. unfold local_index, local_size. apply key_lt_regular in H. unfold key in H.
  destruct (gt_none t); lia.
Qed.

Lemma local_index_inj s t : wf s -> wf t -> gt_dim s = gt_dim t ->
  local_index s = local_index t <-> gt_eqb s t = true.
Proof.
  intros [_ Hs] [_ Ht] Hd. apply key_lt_regular in Hs. apply key_lt_regular in Ht.
  rewrite gt_eqb_spec. unfold local_index. fold (key s) (key t). rewrite Hd in *.
  destruct (gt_none s), (gt_none t); intuition (try discriminate; try lia).
Qed.

Lemma local_type_spec dim k : (dim < 31)%nat -> k < local_size dim ->
  wf (local_type dim k) /\ gt_dim (local_type dim k) = dim /\ local_index (local_type dim k) = k.
Proof.
  intros Hd Hk. unfold local_type, local_size in *.
  destruct (N.eqb_spec k (regular_size dim)) as [->|Hn].
  - unfold none, wf, local_index, GT3. cbn [gt_dim gt_none gt_id].
    rewrite to_uchar_small by lia. repeat split; auto using bit_pos.
  - unfold wf, local_index, GT2. cbn [gt_dim gt_none gt_id].
    rewrite to_uchar_small by lia. rewrite shiftr1, N.shiftl_mul_pow2.
    change (2 ^ 1) with 2. rewrite N.div_mul by lia. repeat split; auto.
    destruct dim.
    + rewrite regular_size_0 in *. rewrite bit_0. lia.
    + rewrite regular_size_S in *. rewrite bit_S. lia.
Qed.

Lemma local_type_index t : wf t -> gt_eqb (local_type (gt_dim t) (local_index t)) t = true.
Proof.
  intros W. destruct (local_type_spec (gt_dim t) (local_index t)) as (W' & D & I).
  - apply W.
  - now apply local_index_lt.
  - apply local_index_inj; auto.
Qed.

(** ** Global index *)

Lemma regular_offset_0 : regular_offset 0 = 0. Proof. reflexivity. Qed.
Lemma regular_offset_S d : regular_offset (S d) = bit d.
Proof.
  unfold regular_offset. rewrite shiftr1, bit_S.
  replace (2 * bit d) with (bit d * 2) by lia. apply N.div_mul. lia.
Qed.

Lemma global_offset_S d : global_offset (S d) = global_offset d + local_size d.
Proof.
  unfold global_offset, local_size. rewrite regular_offset_S.
  destruct d.
  - reflexivity.
  - rewrite regular_offset_S, regular_size_S, bit_S. lia.
Qed.

Lemma global_offset_mono a b : (a <= b)%nat -> global_offset a <= global_offset b.
Proof. induction 1; [lia|]. rewrite global_offset_S. lia. Qed.

Lemma global_index_range t : wf t ->
  global_offset (gt_dim t) <= global_index t < global_offset (S (gt_dim t)).
Proof.
  intros W. apply local_index_lt in W. unfold global_index. rewrite global_offset_S. lia.
Qed.

Lemma global_index_dim s t : wf s -> wf t -> (gt_dim s < gt_dim t)%nat ->
  global_index s < global_index t.
Proof.
  intros Ws Wt H. pose proof (global_index_range s Ws). pose proof (global_index_range t Wt).
  pose proof (global_offset_mono (S (gt_dim s)) (gt_dim t) H). lia.
Qed.

Lemma global_index_inj s t : wf s -> wf t ->
  global_index s = global_index t <-> gt_dim s = gt_dim t /\ gt_eqb s t = true.
Proof.
  intros Ws Wt. split.
  - intros E. destruct (Nat.lt_trichotomy (gt_dim s) (gt_dim t)) as [H|[H|H]].
    + pose proof (global_index_dim s t Ws Wt H). lia.
    + split; [assumption|]. apply local_index_inj; auto.
      unfold global_index in E. rewrite H in E. lia.
    + pose proof (global_index_dim t s Wt Ws H). lia.
  - intros [H E]. unfold global_index. rewrite H. f_equal. now apply local_index_inj.
Qed.

Lemma global_index_lt t maxdim : wf t -> (gt_dim t <= maxdim)%nat ->
  global_index t < global_size maxdim.
Proof.
  intros W H. pose proof (global_index_range t W).
  pose proof (global_offset_mono (S (gt_dim t)) (maxdim + 1) ltac:(lia)).
  unfold global_size. lia.
Qed.

Lemma global_index_surj maxdim k : (maxdim < 31)%nat -> k < global_size maxdim ->
  exists t, wf t /\ (gt_dim t <= maxdim)%nat /\ global_index t = k.
Proof.
  unfold global_size. replace (maxdim + 1)%nat with (S maxdim) by lia.
  induction maxdim as [|d IH]; intros Hd Hk.
  - exists (local_type 0 k). destruct (local_type_spec 0 k) as (W & D & I); [lia|exact Hk|].
    repeat split; try apply W; [lia|]. unfold global_index. rewrite D, I. reflexivity.
  - destruct (N.lt_ge_cases k (global_offset (S d))) as [L|L].
    + destruct IH as (t & W & D & I); [lia|assumption|]. exists t. repeat split; try apply W; auto.
    + rewrite global_offset_S in Hk.
      exists (local_type (S d) (k - global_offset (S d))).
      destruct (local_type_spec (S d) (k - global_offset (S d))) as (W & D & I); [lia|lia|].
      repeat split; try apply W; [lia|]. unfold global_index. rewrite D, I. lia.
Qed.

(** ** Dispatch *)

Lemma IfGeometryType_gen n : forall g gt,
  gt_none g = false -> (gt_dim g + n < 31)%nat -> gt_id g < bit (gt_dim g) ->
  gt_id gt < bit n ->
  IfGeometryType n g gt = mkGT (gt_dim g + n) false (gt_id g + gt_id gt * bit (gt_dim g)).
Proof.
  induction n as [|n IH]; intros g gt Hn Hd Hg Hi.
  - rewrite bit_0 in Hi. simpl. replace (gt_id gt) with 0 by lia.
    rewrite Nat.add_0_r, N.mul_0_l, N.add_0_r. destruct g; simpl in *; now subst.
  - cbn [IfGeometryType].
    change (N.land (gt_id gt) 1) with (N.land (gt_id gt) (bit 0)). rewrite land_bit_eq0.
    set (lower := GT3 _ _ _).
    assert (Hlow : gt_id lower = gt_id gt / 2) by apply shiftr1.
    assert (Hlt : gt_id lower < bit n).
    { rewrite Hlow. rewrite bit_S in Hi. apply N.div_lt_upper_bound; lia. }
    assert (P32 : forall x, x < bit (S (gt_dim g)) -> x < 2 ^ 32).
    { intros x Hx. eapply N.lt_le_trans; [exact Hx|]. rewrite bit_pow.
      apply N.pow_le_mono_r; lia. }
    assert (Hc : ofId (toId (conicalExtension g)) = mkGT (S (gt_dim g)) false (gt_id g)).
    { assert (E : conicalExtension g = mkGT (S (gt_dim g)) false (gt_id g)).
      { unfold conicalExtension, GT3. rewrite to_uchar_small by lia. rewrite Hn. f_equal. lia. }
      rewrite E. apply Id_roundtrip; cbn [gt_dim gt_id]; [lia|]. apply P32. rewrite bit_S. lia. }
    assert (Hp : ofId (toId (prismaticExtension g))
                 = mkGT (S (gt_dim g)) false (N.lor (gt_id g) (bit (gt_dim g)))).
    { assert (E : prismaticExtension g
                  = mkGT (S (gt_dim g)) false (N.lor (gt_id g) (bit (gt_dim g)))).
      { unfold prismaticExtension, GT3. rewrite to_uchar_small by lia. rewrite Hn. f_equal. lia. }
      rewrite E. apply Id_roundtrip; cbn [gt_dim gt_id]; [lia|]. apply P32. now apply lor_bit_lt. }
    assert (Hadd : N.lor (gt_id g) (bit (gt_dim g)) = gt_id g + bit (gt_dim g)).
    { symmetry. rewrite <- N.lxor_lor.
      - apply N.add_nocarry_lxor. apply N.eqb_eq. rewrite land_bit_eq0.
        rewrite id_high_bit by (auto; lia). reflexivity.
      - apply N.eqb_eq. rewrite land_bit_eq0.
        rewrite id_high_bit by (auto; lia). reflexivity. }
    assert (Hodd : gt_id gt = 2 * (gt_id gt / 2) + N.b2n (N.testbit (gt_id gt) 0)).
    { rewrite <- N.div2_div. rewrite (N.div2_odd (gt_id gt)) at 1. now rewrite N.bit0_odd. }
    change (N.of_nat 0) with 0.
    destruct (N.testbit (gt_id gt) 0) eqn:B; cbn [negb].
    + rewrite Hp, IH; cbn [gt_dim gt_none gt_id]; auto; [|lia|now apply lor_bit_lt].
      f_equal; [lia|]. rewrite Hadd, Hlow, bit_S. rewrite Hodd at 2. cbn [N.b2n].
      change (Pos.to_nat 1) with 1%nat. nia.
    + rewrite Hc, IH; cbn [gt_dim gt_none gt_id]; auto; [|lia|rewrite bit_S; lia].
      f_equal; [lia|]. rewrite Hlow, bit_S. rewrite Hodd at 2. cbn [N.b2n]. nia.
Qed.

Lemma IfGeometryType_spec dim gt : (dim < 31)%nat -> gt_id gt < bit dim ->
  IfGeometryType dim vertex gt = mkGT dim false (gt_id gt).
Proof.
  intros Hd Hi. rewrite IfGeometryType_gen; auto.
  - unfold vertex, GT3. cbn [gt_dim gt_id]. change (to_uchar 0) with 0%nat. rewrite bit_0.
    f_equal; lia.
  - reflexivity.
Qed.

Lemma switchCases_in {A} cases v (f : N -> A) d :
  In v cases -> switchCases cases v f d = f v.
Proof.
  induction cases as [|c r IH]; [easy|]. intros H. cbn [switchCases].
  destruct (N.eqb_spec c v) as [->|E]; [reflexivity|]. apply IH. destruct H; [contradiction|assumption].
Qed.
Lemma switchCases_notin {A} cases v (f : N -> A) d :
  ~ In v cases -> switchCases cases v f d = d.
Proof.
  induction cases as [|c r IH]; [easy|]. intros H. cbn [switchCases].
  destruct (N.eqb_spec c v) as [->|E]; [exfalso; apply H; now left|]. apply IH.
  intros ?; apply H; now right.
Qed.

Lemma in_make_index_sequence n v : In v (make_index_sequence n) <-> v < n.
Proof.
  unfold make_index_sequence. rewrite in_map_iff. split.
  - intros (x & <- & Hx). apply in_seq in Hx. lia.
  - intros H. exists (N.to_nat v). split; [lia|]. apply in_seq. lia.
Qed.

Lemma local_type_id32 dim k : (dim < 31)%nat -> k < local_size dim ->
  gt_id (local_type dim k) < 2 ^ 32.
Proof.
  intros Hd Hk. destruct (local_type_spec dim k Hd Hk) as ([_ W] & D & _). rewrite D in W.
  eapply N.lt_le_trans; [exact W|]. rewrite bit_pow. apply N.pow_le_mono_r; lia.
Qed.

Lemma toGeometryTypeIdConstant_spec dim t : wf t -> gt_dim t = dim -> gt_none t = false ->
  gt_eqb (ofId (toGeometryTypeIdConstant dim t)) t = true.
Proof.
  intros W D Hn. unfold toGeometryTypeIdConstant.
  assert (Hk : local_index t < regular_size dim).
  { unfold local_index. rewrite Hn. rewrite <- D. apply key_lt_regular. apply W. }
  rewrite switchCases_in by (apply in_make_index_sequence; unfold local_size; lia).
  rewrite Id_roundtrip.
  - rewrite <- D. now apply local_type_index.
  - destruct (local_type_spec dim (local_index t)) as ([? _] & ? & _).
    + rewrite <- D; apply W.
    + rewrite <- D. now apply local_index_lt.
    + lia.
  - apply local_type_id32; [rewrite <- D; apply W|rewrite <- D; now apply local_index_lt].
Qed.

Lemma toGeometryTypeIdConstant_none dim t :
  wf t -> gt_dim t = dim -> gt_none t = true ->
  ofId (toGeometryTypeIdConstant dim t) = mkGT dim false 0.
Proof.
  intros W D Hn. unfold toGeometryTypeIdConstant, local_index. rewrite Hn, D.
  rewrite switchCases_notin by (rewrite in_make_index_sequence; unfold local_size; lia).
  assert (Hd : (dim < 31)%nat) by (rewrite <- D; apply W).
  assert (Hk : 0 < local_size dim) by (unfold local_size; lia).
  rewrite Id_roundtrip.
  - unfold local_type. destruct (N.eqb_spec 0 (regular_size dim)) as [E|_].
    + pose proof (regular_size_pos dim). lia.
    + unfold GT2. rewrite to_uchar_small by lia. reflexivity.
  - destruct (local_type_spec dim 0 Hd Hk) as ([? _] & ? & _). lia.
  - now apply local_type_id32.
Qed.
