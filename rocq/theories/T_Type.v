(** Property theorems C01 - C08 (type.hh, typeindex.hh). *)
From Coq Require Import NArith PeanoNat Bool List Lia.
From Verif Require Import M_Type M_TypeIndex P_Type P_Type2.
Import ListNotations.
Local Open Scope N_scope.

(** C01: GeometryType -> Id -> GeometryType is the identity; Ids are 64 bit and distinct. *)
Theorem C01_id_roundtrip :
  forall t : GeometryType,
    (gt_dim t < 256)%nat -> gt_id t < 2 ^ 32 ->
    ofId (toId t) = t /\ toId t < 2 ^ 64.
Proof. exact (fun t Hd Hi => conj (Id_roundtrip t Hd Hi) (toId_lt64 t Hd Hi)). Qed.
Print Assumptions C01_id_roundtrip.

Theorem C01_id_injective :
  forall s t : GeometryType,
    (gt_dim s < 256)%nat -> gt_id s < 2 ^ 32 ->
    (gt_dim t < 256)%nat -> gt_id t < 2 ^ 32 ->
    toId s = toId t -> s = t.
Proof. exact toId_inj. Qed.
Print Assumptions C01_id_injective.

Example C01_example :
  toId (mkGT 3 true 5) = 0x500000103 /\ ofId 0x500000103 = mkGT 3 true 5.
Proof. split; reflexivity. Qed.
(* bits outside of the three fields are ignored by the constructor *)
Example C01_not_surjective : toId (ofId 0x200) <> 0x200.
Proof. discriminate. Qed.

(** C02: == is an equivalence, < a strict weak order, and they fit together unless both
    types are none. *)
Theorem C02_eq_equivalence :
  (forall a, gt_eqb a a = true)
  /\ (forall a b, gt_eqb a b = true -> gt_eqb b a = true)
  /\ (forall a b c, gt_eqb a b = true -> gt_eqb b c = true -> gt_eqb a c = true).
Proof. exact (conj gt_eqb_refl (conj gt_eqb_sym gt_eqb_trans)). Qed.
Print Assumptions C02_eq_equivalence.

Theorem C02_lt_strict_weak_order :
  (forall a, gt_ltb a a = false)
  /\ (forall a b c, gt_ltb a b = true -> gt_ltb b c = true -> gt_ltb a c = true)
  /\ (forall a b c,
        gt_ltb a b = false -> gt_ltb b a = false ->
        gt_ltb b c = false -> gt_ltb c b = false ->
        gt_ltb a c = false /\ gt_ltb c a = false).
Proof. exact (conj gt_ltb_irrefl (conj gt_ltb_trans gt_ltb_incomp_trans)). Qed.
Print Assumptions C02_lt_strict_weak_order.

Theorem C02_trichotomy :
  forall a b : GeometryType,
    gt_none a && gt_none b = false ->
    (gt_eqb a b = true /\ gt_ltb a b = false /\ gt_ltb b a = false)
    \/ (gt_eqb a b = false /\ gt_ltb a b = true /\ gt_ltb b a = false)
    \/ (gt_eqb a b = false /\ gt_ltb a b = false /\ gt_ltb b a = true).
Proof. exact gt_trichotomy. Qed.
Print Assumptions C02_trichotomy.

(** what == means for types that are not none: same dimension, ids equal up to bit 0 *)
Theorem C02_eq_meaning :
  forall a b : GeometryType,
    gt_none a = false -> gt_none b = false ->
    gt_eqb a b = true <-> gt_dim a = gt_dim b /\ gt_id a / 2 = gt_id b / 2.
Proof.
  intros a b Ha Hb. rewrite (key_eq_of_eqb a b Ha Hb). unfold key. rewrite !shiftr1. reflexivity.
Qed.
Print Assumptions C02_eq_meaning.

Example C02_example :
  gt_eqb (GT2 6 3) hexahedron = true /\ gt_ltb prism hexahedron = true
  /\ gt_ltb hexahedron (none 0) = true /\ gt_ltb quadrilateral tetrahedron = true.
Proof. repeat split; reflexivity. Qed.

(** C03: the documented behaviour (type.hh:126, "equal if and only if they have the same
    dimension") is violated. *)
Theorem C03_none_equality_refuted :
  exists a b : GeometryType,
    gt_none a = true /\ gt_none b = true /\ gt_dim a <> gt_dim b
    /\ gt_eqb a b = true /\ gt_ltb a b = true /\ isVertex a <> isVertex b.
Proof. exists (none 0), (none 3). repeat split; discriminate. Qed.
Print Assumptions C03_none_equality_refuted.

(** and this is so for all none types of different dimension *)
Theorem C03_all_none_types_equal_and_ordered :
  forall a b : GeometryType, gt_none a = true -> gt_none b = true ->
    gt_eqb a b = true /\ (gt_dim a < gt_dim b -> gt_ltb a b = true /\ gt_ltb b a = false)%nat.
Proof.
  intros a b Ha Hb. unfold gt_eqb, gt_ltb. rewrite Ha, Hb. split; [reflexivity|]. intros H.
  cbn [bool_ltb negb andb orb].
  rewrite (proj2 (Nat.ltb_lt _ _) H), (proj2 (Nat.ltb_ge _ _) (Nat.lt_le_incl _ _ H)),
    (proj2 (Nat.eqb_neq _ _) (Nat.lt_neq _ _ H)). auto.
Qed.
Print Assumptions C03_all_none_types_equal_and_ordered.

(** what remains: none types of the same dimension are equal, and types built by
    GeometryTypes::none are unordered by < exactly if the dimensions agree *)
Theorem C03_none_equality_same_dimension :
  forall d e : nat, (d < 256)%nat -> (e < 256)%nat ->
    (d = e -> gt_eqb (none d) (none e) = true)
    /\ (gt_ltb (none d) (none e) = false /\ gt_ltb (none e) (none d) = false <-> d = e).
Proof.
  intros d e Hd He. split; [intros ->; apply gt_eqb_refl|].
  rewrite gt_none_incomparable_iff by reflexivity. unfold none, GT3, key.
  cbn [gt_dim gt_id]. rewrite !to_uchar_small by assumption. intuition.
Qed.
Print Assumptions C03_none_equality_same_dimension.

(** C04 *)
Theorem C04_predicates_respect_equality :
  forall (p : GeometryType -> bool) (s t : GeometryType),
    In p [isVertex; isLine; isTriangle; isQuadrilateral; isTetrahedron; isPyramidT;
          isPrismT; isHexahedron; isSimplex; isCube] ->
    gt_none s = false -> gt_eqb s t = true -> p s = p t.
Proof. exact predicates_respect_eqb. Qed.
Print Assumptions C04_predicates_respect_equality.

Theorem C04_exhaustive_dim2 :
  forall t : GeometryType,
    gt_dim t = 2%nat -> gt_none t = false -> gt_id t < 4 ->
    length (filter (fun b => b) [isTriangle t; isQuadrilateral t]) = 1%nat.
Proof. exact dim2_classified. Qed.
Print Assumptions C04_exhaustive_dim2.

Theorem C04_exhaustive_dim3 :
  forall t : GeometryType,
    gt_dim t = 3%nat -> gt_none t = false -> gt_id t < 8 ->
    length (filter (fun b => b) [isTetrahedron t; isPyramidT t; isPrismT t; isHexahedron t]) = 1%nat.
Proof. exact dim3_classified. Qed.
Print Assumptions C04_exhaustive_dim3.

Theorem C04_simplex_cube_factories :
  forall d : nat, (d < 256)%nat ->
    isSimplex (simplex d) = true /\ isCube (cube d) = true
    /\ (isCube (simplex d) = true <-> (d <= 1)%nat)
    /\ (isSimplex (cube d) = true <-> (d <= 1)%nat).
Proof.
  exact (fun d H => conj (proj1 (simplex_is d H)) (conj (proj1 (cube_is d H))
          (conj (proj2 (simplex_is d H)) (proj2 (cube_is d H))))).
Qed.
Print Assumptions C04_simplex_cube_factories.

Theorem C04_simplex_cube_characterised :
  forall t : GeometryType, (gt_dim t < 256)%nat ->
    (isSimplex t = true <-> gt_eqb t (simplex (gt_dim t)) = true)
    /\ (isCube t = true <-> gt_eqb t (cube (gt_dim t)) = true).
Proof. exact (fun t H => conj (isSimplex_iff t H) (isCube_iff t H)). Qed.
Print Assumptions C04_simplex_cube_characterised.

Definition all_predicates (t : GeometryType) : list bool :=
  map (fun p : GeometryType -> bool => p t)
    [isVertex; isLine; isTriangle; isQuadrilateral; isTetrahedron; isPyramidT;
     isPrismT; isHexahedron; isSimplex; isCube; gt_none].
(* the predefined constants: exactly the expected predicates hold (closed terms) *)
Theorem C04_constants :
  map all_predicates
    [vertex; line; triangle; quadrilateral; tetrahedron; pyramid; prism; hexahedron]
  = (let T := true in let F := false in
    [[T; F; F; F; F; F; F; F; T; T; F];
     [F; T; F; F; F; F; F; F; T; T; F];
     [F; F; T; F; F; F; F; F; T; F; F];
     [F; F; F; T; F; F; F; F; F; T; F];
     [F; F; F; F; T; F; F; F; T; F; F];
     [F; F; F; F; F; T; F; F; F; F; F];
     [F; F; F; F; F; F; T; F; F; F; F];
     [F; F; F; F; F; F; F; T; F; T; F]]).
Proof. reflexivity. Qed.
Print Assumptions C04_constants.

(** C05 *)
Theorem C05_extensions :
  forall t : GeometryType,
    (gt_dim t < 30)%nat -> gt_id t < 2 ^ N.of_nat (gt_dim t) -> gt_none t = false ->
    isConical (conicalExtension t) = Some true
    /\ getBase (conicalExtension t) = t
    /\ isPrismatic (prismaticExtension t) = Some true
    /\ getBase (prismaticExtension t) = t
    /\ ((1 <= gt_dim t)%nat ->
          isPrismatic (conicalExtension t) = Some false
          /\ isConical (prismaticExtension t) = Some false
          /\ gt_eqb (conicalExtension t) (prismaticExtension t) = false).
Proof.
  intros t Hd Hi Hn.
  assert (W : wf t) by (split; [lia|rewrite bit_pow; exact Hi]).
  destruct (conicalExtension_spec t W Hn ltac:(lia)) as (a & b & c).
  destruct (prismaticExtension_spec t W Hn ltac:(lia)) as (a' & b' & c').
  repeat split; auto. apply ext_distinct; auto. lia.
Qed.
Print Assumptions C05_extensions.

Theorem C05_every_type_is_an_extension :
  forall t : GeometryType,
    (1 <= gt_dim t < 31)%nat -> gt_id t < 2 ^ N.of_nat (gt_dim t) ->
    (t = conicalExtension (getBase t) \/ t = prismaticExtension (getBase t))
    /\ gt_id (getBase t) < 2 ^ N.of_nat (gt_dim (getBase t))
    /\ gt_dim (getBase t) = (gt_dim t - 1)%nat.
Proof.
  intros t Hd Hi. assert (W : wf t) by (split; [lia|rewrite bit_pow; exact Hi]).
  destruct (ext_of_base t W ltac:(lia)) as [[_ B] E]. rewrite <- bit_pow. repeat split; auto.
  unfold getBase, GT3. cbn [gt_dim]. apply to_uchar_small. lia.
Qed.
Print Assumptions C05_every_type_is_an_extension.

(** all types are reached from the vertex by extensions *)
Inductive reachable : GeometryType -> Prop :=
| reach_vertex : reachable vertex
| reach_cone t : reachable t -> reachable (conicalExtension t)
| reach_prism t : reachable t -> reachable (prismaticExtension t).

Theorem C05_all_types_reachable :
  forall t : GeometryType,
    (gt_dim t < 31)%nat -> gt_id t < 2 ^ N.of_nat (gt_dim t) -> gt_none t = false ->
    reachable t.
Proof.
  intros t. remember (gt_dim t) as d eqn:D. revert t D.
  induction d as [|d IH]; intros t D Hd Hi Hn.
  - destruct t as [d' n i]. simpl in D, Hn. subst. replace i with 0 by (simpl in Hi; lia). apply reach_vertex.
  - destruct (C05_every_type_is_an_extension t) as (E & B & C); [lia|rewrite <- D; exact Hi|].
    assert (R : reachable (getBase t)).
    { apply IH; [lia|lia|rewrite <- D in C; replace (S d - 1)%nat with d in C by lia; now rewrite C in B|exact Hn]. }
    destruct E as [-> | ->]; [now apply reach_cone|now apply reach_prism].
Qed.
Print Assumptions C05_all_types_reachable.

Example C05_example :
  conicalExtension quadrilateral = pyramid /\ gt_eqb (prismaticExtension triangle) prism = true
  /\ gt_eqb (prismaticExtension quadrilateral) hexahedron = true /\ getBase prism = GT2 1 2.
Proof. repeat split; reflexivity. Qed.

(** C06 *)
Theorem C06_local_index_bijection :
  forall dim : nat, (dim < 31)%nat ->
    (forall t, gt_dim t = dim -> gt_id t < 2 ^ N.of_nat dim ->
       local_index t < local_size dim
       /\ gt_eqb (local_type dim (local_index t)) t = true)
    /\ (forall s t, gt_dim s = dim -> gt_dim t = dim ->
          gt_id s < 2 ^ N.of_nat dim -> gt_id t < 2 ^ N.of_nat dim ->
          local_index s = local_index t <-> gt_eqb s t = true)
    /\ (forall k, k < local_size dim ->
          gt_dim (local_type dim k) = dim
          /\ gt_id (local_type dim k) < 2 ^ N.of_nat dim
          /\ local_index (local_type dim k) = k).
Proof.
  intros dim Hd.
  assert (W : forall t, gt_dim t = dim -> gt_id t < 2 ^ N.of_nat dim -> wf t)
    by (intros t D I; split; [lia|rewrite D, bit_pow; exact I]).
  repeat split.
  - rewrite <- H. apply local_index_lt. auto.
  - rewrite <- H. apply local_type_index. auto.
  - apply local_index_inj; auto. congruence.
  - apply local_index_inj; auto. congruence.
  - now apply local_type_spec.
  - destruct (local_type_spec dim k Hd H) as ([_ B] & D & _). now rewrite D, bit_pow in B.
  - now apply local_type_spec.
Qed.
Print Assumptions C06_local_index_bijection.

(** the number of indices: 2 in dimension 0, otherwise 2^(dim-1) regular types plus none *)
Theorem C06_local_size :
  local_size 0 = 2 /\ forall d, local_size (S d) = 2 ^ N.of_nat d + 1.
Proof.
  split; [reflexivity|]. intros d. unfold local_size. now rewrite regular_size_S, bit_pow.
Qed.
Print Assumptions C06_local_size.

Example C06_example :
  local_index hexahedron = 3 /\ local_index (none 3) = 4 /\ local_size 3 = 5
  /\ local_type 3 2 = GT2 4 3 /\ gt_eqb (local_type 3 2) prism = true.
Proof. repeat split; reflexivity. Qed.

(** C07 *)
Theorem C07_global_index_bijection :
  forall maxdim : nat, (maxdim < 31)%nat ->
    (forall t, (gt_dim t <= maxdim)%nat -> gt_id t < 2 ^ N.of_nat (gt_dim t) ->
       global_index t < global_size maxdim)
    /\ (forall s t, (gt_dim s <= maxdim)%nat -> (gt_dim t <= maxdim)%nat ->
          gt_id s < 2 ^ N.of_nat (gt_dim s) -> gt_id t < 2 ^ N.of_nat (gt_dim t) ->
          (global_index s = global_index t <-> gt_dim s = gt_dim t /\ gt_eqb s t = true)
          /\ ((gt_dim s < gt_dim t)%nat -> global_index s < global_index t))
    /\ (forall k, k < global_size maxdim ->
          exists t, (gt_dim t <= maxdim)%nat /\ gt_id t < 2 ^ N.of_nat (gt_dim t)
                    /\ global_index t = k).
Proof.
  intros m Hm.
  assert (W : forall t, (gt_dim t <= m)%nat -> gt_id t < 2 ^ N.of_nat (gt_dim t) -> wf t)
    by (intros t D I; split; [lia|rewrite bit_pow; exact I]).
  split; [|split].
  - intros t D I. apply global_index_lt; auto.
  - intros s t Ds Dt Is It. split; [apply global_index_inj; auto|].
    intros H. apply global_index_dim; auto.
  - intros k Hk. destruct (global_index_surj m k Hm Hk) as (t & [_ Wi] & D & E).
    rewrite bit_pow in Wi. eauto.
Qed.
Print Assumptions C07_global_index_bijection.

Example C07_example :
  map global_index [vertex; none 0; line; none 1; triangle; quadrilateral; none 2;
                    tetrahedron; pyramid; prism; hexahedron; none 3]
  = map N.of_nat (seq 0 12) /\ global_size 3 = 12.
Proof. split; reflexivity. Qed.

(** C08 *)
Theorem C08_IfGeometryType :
  forall (dim : nat) (gt : GeometryType),
    (dim < 31)%nat -> gt_id gt < 2 ^ N.of_nat dim ->
    IfGeometryType dim vertex gt = GT2 (gt_id gt) dim.
Proof.
  intros dim gt Hd Hi. rewrite (IfGeometryType_spec dim gt Hd) by (rewrite bit_pow; exact Hi).
  unfold GT2. rewrite to_uchar_small by lia. reflexivity.
Qed.
Print Assumptions C08_IfGeometryType.

Theorem C08_toGeometryTypeIdConstant :
  forall t : GeometryType,
    (gt_dim t < 31)%nat -> gt_id t < 2 ^ N.of_nat (gt_dim t) -> gt_none t = false ->
    gt_eqb (ofId (toGeometryTypeIdConstant (gt_dim t) t)) t = true.
Proof.
  intros t Hd Hi Hn. apply toGeometryTypeIdConstant_spec; auto. split; [exact Hd|].
  rewrite bit_pow; exact Hi.
Qed.
Print Assumptions C08_toGeometryTypeIdConstant.

Theorem C08_toGeometryTypeIdConstant_fallback :
  forall d : nat, (d < 31)%nat ->
    ofId (toGeometryTypeIdConstant d (none d)) = simplex d.
Proof.
  intros d Hd. rewrite (toGeometryTypeIdConstant_none d (none d)).
  - unfold simplex, GT3. rewrite to_uchar_small by lia. reflexivity.
  - unfold wf, none, GT3. cbn [gt_dim gt_id]. rewrite to_uchar_small by lia.
    split; [lia|apply bit_pos].
  - unfold none, GT3. cbn [gt_dim]. apply to_uchar_small; lia.
  - reflexivity.
Qed.
Print Assumptions C08_toGeometryTypeIdConstant_fallback.

Example C08_example :
  IfGeometryType 3 vertex prism = prism
  /\ ofId (toGeometryTypeIdConstant 3 prism) = GT2 4 3
  /\ ofId (toGeometryTypeIdConstant 3 (none 3)) = tetrahedron.
Proof. repeat split; reflexivity. Qed.
