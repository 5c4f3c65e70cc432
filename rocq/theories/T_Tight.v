(** Statements about definitions that the theorems of the other files do not pin down: classification of types (C03, C05), text forms (C61), the
    enumeration of quadrature families (C40), the range of orders and array indices in Python (C76), the number of computations of the cached class (C33). *)
From Coq Require Import NArith ZArith PeanoNat Bool List Ascii String Lia Reals Lra.
From Verif Require Import S_Topo M_Type M_TypeIndex M_TypeString M_RefTopo M_RefGeo M_Matrix M_Affine M_MultiLinear M_QuadFactory M_Quadrature M_PyRules
  P_Type P_RefTopo.
Import ListNotations.
Local Open Scope nat_scope.

(** ** C03, C05 *)
(** none types are neither conical nor prismatic; for the others the two questions are undefined in dimension 0 and nowhere else *)
Theorem C03_none_conical : forall t,
  (gt_none t = true -> isConical t = Some false /\ isPrismatic t = Some false /\ forall s, isConicalStep t s = false /\ isPrismaticStep t s = false)
  /\ (isConical t = None <-> gt_none t = false /\ gt_dim t = 0) /\ (isPrismatic t = None <-> gt_none t = false /\ gt_dim t = 0).
Proof.
  intros [d [|] id]; unfold isConical, isPrismatic, isConicalStep, isPrismaticStep; cbn [gt_none gt_dim gt_id negb andb].
  - split; [auto|]. split; split; try discriminate; intros (H & _); discriminate H.
  - split; [discriminate|]. destruct d; split; split; try discriminate; auto; intros (_ & H); discriminate H.
Qed.
Print Assumptions C03_none_conical.

(** isPyramid and isPrism are the last step of the construction of the topology, counted from the top; the first step, to the line, is both. *)
Lemma land_bit n i : (N.land n (bit i) =? 0)%N = negb (N.testbit n (N.of_nat i)).
Proof.
  unfold bit. rewrite N.shiftl_1_l. destruct (N.testbit n (N.of_nat i)) eqn:E; cbn [negb].
  - apply N.eqb_neq. intro H. apply (f_equal (fun v => N.testbit v (N.of_nat i))) in H. rewrite N.land_spec, E, N.pow2_bits_true, N.bits_0 in H. discriminate H.
  - apply N.eqb_eq. apply N.bits_inj. intro j. rewrite N.land_spec, N.bits_0. destruct (N.eq_dec (N.of_nat i) j) as [<-|N]; [now rewrite E|].
    rewrite N.pow2_bits_false by exact N. apply andb_false_r.
Qed.
Theorem C05_pyramid_or_prism : forall id dim codim, codim < dim ->
  let last := topo_of id (dim - codim) in
  (isPyramid id dim codim = true <-> dim - codim = 1 \/ exists b, last = Pyr b)
  /\ (isPrism id dim codim = true <-> dim - codim = 1 \/ exists b, last = Pri b)
  /\ (2 <= dim - codim -> isPyramid id dim codim = negb (isPrism id dim codim)).
Proof.
  intros id dim codim H. cbv zeta. unfold isPyramid, isPrism. destruct (dim - codim) as [|d] eqn:E; [lia|]. replace (S d - 1) with d by lia.
  rewrite !land_bit, N.ldiff_spec, N.lor_spec. cbn [topo_of]. destruct d as [|d].
  - change (N.testbit 1 (N.of_nat 0)) with true. rewrite andb_false_r, orb_true_r. cbn [negb]. split; [split; auto|]. split; [split; auto|lia].
  - assert (Z : N.testbit 1 (N.of_nat (S d)) = false) by (apply N.bits_above_log2; cbn; lia). rewrite Z. cbn [negb]. rewrite andb_true_r, orb_false_r.
    destruct (N.testbit id (N.of_nat (S d))); cbn [negb].
    + split; [split; [discriminate|intros [Q|(b & Q)]; discriminate Q]|]. split; [split; [eauto|reflexivity]|reflexivity].
    + split; [split; [eauto|reflexivity]|]. split; [split; [discriminate|intros [Q|(b & Q)]; discriminate Q]|reflexivity].
Qed.
Print Assumptions C05_pyramid_or_prism.

(** ** C61: the text written to a stream is a name and the dimension *)
Theorem C61_stream_dimension : forall t, exists name, streamText t = lit "(" ++ lit name ++ lit ", " ++ dec (N.of_nat (gt_dim t)) ++ lit ")"
    /\ In name ["simplex"; "cube"; "pyramid"; "prism"; "none"]%string
  \/ streamText t = lit "(other [" ++ dec (gt_id t) ++ lit "], " ++ dec (N.of_nat (gt_dim t)) ++ lit ")".
Proof.
  intro t. unfold streamText.
  assert (N3 : forall i, named 3 i t = true -> gt_dim t = 3).
  { intros i Q. unfold named in Q. destruct (Nat.eqb_spec (gt_dim t) 3) as [E|E]; [exact E|]. exfalso. rewrite ?andb_false_r, ?andb_false_l in Q. cbn in Q. try discriminate Q.
    }
  destruct (isSimplex t); [exists "simplex"%string; left; split; [reflexivity|cbn; tauto]|].
  destruct (isCube t); [exists "cube"%string; left; split; [reflexivity|cbn; tauto]|].
  destruct (isPyramidT t) eqn:Y; [exists "pyramid"%string; left; rewrite (N3 _ Y); split; [reflexivity|cbn; tauto]|].
  destruct (isPrismT t) eqn:P; [exists "prism"%string; left; rewrite (N3 _ P); split; [reflexivity|cbn; tauto]|].
  destruct (gt_none t); [exists "none"%string; left; split; [reflexivity|cbn; tauto]|].
  exists ""%string. right. reflexivity.
Qed.
Print Assumptions C61_stream_dimension.

(** ** C40: the seven families are numbered 0 to 6, size is the number of them *)
Theorem C40_families : let l := [qtLegendre; qtJacobi1; qtJacobi2; qtJacobiN; qtLobatto; qtRadauLeft; qtRadauRight] in
  NoDup l /\ List.length l = qtSize /\ forall n, In n l <-> n < qtSize.
Proof.
  cbv zeta. split; [repeat (apply NoDup_cons; [cbn; unfold qtLegendre, qtJacobi1, qtJacobi2, qtJacobiN, qtLobatto, qtRadauLeft, qtRadauRight; lia|]); apply NoDup_nil|]. split; [reflexivity|]. intro n. cbn. unfold qtSize, qtLegendre, qtJacobi1, qtJacobi2, qtJacobiN, qtLobatto, qtRadauLeft, qtRadauRight. lia.
Qed.
Print Assumptions C40_families.

(** ** C76: an order is refused by the conversion exactly if it is not a 32-bit integer *)
Theorem C76_int_range : forall lapack dim t o, module_rule lapack dim t o = Raise TypeError <->
  match o with OFloat _ => True | OInt p => ~ (- 2 ^ 31 <= p < 2 ^ 31)%Z end.
Proof.
  intros lapack dim t [p|f]; unfold module_rule; [|tauto]. assert (M : INT_MAX = (2 ^ 31 - 1)%Z) by reflexivity. unfold INT_MIN. rewrite M.
  destruct (Z.ltb_spec p (- (2 ^ 31 - 1) - 1)); destruct (Z.ltb_spec (2 ^ 31 - 1) p); cbn [orb]; split; intro Q; try reflexivity; try lia.
  exfalso. revert Q. destruct (negb (Nat.eqb (gt_dim t) dim)); [discriminate|]. destruct (negb (inRange dim t p qtLegendre)); [discriminate|].
  destruct (factory lapack dim t p qtLegendre); discriminate.
Qed.
Print Assumptions C76_int_range.
(** reading an element of an array needs as many indices as the array has dimensions, each within bounds *)
Theorem C76_index : forall mem a idx x, nd_get mem a idx = Some x -> Forall2 (fun i n => i < n) idx (nd_shape a).
Proof.
  intros mem [shape strides base] idx x. unfold nd_get. cbn [nd_shape]. destruct (nd_inside shape idx) eqn:E; [|discriminate]. intros _. revert idx E.
  induction shape as [|n shape IH]; intros [|i idx] E; try discriminate E; constructor; cbn [nd_inside] in E; apply andb_true_iff in E; destruct E as (E1 & E2); [now apply Nat.ltb_lt|now apply IH].
Qed.
Print Assumptions C76_index.

(** ** C33: in any history of calls the inverse and the determinant of the cached class are computed at most once each *)
Section Once.
Variables (mydim cdim : nat) (tol : R) (jv : Vec) (jm jk j1 j2 : Mat) (fuel : nat).
(** the calls that enter the branches of lines 637-641 and 684-688 *)
Definition computes_det (c : Cache) (q : M_MultiLinear.Call) : bool :=
  ca_affine c && negb (ca_intComputed c) && match q with CIntEl _ | CVolume => true | _ => false end.
Definition computes_inverse (c : Cache) (q : M_MultiLinear.Call) : bool :=
  ca_affine c && negb (ca_jitComputed c) && match q with CJIT _ => true | _ => false end.
Fixpoint times (P : Cache -> M_MultiLinear.Call -> bool) (g : MLGeo) (c : Cache) (qs : list M_MultiLinear.Call) : nat :=
  match qs with
  | [] => 0
  | q :: qs => (if P c q then 1 else 0) +
      match cm_call mydim cdim tol jv jm jk j1 j2 fuel g c q with Some (_, c') => times P g c' qs | None => 0 end
  end.
Lemma obind_Some {A B} (o : option A) (f : A -> option B) b : obind o f = Some b -> exists a, o = Some a /\ f a = Some b.
Proof. destruct o; [eauto|discriminate]. Qed.
Lemma call_flags g c q r c' : cm_call mydim cdim tol jv jm jk j1 j2 fuel g c q = Some (r, c') ->
  (ca_intComputed c = true -> ca_intComputed c' = true) /\ (ca_jitComputed c = true -> ca_jitComputed c' = true)
  /\ (computes_det c q = true -> ca_intComputed c' = true) /\ (computes_inverse c q = true -> ca_jitComputed c' = true /\ ca_intComputed c' = true)
  /\ (computes_det c q = false -> computes_inverse c q = false -> c' = c).
Proof.
  assert (IE : forall x d c', cm_integrationElement mydim cdim tol jm jk j1 j2 g c x = Some (d, c') ->
    (ca_intComputed c = true -> ca_intComputed c' = true) /\ (ca_jitComputed c = true -> ca_jitComputed c' = true)
    /\ (ca_affine c = true -> ca_intComputed c' = true) /\ (ca_affine c && negb (ca_intComputed c) = false -> c' = c)).
  { intros x d c0 E. unfold cm_integrationElement in E. destruct (ca_affine c) eqn:A; cbn [andb].
    - apply obind_Some in E. destruct E as (c1 & E1 & E2). assert (c1 = c0) by congruence. subst c1. destruct (ca_intComputed c) eqn:I; cbn [negb] in E1.
      + assert (c0 = c) by congruence. subst c0. auto.
      + apply obind_Some in E1. destruct E1 as (v & _ & E1). injection E1 as <-. cbn. split; [auto|]. split; [auto|]. split; [auto|discriminate].
    - apply obind_Some in E. destruct E as (v & _ & E). assert (c0 = c) by congruence. subst c0. split; [auto|]. split; [auto|]. split; [discriminate|auto]. }
  intro E. unfold computes_det, computes_inverse. destruct q as [x|y|x| |x|x|]; cbn [cm_call] in E.
  - destruct (cm_global _ _ _ _ _ _ _); [|discriminate E]. assert (c' = c) by (cbn in E; congruence). subst c'. rewrite !andb_false_r. repeat split; auto; discriminate.
  - destruct (out _); [|discriminate E]. assert (c' = c) by (cbn in E; congruence). subst c'. rewrite !andb_false_r. repeat split; auto; discriminate.
  - destruct (cm_integrationElement _ _ _ _ _ _ _ _ _ _) as [(d, c0)|] eqn:Q; [|discriminate E]. assert (c0 = c') by (cbn in E; congruence). subst c0.
    destruct (IE _ _ _ Q) as (A & B & C & D). rewrite !andb_false_r, !andb_true_r. split; [exact A|]. split; [exact B|]. split; [|split; [discriminate|intros; now apply D]].
    intro H. apply andb_true_iff in H. now apply C.
  - destruct (cm_volume _ _ _ _ _ _ _ _ _) as [(d, c0)|] eqn:Q; [|discriminate E]. assert (c0 = c') by (cbn in E; congruence). subst c0. unfold cm_volume in Q.
    rewrite !andb_false_r, !andb_true_r. destruct (ca_affine c) eqn:A.
    + apply obind_Some in Q. destruct Q as (p & _ & Q). apply obind_Some in Q. destruct Q as ((d1, c1) & Q1 & Q). assert (c1 = c') by congruence. subst c1.
      destruct (IE _ _ _ Q1) as (I & B & C & D). split; [exact I|]. split; [exact B|]. split; [intros _; now apply C|]. split; [discriminate|]. intros H _. now apply D.
    + apply obind_Some in Q. destruct Q as (v & _ & Q). assert (c' = c) by congruence. subst c'. repeat split; auto; discriminate.
  - destruct (cm_jacobianTransposed _ _ _ _ _ _ _ _); [|discriminate E]. assert (c' = c) by (cbn in E; congruence). subst c'. rewrite !andb_false_r. repeat split; auto; discriminate.
  - destruct (cm_jacobianInverseTransposed _ _ _ _ _ _ _ _ _ _) as [((d, m), c0)|] eqn:Q; [|discriminate E]. assert (c0 = c') by (cbn in E; congruence). subst c0.
    unfold cm_jacobianInverseTransposed in Q. rewrite !andb_false_r, !andb_true_r. destruct (ca_affine c) eqn:A; cbn [andb].
    + apply obind_Some in Q. destruct Q as (c1 & Q1 & Q). assert (c1 = c') by congruence. subst c1. destruct (ca_jitComputed c) eqn:J; cbn [negb] in *.
      * assert (c' = c) by congruence. subst c'. repeat split; auto; discriminate.
      * apply obind_Some in Q1. destruct Q1 as ((d1, m1) & _ & Q1). injection Q1 as <-. cbn. repeat split; auto; discriminate.
    + apply obind_Some in Q. destruct Q as ((d1, m1) & _ & Q). assert (c' = c) by congruence. subst c'. repeat split; auto; discriminate.
  - assert (c' = c) by (cbn in E; congruence). subst c'. rewrite !andb_false_r. repeat split; auto; discriminate.
Qed.
Theorem C33_computed_once : forall g c qs, times computes_det g c qs <= 1 /\ times computes_inverse g c qs <= 1.
Proof.
  assert (D0 : forall g qs c, ca_intComputed c = true -> times computes_det g c qs = 0).
  { intros g. induction qs as [|q qs IH]; intros c I; cbn [times]; [reflexivity|]. replace (computes_det c q) with false by (unfold computes_det; rewrite I; cbn; now rewrite andb_false_r).
    destruct (cm_call mydim cdim tol jv jm jk j1 j2 fuel g c q) as [(r, c')|] eqn:E; [|reflexivity]. destruct (call_flags _ _ _ _ _ E) as (A & _). now rewrite IH by auto. }
  assert (I0 : forall g qs c, ca_jitComputed c = true -> times computes_inverse g c qs = 0).
  { intros g. induction qs as [|q qs IH]; intros c I; cbn [times]; [reflexivity|]. replace (computes_inverse c q) with false by (unfold computes_inverse; rewrite I; cbn; now rewrite andb_false_r).
    destruct (cm_call mydim cdim tol jv jm jk j1 j2 fuel g c q) as [(r, c')|] eqn:E; [|reflexivity]. destruct (call_flags _ _ _ _ _ E) as (_ & A & _). now rewrite IH by auto. }
  intros g c qs. revert c. induction qs as [|q qs IH]; intro c; cbn [times]; [lia|].
  destruct (cm_call mydim cdim tol jv jm jk j1 j2 fuel g c q) as [(r, c')|] eqn:E; [|destruct (computes_det c q), (computes_inverse c q); lia].
  destruct (call_flags _ _ _ _ _ E) as (_ & _ & A & B & _). specialize (IH c'). split.
  - destruct (computes_det c q); [rewrite D0 by auto; lia|lia].
  - destruct (computes_inverse c q); [rewrite I0 by (now apply B); lia|lia].
Qed.
(** a call that does not compute leaves the cache as it is *)
Theorem C33_unchanged : forall g c q r c', cm_call mydim cdim tol jv jm jk j1 j2 fuel g c q = Some (r, c') ->
  computes_det c q = false -> computes_inverse c q = false -> c' = c.
Proof. intros g c q r c' E. apply (call_flags _ _ _ _ _ E). Qed.
End Once.
Print Assumptions C33_computed_once.
Print Assumptions C33_unchanged.

Example C05_tight_example : isPyramid 3 3 0 = true /\ isPrism 3 3 1 = true /\ isPyramid 2 2 1 = true /\ isPrism 2 2 1 = true
  /\ streamText (mkGT 12 true 0) = lit "(none, 12)" /\ streamText (mkGT 3 false 5) = lit "(prism, 3)" /\ isPrismatic (mkGT 0 true 0) = Some false.
Proof. repeat split. Qed.
