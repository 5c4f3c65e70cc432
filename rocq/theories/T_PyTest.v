(** C96: what the test programs of the Python layer check, that the library passes them from
    every state of the module, and what they let through. *)
From Coq Require Import NArith ZArith PeanoNat Bool List Ascii String Lia Reals Lra.
From Coquelicot Require Import Coquelicot.
From Verif Require Import M_Type M_TypeIndex M_TypeString M_RefGeo M_RefTopo M_QuadFactory M_Quadrature M_Container M_PyRules M_PyTest
  S_Topo S_RefGeo S_Quad S_QuadND P_Topo P_Type P_Type2 P_RefTopo2 P_RefGeo2 P_RefVol P_QuadProd P_QuadAll P_QuadTest1 P_PyRules P_PyRules2 P_PyTest T_TypeString T_Container T_RefTopo T_PyRules.
Import ListNotations.
Local Open Scope nat_scope.

(** ** geometrytype.py *)
(** The program ends without an exception exactly if the texts of the eight named types, and
    those of the simplices, cubes and none types of the dimensions below n, are read back as
    equal types, and the sixteen texts given are read as the types given; n is at most 31. *)
Theorem C96_types_verdict : forall parse text n, pt_main parse text n = Some true <->
  (forall t, In t [vertex; line; triangle; quadrilateral; tetrahedron; pyramid; prism; hexahedron] -> reads parse (text t) t)
  /\ n <= 31
  /\ (forall d, d < n -> reads parse (text (simplex d)) (simplex d) /\ reads parse (text (cube d)) (cube d) /\ reads parse (text (none d)) (none d))
  /\ (forall s t, In (s, t) [(lit "simplex(0)", vertex); (lit "simplex(1)", line); (lit "simplex(2)", triangle); (lit "simplex(3)", tetrahedron);
        (lit "general( 0, 0)", vertex); (lit "general( 0, 1)", line); (lit "general( 0, 2)", triangle); (lit "general( 0, 3)", tetrahedron);
        (lit "cube(0)", vertex); (lit "cube(1)", line); (lit "cube(2)", quadrilateral); (lit "cube(3)", hexahedron);
        (lit "general( 0, 0)", vertex); (lit "general( 1, 1)", line); (lit "general( 3, 2)", quadrilateral); (lit "general( 7, 3)", hexahedron)] ->
        reads parse s t).
Proof.
  intros parse text n. unfold pt_main. rewrite !andThen_true, (forEach_true _ pt_named), (forEach_true _ (seq 0 n)).
  unfold pt_simplices, pt_cubes. cbn [forEach]. unfold pt_simplex, pt_cube. cbn [fst snd]. rewrite !andThen_true.
  assert (G : (forall a, In a (seq 0 n) -> pt_general parse text a = Some true) <->
    n <= 31 /\ (forall d, d < n -> reads parse (text (simplex d)) (simplex d) /\ reads parse (text (cube d)) (cube d) /\ reads parse (text (none d)) (none d))).
  { split.
    - intros H. assert (K : forall d, d < n -> d < 31 /\ reads parse (text (simplex d)) (simplex d) /\ reads parse (text (cube d)) (cube d) /\ reads parse (text (none d)) (none d)).
      { intros d Hd. apply pt_general_true, H, in_seq. lia. }
      split; [|intros d Hd; apply K, Hd]. destruct n as [|m]; [lia|]. destruct (K m ltac:(lia)). lia.
    - intros [H1 H2] d Hd. apply in_seq in Hd. apply pt_general_true. split; [lia|apply H2; lia]. }
  rewrite G. rewrite !pt_assert_true.
  assert (N : (forall a, In a pt_named -> pt_assert parse (text a) a = Some true) <-> (forall t, In t pt_named -> reads parse (text t) t)).
  { split; intros H t Ht; apply pt_assert_true; auto. }
  rewrite N. change [vertex; line; triangle; quadrilateral; tetrahedron; pyramid; prism; hexahedron] with pt_named.
  set (W := list (str * GeometryType)) in *.
  split.
  - intros (H1 & (H2 & H3) & H4 & H5). split; [exact H1|]. split; [exact H2|]. split; [exact H3|]. intros s t Hs.
    cbn [In] in Hs. repeat (destruct Hs as [Hs|Hs]; [injection Hs as <- <-; tauto|]). destruct Hs.
  - intros (H1 & H2 & H3 & H4). split; [exact H1|]. split; [split; assumption|].
    split; repeat split; apply H4; cbn [In]; repeat first [left; reflexivity | right].
Qed.
Print Assumptions C96_types_verdict.

(** The library passes for every n up to 31; from 32 on the call cube(31) is undefined. *)
Lemma named_wf t : In t pt_named -> gt_none t = false /\ gt_dim t < 4 /\ (gt_id t < 2 ^ N.of_nat (gt_dim t))%N.
Proof. intros H. cbn in H. repeat (destruct H as [<-|H]; [cbn; split; [reflexivity|split; [lia|vm_compute; reflexivity]]|]). destruct H. Qed.
Lemma reads_self t : gt_dim t < 31 -> (gt_none t = false -> (gt_id t < 2 ^ N.of_nat (gt_dim t))%N) -> reads fromString (toString t) t.
Proof. intros H1 H2. destruct (C61_round_trip t H1 H2) as (u & A & B & _). exists u. auto. Qed.
Lemma uchar_small d : d < 256 -> to_uchar d = d.
Proof. intros H. unfold to_uchar. now apply Nat.mod_small. Qed.
Lemma cube_wf d : d < 31 -> gt_dim (cube d) = d /\ (gt_id (cube d) < 2 ^ N.of_nat d)%N.
Proof.
  intros H. unfold cube, GT3. cbn [gt_dim gt_id]. split; [apply uchar_small; lia|]. rewrite <- bit_pow.
  assert (P : (0 < bit d)%N) by (rewrite bit_pow; apply N.neq_0_lt_0, N.pow_nonzero; discriminate). destruct (1 <? d); lia.
Qed.
Theorem C96_types_library : forall n, pt_main fromString toString n = if n <=? 31 then Some true else None.
Proof.
  assert (G : forall d, d < 31 -> reads fromString (toString (simplex d)) (simplex d)
    /\ reads fromString (toString (cube d)) (cube d) /\ reads fromString (toString (none d)) (none d)).
  { intros d Hd. assert (E : to_uchar d = d) by (apply uchar_small; lia). destruct (cube_wf d Hd) as [C1 C2].
    split; [|split]; apply reads_self.
    - change (to_uchar d < 31). now rewrite E.
    - intros _. change (0 < 2 ^ N.of_nat (to_uchar d))%N. apply N.neq_0_lt_0, N.pow_nonzero. discriminate.
    - now rewrite C1.
    - intros _. now rewrite C1.
    - change (to_uchar d < 31). now rewrite E.
    - discriminate. }
  assert (L : forall n, n <= 31 -> pt_main fromString toString n = Some true).
  { intros n Hn. apply C96_types_verdict. split; [|split; [exact Hn|split]].
    - intros t Ht. destruct (named_wf t Ht) as (A & B & C). apply reads_self; [lia|auto].
    - intros d Hd. apply G. lia.
    - intros s t Hs. cbn [In] in Hs.
      repeat (destruct Hs as [Hs|Hs]; [injection Hs as <- <-; eexists; split; [vm_compute; reflexivity|reflexivity]|]). destruct Hs. }
  intros n. destruct (Nat.leb_spec n 31) as [H|H]; [now apply L|].
  pose proof (L 31 (Nat.le_refl 31)) as L31. unfold pt_main in *. rewrite !andThen_true in L31. destruct L31 as (L1 & L2 & _).
  rewrite L1. cbn [andThen]. replace (seq 0 n) with (seq 0 31 ++ 31 :: seq 32 (n - 32)).
  - rewrite forEach_app, L2. cbn [andThen forEach].
    assert (E : pt_general fromString toString 31 = None) by (vm_compute; reflexivity). now rewrite E.
  - replace n with (31 + S (n - 32)) at 2 by lia. rewrite seq_app. reflexivity.
Qed.
Print Assumptions C96_types_library.

(** What the program lets through: since == does not compare the dimensions of none types, a
    text without the dimension passes; and so does any text of the types that are no simplices,
    no cubes and none of the named ones. *)
Theorem C96_types_refuted : forall w : GeometryType -> str, exists text,
  (forall n, n <= 31 -> pt_main fromString text n = Some true)
  /\ (forall d, text (none d) = lit "none(0)")
  /\ (forall t, 3 < gt_dim t < 256 -> isSimplex t = false -> isCube t = false -> gt_none t = false -> text t = w t).
Proof.
  intros w. exists (fun t => if gt_none t then lit "none(0)" else if (3 <? gt_dim t) && negb (isSimplex t) && negb (isCube t) then w t else toString t).
  split; [|split].
  - intros n Hn. pose proof (C96_types_library n) as L. rewrite (proj2 (Nat.leb_le n 31) Hn) in L. apply C96_types_verdict in L.
    destruct L as (L1 & L2 & L3 & L4). apply C96_types_verdict. split; [|split; [exact L2|split; [|exact L4]]].
    + intros t Ht. destruct (named_wf t Ht) as (A & B & _). rewrite A. replace (3 <? gt_dim t) with false by (symmetry; apply Nat.ltb_ge; lia). now apply L1.
    + intros d Hd. destruct (L3 d Hd) as (A & B & C). assert (E : to_uchar d = d) by (apply uchar_small; lia).
      pose proof (proj1 (simplex_is d ltac:(lia))) as S1. pose proof (proj1 (cube_is d ltac:(lia))) as S2.
      rewrite S1, S2. cbn [gt_none simplex cube GT3 negb]. rewrite !andb_false_r. split; [exact A|]. split; [exact B|].
      exists (none 0). split; [vm_compute; reflexivity|reflexivity].
  - intros d. reflexivity.
  - intros t [H _] S C N. rewrite N, S, C. now rewrite (proj2 (Nat.ltb_lt 3 (gt_dim t)) H).
Qed.
Print Assumptions C96_types_refuted.

(** ** refelement.py *)
(** test(r): each of the tuples has the length size(codim), and its elements are those the
    methods return. *)
Theorem C96_elements_verdict : forall r, let d := pr_dimension r in
  pr_test r = Some true <->
  (forall c, c <= d -> agrees gt_eqb (pr_types r (Z.of_nat c)) (pr_size r (Z.of_nat c)) (fun i => pr_type r i (Z.of_nat c))
    /\ agrees (vec_eqb d) (pr_positions r (Z.of_nat c)) (pr_size r (Z.of_nat c)) (fun i => pr_position r i (Z.of_nat c)))
  /\ (0 < d -> agrees (vec_eqb d) (pr_normals r) (pr_size r 1) (pr_normal r)).
Proof.
  intros r d. unfold pr_test. fold d. rewrite !andThen_true, !forEach_true. split.
  - intros (H1 & H2 & H3). split.
    + intros c Hc. assert (I : In (Z.of_nat c) (map Z.of_nat (seq 0 (S d)))) by (apply in_map, in_seq; lia).
      split; apply pr_tuple_true; [exact (H1 _ I)|exact (H2 _ I)].
    + intros P. rewrite (proj2 (Nat.ltb_lt 0 d) P) in H3. now apply pr_tuple_true.
  - intros [H1 H2]. split; [|split].
    + intros z Hz. apply in_map_iff in Hz. destruct Hz as (c & <- & Hc). apply in_seq in Hc. apply pr_tuple_true, H1. lia.
    + intros z Hz. apply in_map_iff in Hz. destruct Hz as (c & <- & Hc). apply in_seq in Hc. apply pr_tuple_true, H1. lia.
    + destruct (Nat.ltb_spec 0 d) as [P|P]; [|reflexivity]. now apply pr_tuple_true, H2.
Qed.
Print Assumptions C96_elements_verdict.

Lemma in_length {A} (l : list A) i a : nth_error l i = Some a -> i < List.length l.
Proof. intros H. apply nth_error_Some. congruence. Qed.
(** Every reference element passes. *)
Theorem C96_elements_library : forall id dim r, (id < 2 ^ N.of_nat dim)%N -> re_infos id dim = Some r ->
  pr_test (pyRef id dim r) = Some true.
Proof.
  intros id dim r Hid Hr. destruct (C76_tuples id dim r Hid Hr) as (T1 & T2 & _ & T4).
  assert (SZ : forall c, c <= dim -> py_size dim r (Z.of_nat c) = PyReturn (size id dim c)).
  { intros c Hc. unfold py_size. replace ((Z.of_nat c <? 0) || (Z.of_nat dim <? Z.of_nat c))%Z with false by (symmetry; apply orb_false_iff; rewrite !Z.ltb_ge; lia).
    rewrite Nat2Z.id. destruct (C10_reference_element_size id dim Hid) as (r' & R & S). rewrite Hr in R. injection R as <-. now rewrite S. }
  apply C96_elements_verdict. cbn [pyRef pr_dimension pr_types pr_size pr_type pr_positions pr_position pr_normals pr_normal]. split.
  - intros c Hc. split.
    + specialize (T2 (Z.of_nat c)). destruct (py_types dim r (Z.of_nat c)) as [|l|]; [destruct T2 as [[] _]; lia| |contradiction].
      destruct T2 as (_ & L & G). rewrite Nat2Z.id in L. exists l. split; [reflexivity|]. split; [now rewrite L, SZ|].
      intros i a Ha. exists a. split; [|apply gt_eqb_refl]. rewrite G. replace (0 <=? Z.of_nat i)%Z with true by (symmetry; apply Z.leb_le; lia).
      now rewrite Nat2Z.id, Ha.
    + specialize (T1 (Z.of_nat c)). destruct (py_positions id dim r (Z.of_nat c)) as [|l|]; [destruct T1 as [[] _]; lia| |contradiction].
      destruct T1 as (_ & L & G). rewrite Nat2Z.id in L. exists l. split; [reflexivity|]. split; [now rewrite L, SZ|].
      intros i a Ha. exists a. split; [|apply vec_eqb_refl]. rewrite G. replace (0 <=? Z.of_nat i)%Z with true by (symmetry; apply Z.leb_le; lia).
      now rewrite Nat2Z.id, Ha.
  - intros P. destruct (T4 P) as [A B]. exists (referenceIntegrationOuterNormals id dim). split; [exact A|]. split.
    + assert (L : forall l, py_normals id dim r = PyReturn l -> List.length l = re_size r 1).
      { intros l E. unfold py_normals in E. revert E. generalize (re_size r 1) at 1 2. intros n. generalize 0%Z. revert l.
        induction n as [|n IH]; intros l z E; cbn [py_all] in E; [injection E as <-; reflexivity|].
        destruct (py_of _) as [|a|]; cbn [py_bind] in E; try discriminate. destruct (py_all _ n _) as [|m|] eqn:F; cbn [py_bind] in E; try discriminate.
        injection E as <-. cbn. f_equal. now apply (IH m (z + 1)%Z). }
      rewrite (L _ A). unfold py_size. replace ((1 <? 0) || (Z.of_nat dim <? 1))%Z with false by (symmetry; apply orb_false_iff; rewrite !Z.ltb_ge; lia). reflexivity.
    + intros i a Ha. exists a. split; [|apply vec_eqb_refl]. rewrite B. replace (0 <=? Z.of_nat i)%Z with true by (symmetry; apply Z.leb_le; lia).
      now rewrite Nat2Z.id, Ha.
Qed.
Print Assumptions C96_elements_library.

(** The program over any function from types to elements. *)
Theorem C96_elements_main_verdict : forall ans : GeometryType -> Call (option PyRef),
  pr_main (fun (s : unit) t => (s, ans t)) tt = Some true <->
  (forall t, In t [vertex; line; triangle; quadrilateral; tetrahedron; pyramid; prism; hexahedron] ->
     exists r, ans t = Ret (Some r) /\ pr_test r = Some true)
  /\ (forall d, d < 4 -> ans (none d) = Ret None).
Proof.
  intros ans. set (ask := fun (s : unit) t => (s, ans t)). unfold pr_main. change [vertex; line; triangle; quadrilateral; tetrahedron; pyramid; prism; hexahedron] with pt_named.
  assert (E : forall l k, pr_elements ask l tt k = Some true <-> (forall t, In t l -> exists r, ans t = Ret (Some r) /\ pr_test r = Some true) /\ k tt = Some true).
  { induction l as [|t l IH]; intros k; cbn [pr_elements]; [split; [intros H; split; [intros t []|exact H]|tauto]|].
    unfold ask at 1. destruct (ans t) as [[r|]|x|] eqn:A.
    - rewrite andThen_true, IH. split.
      + intros (H1 & H2 & H3). split; [|exact H3]. intros u [<-|Hu]; [exists r; auto|auto].
      + intros [H1 H2]. split; [|split; [intros u Hu; apply H1; now right|exact H2]].
        destruct (H1 t (or_introl eq_refl)) as (r' & B & C). congruence.
    - split; [discriminate|]. intros [H _]. destruct (H t (or_introl eq_refl)) as (r' & B & C). congruence.
    - split; [discriminate|]. intros [H _]. destruct (H t (or_introl eq_refl)) as (r' & B & C). congruence.
    - split; [discriminate|]. intros [H _]. destruct (H t (or_introl eq_refl)) as (r' & B & C). congruence. }
  rewrite E. assert (N : forall l, pr_nones ask l tt = Some true <-> forall d, In d l -> ans (none d) = Ret None).
  { induction l as [|d l IH]; cbn [pr_nones]; [split; [intros _ d []|reflexivity]|]. unfold ask at 1. destruct (ans (none d)) as [[r|]|x|] eqn:A.
    - split; [discriminate|]. intros H. specialize (H d (or_introl eq_refl)). congruence.
    - rewrite IH. split; [intros H e [<-|He]; auto|intros H e He; apply H; now right].
    - split; [discriminate|]. intros H. specialize (H d (or_introl eq_refl)). congruence.
    - split; [discriminate|]. intros H. specialize (H d (or_introl eq_refl)). congruence. }
  rewrite N. split; intros [H1 H2]; (split; [exact H1|]); intros d Hd; apply H2; cbn [In] in *; lia.
Qed.
Print Assumptions C96_elements_main_verdict.

Lemma element_object dim c e t : container dim = Some c -> el_type c e = Some t ->
  exists r, pyObject dim e = Some r /\ pr_test r = Some true.
Proof.
  intros Hc Ht. unfold pyObject. rewrite Hc. cbn [obind]. unfold el_type in Ht. destruct e as [a|]; [|discriminate].
  destruct (container_ok dim) as (c' & C & L1 & L2 & U). rewrite Hc in C. injection C as <-.
  assert (A : a < 2 ^ dim).
  { unfold impl in Ht. cbn [obind] in Ht. destruct (nth_error (rc_implementations c) a) eqn:X; [|discriminate].
    rewrite <- L1. apply nth_error_Some. congruence. }
  destruct (U a A) as (U1 & r & U2 & U3). exists (pyRef (N.of_nat a) dim r). cbn [obind]. unfold impl. cbn [obind]. rewrite U3. cbn [obind].
  split; [reflexivity|]. apply C96_elements_library; [|exact U2].
  replace (2 ^ N.of_nat dim)%N with (N.of_nat (2 ^ dim)) by (rewrite Nnat.Nat2N.inj_pow; reflexivity). lia.
Qed.
(** The program passes in every state that calls of referenceElement can leave. *)
Theorem C96_elements_main : forall objHash load l d, (forall k, k <= 3 -> load k = true) ->
  eruns objHash load [] l d -> (forall g t, In g l -> attr_type g = KType t -> wf t) ->
  pr_main (askElement objHash load) d = Some true.
Proof.
  intros objHash load l d Hl He Hw. unfold pr_main.
  assert (P : forall ns l d, (forall k, In k ns -> k <= 3) -> eruns objHash load [] l d -> (forall g t, In g l -> attr_type g = KType t -> wf t) ->
    pr_nones (askElement objHash load) ns d = Some true).
  { clear l d He Hw. induction ns as [|n ns IH]; intros l d Hn He Hw; cbn [pr_nones]; [reflexivity|].
    assert (Hk : n <= 3) by (apply Hn; now left). assert (E : gt_dim (none n) = n) by (apply uchar_small; lia).
    assert (W : wf (none n)) by (split; [rewrite E; lia|apply bit_pos]).
    pose proof (C76_elements objHash load l d (OType (none n)) (none n) He Hw eq_refl W) as C. rewrite E, (Hl n Hk) in C. cbn [gt_none none GT3] in C.
    unfold askElement. destruct (referenceElement objHash load d (OType (none n))) as [d' c] eqn:R. cbn [snd] in C. subst c.
    apply (IH (l ++ [OType (none n)]) d'); [intros k Hk'; apply Hn; now right|eapply eruns_call; [exact He|exact R|discriminate]|].
    intros g t Hg A. apply in_app_or in Hg. destruct Hg as [Hg|[<-|[]]]; [eauto|]. cbn in A. injection A as <-. exact W. }
  assert (Q : forall ts l d, (forall t, In t ts -> In t pt_named) -> eruns objHash load [] l d -> (forall g t, In g l -> attr_type g = KType t -> wf t) ->
    pr_elements (askElement objHash load) ts d (pr_nones (askElement objHash load) [0; 1; 2; 3]) = Some true).
  { clear l d He Hw. induction ts as [|t ts IH]; intros l d Hn He Hw; cbn [pr_elements].
    - apply (P _ l); [|exact He|exact Hw]. intros k Hk. cbn in Hk. lia.
    - destruct (named_wf t (Hn t (or_introl eq_refl))) as (N & D & I).
      assert (W : wf t) by (split; [lia|now rewrite bit_pow]).
      pose proof (C76_elements objHash load l d (OType t) t He Hw eq_refl W) as C. rewrite (Hl (gt_dim t)), N in C by lia.
      destruct C as (c & e & t' & C1 & C2 & C3 & _). destruct (element_object _ _ _ _ C2 C3) as (r & O & T).
      unfold askElement at 1. destruct (referenceElement objHash load d (OType t)) as [d' x] eqn:R. cbn [snd] in C1. subst x. rewrite O, T. cbn [andThen].
      apply (IH (l ++ [OType t]) d'); [intros u Hu; apply Hn; now right|eapply eruns_call; [exact He|exact R|discriminate]|].
      intros g u Hg A. apply in_app_or in Hg. destruct Hg as [Hg|[<-|[]]]; [eauto|]. cbn in A. injection A as <-. exact W. }
  apply (Q _ l); auto.
Qed.
Print Assumptions C96_elements_main.

(** What test(r) lets through: nothing but the agreement of tuples and methods is looked at, so
    the types, positions and normals of an element may be replaced by any others. *)
Definition py_map {A B} (f : A -> B) (x : Py A) : Py B := py_bind x (fun a => PyReturn (f a)).
Definition pr_mapped (ft : GeometryType -> GeometryType) (fp fn : Vec -> Vec) (r : PyRef) : PyRef :=
  mkPyRef (pr_dimension r) (pr_size r) (fun i c => py_map ft (pr_type r i c)) (fun c => py_map (map ft) (pr_types r c))
    (fun i c => py_map fp (pr_position r i c)) (fun c => py_map (map fp) (pr_positions r c))
    (fun i => py_map fn (pr_normal r i)) (py_map (map fn) (pr_normals r)).
Theorem C96_elements_refuted : forall id dim r ft fp fn, (id < 2 ^ N.of_nat dim)%N -> re_infos id dim = Some r ->
  (forall s t, gt_eqb s t = true -> gt_eqb (ft s) (ft t) = true) ->
  (forall x y, (forall k, k < dim -> x k = y k) -> forall k, k < dim -> fp x k = fp y k /\ fn x k = fn y k) ->
  pr_test (pr_mapped ft fp fn (pyRef id dim r)) = Some true.
Proof.
  intros id dim r ft fp fn Hid Hr Ht Hp. pose proof (proj1 (C96_elements_verdict _) (C96_elements_library id dim r Hid Hr)) as [H1 H2].
  assert (M : forall A (eqb : A -> A -> bool) f tuple size get, (forall x y, eqb x y = true -> eqb (f x) (f y) = true) ->
    agrees eqb tuple size get -> agrees eqb (py_map (map f) tuple) size (fun i => py_map f (get i))).
  { intros A eqb f tuple sz get Hf (l & E1 & E2 & E3). exists (map f l). split; [unfold py_map; now rewrite E1|].
    split; [now rewrite map_length|]. intros i a Ha. rewrite nth_error_map in Ha. destruct (nth_error l i) as [x|] eqn:X; [|discriminate].
    injection Ha as <-. destruct (E3 i x X) as (b & B1 & B2). exists (f b). unfold py_map. rewrite B1. split; [reflexivity|now apply Hf]. }
  cbn [pyRef pr_dimension pr_types pr_size pr_type pr_positions pr_position pr_normals pr_normal] in H1, H2.
  apply C96_elements_verdict. cbn [pr_mapped pyRef pr_dimension pr_types pr_size pr_type pr_positions pr_position pr_normals pr_normal].
  split; [intros c Hc; split|intros P].
  - apply (M _ gt_eqb ft _ _ (fun i => py_type dim r i (Z.of_nat c))); [exact Ht|now apply H1].
  - apply (M _ (vec_eqb dim) fp _ _ (fun i => py_position id dim r i (Z.of_nat c))); [|now apply H1].
    intros x y E. apply vec_eqb_true. rewrite vec_eqb_true in E. intros k Hk. now apply Hp.
  - apply M; [|now apply H2]. intros x y E. apply vec_eqb_true. rewrite vec_eqb_true in E. intros k Hk. now apply Hp.
Qed.
Print Assumptions C96_elements_refuted.

(** ** test_quad.py *)
Local Open Scope R_scope.
(** The table of the program has the integrals of the sums of the powers. *)
Theorem C96_results : forall p s x, qy_result p s = Some x ->
  x = Iint (topo_of (gt_id (qy_type s)) (gt_dim (qy_type s))) (fun y => sum_n (fun k => y k ^ p) (gt_dim (qy_type s) - 1)).
Proof.
  intros p s x H. rewrite (qy_result_integral p s x H). unfold shapeTopo. apply Iint_ext. intros y.
  unfold qy_monomial. destruct s; cbn; rewrite ?sum_Sn, ?sum_O; unfold plus; cbn; ring.
Qed.
Print Assumptions C96_results.
(** The sum over the arrays of get() is the sum over the points, so the first assertion holds
    for all rules. *)
Theorem C96_arrays : forall d p pts, (0 < d)%nat -> pts <> [] -> qy_value2 d p pts = Some (qy_value1 d p pts).
Proof. intros d p pts Hd Hp. rewrite qy_value1_quad. now apply qy_value2_some. Qed.
Print Assumptions C96_arrays.

Lemma check_same p s r : qy_check p s r r = Some true <-> ru_points r <> []
  /\ forall x, qy_result p s = Some x -> Rabs (x - quad (ru_points r) (qy_monomial (gt_dim (qy_type s)) p)) < 1 / IZR (10 ^ 12).
Proof.
  unfold qy_check. pose proof (shape_dim s) as D. destruct (ru_points r) as [|q pts] eqn:E.
  - assert (N : qy_value2 (gt_dim (qy_type s)) p [] = None) by (apply qy_value2_none; now right). rewrite N. split; [discriminate|tauto].
  - rewrite qy_value2_some by (try discriminate; lia). rewrite qy_value1_quad, Rminus_diag_eq, Rabs_R0 by reflexivity.
    assert (P : Rltb 0 (1 / IZR (10 ^ 14)) = true).
    { unfold Rltb. destruct (Rlt_dec 0 (1 / IZR (10 ^ 14))) as [|N]; [reflexivity|]. elim N. apply Rdiv_lt_0_compat; [lra|]. apply IZR_lt. reflexivity. }
    rewrite P. destruct (qy_result p s) as [x|].
    + unfold Rltb. destruct (Rlt_dec _ _) as [L|L].
      * split; [intros _; split; [discriminate|]; intros y H; injection H as <-; exact L|reflexivity].
      * split; [discriminate|]. intros [_ H]. elim L. now apply H.
    + split; [intros _; split; discriminate|reflexivity].
Qed.
(** The program over any function from types and orders to rules: the rules exist, have points
    and give 17 of the 21 sums up to 1e-12. *)
Theorem C96_rules_verdict : forall src : GeometryType -> Z -> Call Rule,
  qy_main (fun (s : unit) t p => (s, src t p)) tt = Some true <->
  forall p s, (p = 0 \/ p = 3 \/ p = 4)%nat -> exists r, src (qy_type s) (Z.of_nat p) = Ret r /\ ru_points r <> []
    /\ forall x, qy_result p s = Some x -> Rabs (x - quad (ru_points r) (qy_monomial (gt_dim (qy_type s)) p)) < 1 / IZR (10 ^ 12).
Proof.
  intros src. unfold qy_main. set (ask := fun (s : unit) t p => (s, src t p)).
  assert (L : forall l, qy_loop ask l tt = Some true <-> forall p s, In (p, s) l -> exists r, src (qy_type s) (Z.of_nat p) = Ret r /\ ru_points r <> []
    /\ forall x, qy_result p s = Some x -> Rabs (x - quad (ru_points r) (qy_monomial (gt_dim (qy_type s)) p)) < 1 / IZR (10 ^ 12)).
  { induction l as [|[p s] l IH]; cbn [qy_loop]; [split; [intros _ p s []|reflexivity]|].
    unfold qy_ask, ask at 1. destruct (src (qy_type s) (Z.of_nat p)) as [r|e|] eqn:A.
    - unfold ask at 1. rewrite A, andThen_true, check_same, IH. split.
      + intros [H1 H2] p' s' [E|I]; [injection E as <- <-; exists r; tauto|auto].
      + intros H. split; [|intros p' s' I; apply H; now right]. destruct (H p s (or_introl eq_refl)) as (r' & B & C). rewrite A in B. injection B as <-. exact C.
    - split; [discriminate|]. intros H. destruct (H p s (or_introl eq_refl)) as (r' & B & C). congruence.
    - split; [discriminate|]. intros H. destruct (H p s (or_introl eq_refl)) as (r' & B & C). congruence. }
  rewrite L. split; intros H p s I; apply H.
  - apply in_prod; [cbn; lia|destruct s; cbn; tauto].
  - apply in_prod_iff in I. destruct I as [I _]. cbn in I. lia.
Qed.
Print Assumptions C96_rules_verdict.

(** The rules of the library pass in every state that calls of quadratureRule can leave, if the
    eigenvalues of LAPACK are accurate up to 1e-14 where they are used. *)
Lemma shape_factory lapack p s : (p = 0 \/ p = 3 \/ p = 4)%nat ->
  inRange (gt_dim (qy_type s)) (qy_type s) (Z.of_nat p) qtLegendre = true
  /\ exists r, factory lapack (gt_dim (qy_type s)) (qy_type s) (Z.of_nat p) qtLegendre = Some r.
Proof.
  intros [ -> | [ -> | -> ] ]; destruct s; (split; [reflexivity|eexists; reflexivity]).
Qed.
Section Library.
Variables (hpair : Z -> Z -> Z) (hnum : Z -> Z) (objHash : nat -> Z) (load : nat -> bool).
Variable lapack : Z -> nat -> option (list (R * R)).
Variable e : R.
Hypothesis Hl : lapackOk e lapack.
Hypothesis He : 5 / IZR (10 ^ 17) <= e <= 1 / IZR (10 ^ 14).
Hypothesis Hload : forall k, (k <= 3)%nat -> load k = true.
Let runsTo := runs hpair hnum objHash load lapack rs_init.
Let ask := askRule hpair hnum objHash load lapack.

Lemma rule_accurate l s p sh : (p = 0 \/ p = 3 \/ p = 4)%nat -> runsTo l s ->
  exists l' s' y r, ask s (qy_type sh) (Z.of_nat p) = (s', Ret r) /\ runsTo l' s'
    /\ factory lapack (gt_dim (qy_type sh)) (qy_type sh) (Z.of_nat p) qtLegendre = Some y /\ ru_points r = ru_points y /\ ru_points r <> []
    /\ Rabs (Iint (shapeTopo sh) (qy_monomial (gt_dim (qy_type sh)) p) - quad (ru_points r) (qy_monomial (gt_dim (qy_type sh)) p)) < 1 / IZR (10 ^ 12).
Proof.
  intros Hp Hs. set (t := qy_type sh). set (d := gt_dim t). pose proof (shape_dim sh) as Hd. fold t d in Hd.
  destruct (shape_factory lapack p sh Hp) as (IR & y & F). fold t d in IR, F.
  assert (Nt : gt_none t = false) by (unfold t; destruct sh; reflexivity).
  assert (Id : (gt_id t < 2 ^ N.of_nat d)%N) by (unfold d, t; destruct sh; vm_compute; reflexivity).
  assert (C : call_rule load lapack (KType t) (OInt (Z.of_nat p)) = Ret y).
  { cbn [call_rule]. fold d. rewrite Hload by lia. cbn [module_rule].
    replace ((Z.of_nat p <? INT_MIN) || (INT_MAX <? Z.of_nat p))%Z with false by (destruct Hp as [ -> | [ -> | -> ] ]; reflexivity).
    fold d. rewrite Nat.eqb_refl. cbn [negb]. rewrite IR. cbn [negb]. now rewrite F. }
  pose proof (C76_transparent hpair hnum objHash load lapack l s (OType t) t (Z.of_nat p) Hs eq_refl Nt) as T. rewrite C in T.
  destruct (quadratureRule hpair hnum objHash load lapack s (OType t) (OInt (Z.of_nat p))) as [s' v] eqn:Q. cbn [snd] in T.
  destruct v as [v| |]; [|contradiction|contradiction]. destruct T as (_ & T & _).
  exists (l ++ [(OType t, OInt (Z.of_nat p))]), s', y, (snd v). split; [unfold ask, askRule; now rewrite Q|].
  split; [eapply runs_call; [exact Hs|exact Q|discriminate]|]. split; [exact F|]. split; [exact T|].
  pose proof (C76_not_empty _ _ _ _ _ _ _ (OType t) t _ _ _ Hs eq_refl Nt Q) as NE. split; [exact NE|].
  assert (TE : tableErr (Z.of_nat p) qtLegendre <= e).
  { destruct Hp as [ -> | [ -> | -> ] ]; exact (proj1 He). }
  assert (PD : pdegree_le d (pyPoly d p) (Z.to_nat (Z.of_nat p))).
  { rewrite Nat2Z.id. intros c e0 I. unfold pyPoly in I. apply in_map_iff in I. destruct I as (k & E & I). injection E as <- <-. apply in_seq in I.
    destruct (powE_in d k p ltac:(lia)) as [E _]. now rewrite E. }
  destruct (C76_exact hpair hnum objHash load lapack e l s (OType t) t (Z.of_nat p) s' v (pyPoly d p) 1 Hl TE Hs eq_refl Nt ltac:(fold d; lia) Id Q PD) as (x & X1 & X2).
  fold d in X1, X2. rewrite C76_integrate in X1 by first [exact NE | lia | apply peval_local | (intros ? ? _; reflexivity)]. injection X1 as <-.
  rewrite (quad_ext _ _ (qy_monomial d p)) in X2 by (intros z; rewrite qy_monomial_poly; ring).
  rewrite (IintW_ext _ _ _ (qy_monomial d p)) in X2 by (intros z; symmetry; apply qy_monomial_poly).
  rewrite IintW_Iint, Rmult_1_l, Rabs_R1, Rmult_1_l in X2. rewrite Rabs_minus_sym. eapply Rle_lt_trans; [exact X2|].
  assert (PN : pnorm (pyPoly d p) = INR d).
  { unfold pyPoly. assert (G : forall k n, pnorm (map (fun j => (1, powE j p)) (seq k n)) = INR n).
    { intros k n. revert k. induction n as [|n IH]; intros k; cbn [seq map pnorm]; [reflexivity|]. rewrite IH, Rabs_R1, S_INR. ring. }
    apply G. }
  rewrite PN. unfold errD. rewrite pow1. destruct He as [He1 He2].
  assert (T14 : 1 / IZR (10 ^ 14) = / 100000000000000) by (change (10 ^ 14)%Z with 100000000000000%Z; field).
  assert (T12 : 1 / IZR (10 ^ 12) = / 1000000000000) by (change (10 ^ 12)%Z with 1000000000000%Z; field).
  assert (T17 : 0 < 5 / IZR (10 ^ 17)) by (apply Rdiv_lt_0_compat; [lra|apply IZR_lt; reflexivity]).
  rewrite T12. rewrite T14 in He2. assert (P0 : 0 <= e) by lra.
  assert (K : (1 + e) ^ d - 1 <= 7 * e).
  { assert (e <= 1) by lra. destruct d as [|[|[|[|d']]]]; [lia|simpl; lra|simpl; nra|simpl; nra|lia]. }
  assert (D3 : INR d <= 3) by (change 3 with (IZR 3); rewrite INR_IZR_INZ; apply IZR_le; lia).
  assert (D0 : 0 <= INR d) by apply pos_INR.
  assert (K0 : 0 <= (1 + e) ^ d - 1) by (pose proof (pow_R1_Rle (1 + e) d ltac:(lra)); lra). nra.
Qed.

Theorem C96_rules_library : forall l s, runsTo l s -> qy_main ask s = Some true.
Proof.
  intros l s Hs. unfold qy_main.
  assert (G : forall m l s, (forall p sh, In (p, sh) m -> (p = 0 \/ p = 3 \/ p = 4)%nat) -> runsTo l s -> qy_loop ask m s = Some true).
  { clear l s Hs. induction m as [|[p sh] m IH]; intros l s Hm Hs; [reflexivity|]. cbn [qy_loop]. unfold qy_ask.
    pose proof (Hm p sh (or_introl eq_refl)) as Hp.
    destruct (rule_accurate l s p sh Hp Hs) as (l1 & s1 & y & r1 & A1 & R1 & F1 & E1 & N1 & B1). rewrite A1.
    destruct (rule_accurate l1 s1 p sh Hp R1) as (l2 & s2 & y' & r2 & A2 & R2 & F2 & E2 & N2 & B2). rewrite A2.
    assert (y' = y) by congruence. subst y'. apply andThen_true. split; [|apply (IH l2); [intros p' sh' I; apply (Hm p' sh'); now right|exact R2]].
    assert (X : qy_check p sh r1 r2 = qy_check p sh r1 r1) by (unfold qy_check; now rewrite E1, E2). rewrite X.
    apply check_same. split; [exact N1|]. intros x Hx. rewrite (qy_result_integral p sh x Hx). exact B1. }
  apply (G _ l); [|exact Hs]. intros p sh I. apply in_prod_iff in I. destruct I as [I _]. cbn in I. lia.
Qed.
End Library.
Print Assumptions C96_rules_library.

(** What the program lets through: one number is asked for per rule.  Rules of one point in a
    corner of the element pass, of which those of order 3 and 4 do not integrate the constants. *)
Definition oneCorner (w : R) : Rule := mkRule line 0 [(fun k => if Nat.eqb k 0 then 1 else 0, w)].
Lemma oneCorner_sum d p w : (0 < d)%nat -> quad (ru_points (oneCorner w)) (qy_monomial d p) = w * (if Nat.eqb p 0 then INR d else 1).
Proof.
  intros Hd. cbn [oneCorner ru_points quad fst snd]. unfold qy_monomial. rewrite (fold_sum (fun i => (if Nat.eqb i 0 then 1 else 0) ^ p)).
  destruct d as [|d]; [lia|]. cbn [seq fold_right]. change (Nat.eqb 0 0) with true. cbv iota. rewrite pow1.
  assert (G : forall k n, (0 < k)%nat -> fold_right (fun i t => (if Nat.eqb i 0 then 1 else 0) ^ p + t) 0 (seq k n) = if Nat.eqb p 0 then INR n else 0).
  { intros k n. revert k. induction n as [|n IH]; intros k Hk; cbn [seq fold_right]; [destruct (Nat.eqb p 0); reflexivity|].
    rewrite IH by lia. destruct (Nat.eqb_spec k 0); [lia|]. destruct (Nat.eqb_spec p 0) as [->|N]; [rewrite S_INR; simpl; ring|].
    rewrite pow_i by lia. ring. }
  rewrite G by lia. destruct (Nat.eqb p 0); [rewrite S_INR|]; ring.
Qed.
Theorem C96_rules_refuted : exists src, qy_main (fun (s : unit) t p => (s, src t p)) tt = Some true
  /\ (forall s p, (p = 0 \/ p = 3 \/ p = 4)%nat -> exists r, src (qy_type s) (Z.of_nat p) = Ret r
       /\ ((0 < p)%nat -> quad (ru_points r) (fun _ => 1) <> Iint (topo_of (gt_id (qy_type s)) (gt_dim (qy_type s))) (fun _ => 1))).
Proof.
  pose (shape := fun t => if gt_eqb t line then QSLine else if gt_eqb t triangle then QSTriangle else if gt_eqb t quadrilateral then QSQuadrilateral
    else if gt_eqb t tetrahedron then QSTetrahedron else if gt_eqb t pyramid then QSPyramid else if gt_eqb t prism then QSPrism else QSHexahedron).
  assert (SH : forall s, shape (qy_type s) = s) by (intros s; destruct s; reflexivity).
  pose (src := fun t (p : Z) => let s := shape t in Ret (oneCorner (match qy_result (Z.to_nat p) s with
     | Some x => x / (if Nat.eqb (Z.to_nat p) 0 then INR (gt_dim (qy_type s)) else 1) | None => 1 end))).
  exists src. split.
  - apply C96_rules_verdict. intros p s Hp. eexists. split; [reflexivity|]. split; [discriminate|]. intros x Hx. rewrite SH, Nat2Z.id, Hx.
    pose proof (shape_dim s) as D. rewrite oneCorner_sum by lia. replace (x - _) with 0; [rewrite Rabs_R0; apply Rdiv_lt_0_compat; [lra|apply IZR_lt; reflexivity]|].
    destruct (Nat.eqb p 0); field. apply not_0_INR. lia.
  - intros s p Hp. eexists. split; [reflexivity|]. intros P. rewrite SH, Nat2Z.id. cbn [oneCorner ru_points quad fst snd].
    assert (V : Iint (topo_of (gt_id (qy_type s)) (gt_dim (qy_type s))) (fun _ => 1) = match s with QSLine => 1 | QSTriangle => 1 / 2 | QSQuadrilateral => 1
      | QSTetrahedron => 1 / 6 | QSPyramid => 1 / 3 | QSPrism => 1 / 2 | QSHexahedron => 1 end).
    { destruct (shape_dim s) as [D _]. pose proof (qy_result_integral 0 s) as I. unfold shapeTopo in I.
      rewrite (Iint_ext _ (fun _ => 1) (fun x => qy_monomial (gt_dim (qy_type s)) 0 x * / INR (gt_dim (qy_type s)))).
      - rewrite <- IintW_Iint, (IintW_ext _ _ _ (peval (gt_dim (qy_type s)) [(1, fun _ => 0%nat)])).
        + pose proof (IintW_peval 0 (topo_of (gt_id (qy_type s)) (gt_dim (qy_type s))) [(1, fun _ => 0%nat)]) as E. rewrite tdim_topo_of in E. rewrite E.
          destruct s; vm_compute (topo_of _ _); cbn [pmom momW tdim degree Nat.add]; rewrite ?bmom0; cbn [fact Nat.add Nat.mul]; rewrite ?INR_IZR_INZ; cbn; field.
        + intros x. destruct s; cbn; field.
      - intros x. destruct s; cbn; field. }
    rewrite V. destruct Hp as [ -> | [ -> | -> ] ]; [lia| |]; destruct s; cbn [qy_result Nat.eqb]; lra.
Qed.
Print Assumptions C96_rules_refuted.
(** For pyramids and prisms of the orders 3 and 4 nothing but the existence of points is
    checked. *)
Theorem C96_rules_unchecked : forall src rules,
  qy_main (fun (s : unit) t p => (s, src t p)) tt = Some true -> (forall t p, ru_points (rules t p) <> []) ->
  qy_main (fun (s : unit) t p => (s, if (gt_eqb t pyramid || gt_eqb t prism) && (0 <? p)%Z then Ret (rules t p) else src t p)) tt = Some true.
Proof.
  intros src rules H Hr. rewrite (C96_rules_verdict (fun t p => if (gt_eqb t pyramid || gt_eqb t prism) && (0 <? p)%Z then Ret (rules t p) else src t p)).
  rewrite C96_rules_verdict in H. intros p s Hp. destruct ((gt_eqb (qy_type s) pyramid || gt_eqb (qy_type s) prism) && (0 <? Z.of_nat p)%Z) eqn:E; [|now apply H].
  exists (rules (qy_type s) (Z.of_nat p)). split; [reflexivity|]. split; [apply Hr|]. intros x Hx.
  destruct Hp as [ -> | [ -> | -> ] ]; destruct s; cbn in E; discriminate E || discriminate Hx.
Qed.
Print Assumptions C96_rules_unchecked.

Example C96_example :
  pt_main fromString toString 10 = Some true
  /\ pt_main fromString (fun t => lit "cube(" ++ dec (N.of_nat (gt_dim t)) ++ lit ")") 10 = Some false
  /\ pt_main fromString toString 40 = None
  /\ pr_main (askElement (fun _ => 0%Z) (fun _ => true)) [] = Some true
  /\ qy_main (askRule (fun _ _ => 0%Z) (fun _ => 0%Z) (fun _ => 0%Z) (fun _ => true) (fun _ _ => None)) rs_init = Some true.
Proof.
  split; [exact (C96_types_library 10)|]. split; [vm_compute; reflexivity|]. split; [exact (C96_types_library 40)|].
  split; [apply (C96_elements_main _ _ []); [reflexivity|apply eruns_nil|intros g t []]|].
  assert (L : lapackOk (1 / IZR (10 ^ 14)) (fun _ _ => None)) by (intros p a data X; discriminate X).
  apply (C96_rules_library _ _ _ _ _ _ L) with (l := []); [|reflexivity|apply runs_nil].
  split; [|apply Rle_refl]. change (10 ^ 17)%Z with 100000000000000000%Z. change (10 ^ 14)%Z with 100000000000000%Z. lra.
Qed.
