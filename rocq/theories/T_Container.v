(** C60: the container of the reference elements, reference elements as values, and the range
    checks of the Python interface. *)
From Coq Require Import NArith ZArith PeanoNat Bool List Lia.
From Verif Require Import M_Type M_RefTopo M_Container S_Topo P_Type T_RefTopo.
Import ListNotations.

(** ** The constructor *)
Lemma lset_some {A} (l : list A) k a : k < length l ->
  exists l', lset l k a = Some l' /\ length l' = length l /\ nth_error l' k = Some a
             /\ forall j, j <> k -> nth_error l' j = nth_error l j.
Proof.
  revert k. induction l as [|x l IH]; cbn [length]; intros k H; [lia|]. destruct k as [|k]; cbn [lset].
  - exists (a :: l). repeat split. intros [|j] Hj; [lia|reflexivity].
  - destruct (IH k ltac:(lia)) as (l' & -> & L & N & O). exists (x :: l'). cbn [option_map length nth_error].
    repeat split; [lia|exact N|]. intros [|j] Hj; [reflexivity|]. cbn [nth_error]. apply O. lia.
Qed.
Lemma pow_N dim : N.of_nat (2 ^ dim) = (2 ^ N.of_nat dim)%N.
Proof. rewrite Nat2N.inj_pow. reflexivity. Qed.

Definition upto (dim k : nat) (c : Container) : Prop :=
  length (rc_implementations c) = 2 ^ dim /\ length (rc_elements c) = 2 ^ dim
  /\ forall j, j < k -> nth_error (rc_elements c) j = Some (Some j)
               /\ exists r, re_infos (N.of_nat j) dim = Some r /\ nth_error (rc_implementations c) j = Some (Some r).
Lemma rc_step_ok dim k c : k < 2 ^ dim -> upto dim k c -> exists c', rc_step dim k c = Some c' /\ upto dim (S k) c'.
Proof.
  intros Hk (L1 & L2 & U). unfold rc_step.
  assert (B : (N.of_nat k < 2 ^ N.of_nat dim)%N) by (rewrite <- pow_N; lia).
  destruct (N.ltb_spec (N.of_nat k) (numTopologies dim)) as [_|X]; [|unfold numTopologies in X; rewrite bit_pow in X; lia].
  destruct (C10_reference_element_size _ dim B) as (r & E & _). rewrite E. cbn [obind].
  destruct (lset_some (rc_implementations c) k (Some r) ltac:(lia)) as (im & -> & I1 & I2 & I3). cbn [obind].
  destruct (lset_some (rc_elements c) k (Some k) ltac:(lia)) as (el & -> & E1 & E2 & E3). cbn [obind].
  exists (mkContainer im el). split; [reflexivity|]. split; [cbn; lia|]. split; [cbn; lia|]. cbn [rc_implementations rc_elements].
  intros j Hj. destruct (Nat.eq_dec j k) as [->|N].
  - split; [exact E2|]. exists r. split; [exact E|exact I2].
  - rewrite E3, I3 by assumption. apply U. lia.
Qed.
Lemma rc_loop_ok dim count : forall from c, from + count <= 2 ^ dim -> upto dim from c ->
  exists c', rc_loop dim count from c = Some c' /\ upto dim (from + count) c'.
Proof.
  induction count as [|k IH]; intros from c H U; cbn [rc_loop].
  - exists c. rewrite Nat.add_0_r. split; [reflexivity|exact U].
  - destruct (rc_step_ok dim from c ltac:(lia) U) as (c1 & -> & U1). cbn [obind].
    destruct (IH (S from) c1 ltac:(lia) U1) as (c2 & E & U2). exists c2. split; [exact E|].
    replace (from + S k) with (S from + k) by lia. exact U2.
Qed.
Lemma container_ok dim : exists c, container dim = Some c /\ upto dim (2 ^ dim) c.
Proof.
  unfold container, rc_numTopologies. apply (rc_loop_ok dim (2 ^ dim) 0); [lia|].
  split; [apply repeat_length|]. split; [apply repeat_length|]. intros; lia.
Qed.

(** The construction succeeds in every dimension: every entry of both arrays is set, and entry
    [k] of the elements refers to the implementation that was initialised with topology [k]. *)
Theorem C60_construction : forall dim, exists c, container dim = Some c
  /\ length (rc_range c) = 2 ^ dim
  /\ forall k, k < 2 ^ dim -> exists r, re_infos (N.of_nat k) dim = Some r
       /\ nth_error (rc_range c) k = Some (Some k) /\ impl c (Some k) = Some r.
Proof.
  intros dim. destruct (container_ok dim) as (c & E & L1 & L2 & U). exists c. split; [exact E|]. split; [exact L2|].
  intros k Hk. destruct (U k Hk) as (U1 & r & U2 & U3). exists r. split; [exact U2|]. split; [exact U1|].
  unfold impl. cbn [obind]. now rewrite U3.
Qed.
Print Assumptions C60_construction.

(** For every type of the dimension, general() returns the element of that type: its type() has
    the same dimension and the same topology id. *)
Theorem C60_general : forall dim c t, dim < 256 -> container dim = Some c ->
  gt_dim t = dim -> (gt_id t < 2 ^ N.of_nat dim)%N -> gt_none t = false ->
  exists e r, rc_general dim c t = Some e /\ impl c e = Some r /\ re_infos (gt_id t) dim = Some r /\ el_type c e = Some t.
Proof.
  intros dim c t Hd Hc Ht Hid Hn. destruct (C60_construction dim) as (c' & E & L & U). rewrite Hc in E. injection E as <-.
  assert (K : N.to_nat (gt_id t) < 2 ^ dim) by (rewrite <- pow_N in Hid; lia).
  destruct (U _ K) as (r & R & N & I). rewrite N2Nat.id in R. exists (Some (N.to_nat (gt_id t))), r.
  unfold rc_general. rewrite Ht, Nat.eqb_refl. split; [exact N|]. split; [exact I|]. split; [exact R|].
  unfold el_type. rewrite I. cbn [obind]. rewrite (C12_own_type _ _ _ Hid R). f_equal.
  destruct t as [d n i]. cbn in *. subst. unfold GT2, to_uchar. rewrite Nat.mod_small by exact Hd. reflexivity.
Qed.
Print Assumptions C60_general.

(** Nothing else: a type of another dimension violates the assert, an id that is no topology of
    the dimension is outside of the array. *)
Theorem C60_general_defined : forall dim c t, container dim = Some c ->
  (rc_general dim c t <> None <-> gt_dim t = dim /\ (gt_id t < 2 ^ N.of_nat dim)%N).
Proof.
  intros dim c t Hc. destruct (C60_construction dim) as (c' & E & L & U). rewrite Hc in E. injection E as <-.
  unfold rc_general. destruct (Nat.eqb_spec (gt_dim t) dim) as [D|D].
  - unfold rc_at. fold (rc_range c). rewrite nth_error_Some, L. rewrite <- pow_N. split; [intros; split; [exact D|lia]|intros [_ H]; lia].
  - split; [intros H; now elim H|intros [H _]; contradiction].
Qed.
Print Assumptions C60_general_defined.

(** The range begin()..end() contains every topology of the dimension exactly once. *)
Theorem C60_range : forall dim c, dim < 256 -> container dim = Some c ->
  NoDup (rc_range c) /\
  (forall id, (id < 2 ^ N.of_nat dim)%N -> exists! e, In e (rc_range c) /\ el_type c e = Some (GT2 id dim)) /\
  (forall e, In e (rc_range c) -> exists id, (id < 2 ^ N.of_nat dim)%N /\ el_type c e = Some (GT2 id dim)).
Proof.
  intros dim c Hd Hc. destruct (C60_construction dim) as (c' & E & L & U). rewrite Hc in E. injection E as <-.
  assert (T : forall k, k < 2 ^ dim -> el_type c (Some k) = Some (GT2 (N.of_nat k) dim)).
  { intros k Hk. destruct (U k Hk) as (r & R & _ & I). unfold el_type. rewrite I. cbn [obind].
    apply (C12_own_type _ _ _); [rewrite <- pow_N; lia|exact R]. }
  assert (Ins : forall e, In e (rc_range c) -> exists k, k < 2 ^ dim /\ e = Some k).
  { intros e I. apply In_nth_error in I. destruct I as (k & I).
    assert (Hk : k < 2 ^ dim) by (rewrite <- L; apply nth_error_Some; congruence).
    exists k. split; [exact Hk|]. destruct (U k Hk) as (_ & _ & N & _). congruence. }
  split; [|split].
  - apply NoDup_nth_error. intros i j Hi Ei. rewrite L in Hi. destruct (U i Hi) as (_ & _ & N & _). rewrite N in Ei. symmetry in Ei.
    assert (Hj : j < 2 ^ dim) by (rewrite <- L; apply nth_error_Some; congruence).
    destruct (U j Hj) as (_ & _ & N' & _). congruence.
  - intros id Hid. assert (K : N.to_nat id < 2 ^ dim) by (rewrite <- pow_N in Hid; lia). exists (Some (N.to_nat id)). split.
    + split; [|rewrite T by exact K; now rewrite N2Nat.id]. destruct (U _ K) as (_ & _ & N & _). now apply nth_error_In in N.
    + intros e [I Te]. destruct (Ins e I) as (k & Hk & ->). rewrite T in Te by exact Hk. injection Te as Te. f_equal. lia.
  - intros e I. destruct (Ins e I) as (k & Hk & ->). exists (N.of_nat k). split; [rewrite <- pow_N; lia|now apply T].
Qed.
Print Assumptions C60_range.

(** simplex() and cube() in all dimensions, pyramid() and prism() in dimension 3. *)
Theorem C60_named : forall dim c, dim < 256 -> container dim = Some c ->
  rc_simplex dim c = rc_general dim c (simplex dim) /\ rc_simplex dim c <> None
  /\ rc_cube dim c = rc_general dim c (cube dim) /\ rc_cube dim c <> None
  /\ (dim = 3 -> rc_pyramid c = rc_general 3 c pyramid /\ rc_pyramid c <> None /\ rc_prism c = rc_general 3 c prism /\ rc_prism c <> None).
Proof.
  intros dim c Hd Hc.
  assert (P : (0 < 2 ^ N.of_nat dim)%N) by (apply N.neq_0_lt_0, N.pow_nonzero; lia).
  assert (Es : rc_simplex dim c = rc_general dim c (simplex dim)).
  { unfold rc_simplex, rc_general. cbn [simplex GT3 gt_dim]. unfold to_uchar. rewrite Nat.mod_small, Nat.eqb_refl by exact Hd. reflexivity. }
  assert (Ec : rc_cube dim c = rc_general dim c (cube dim)).
  { unfold rc_cube, rc_general. cbn [cube GT3 gt_dim]. unfold to_uchar. rewrite Nat.mod_small, Nat.eqb_refl by exact Hd. reflexivity. }
  split; [exact Es|]. split; [rewrite Es; apply (C60_general_defined dim c _ Hc); cbn [simplex GT3 gt_dim gt_id]; unfold to_uchar; rewrite Nat.mod_small by exact Hd; auto|].
  split; [exact Ec|]. split.
  - rewrite Ec. apply (C60_general_defined dim c _ Hc). cbn [cube GT3 gt_dim gt_id]. unfold to_uchar. rewrite Nat.mod_small by exact Hd.
    split; [reflexivity|]. rewrite bit_pow. destruct (1 <? dim); [lia|exact P].
  - intros ->. split; [reflexivity|]. split; [apply (C60_general_defined 3 c pyramid Hc); split; reflexivity|].
    split; [reflexivity|]. apply (C60_general_defined 3 c prism Hc); split; reflexivity.
Qed.
Print Assumptions C60_named.

(** ** Comparison *)
(** == is an equivalence relation on reference elements, and two elements of the container are
    equal exactly if they belong to the same topology id. *)
Theorem C60_comparison : forall dim c t u e f, container dim = Some c ->
  rc_general dim c t = Some e -> rc_general dim c u = Some f ->
  (el_eqb e f = true <-> gt_id t = gt_id u) /\ (el_eqb e f = true <-> e = f).
Proof.
  intros dim c t u e f Hc He Hf. destruct (C60_construction dim) as (c' & E & L & U). rewrite Hc in E. injection E as <-.
  assert (G : forall t e, rc_general dim c t = Some e -> e = Some (N.to_nat (gt_id t))).
  { intros t0 e0 H. assert (D : rc_general dim c t0 <> None) by congruence. apply (C60_general_defined dim c t0 Hc) in D.
    destruct D as [D1 D2]. unfold rc_general in H. rewrite D1, Nat.eqb_refl in H. unfold rc_at in H. fold (rc_range c) in H.
    destruct (U (N.to_nat (gt_id t0))) as (_ & _ & N & _); [rewrite <- pow_N in D2; lia|]. congruence. }
  rewrite (G _ _ He), (G _ _ Hf). cbn [el_eqb]. rewrite Nat.eqb_eq. split; [|split; congruence]. split; [|congruence].
  intros H. apply N2Nat.inj. exact H.
Qed.
Print Assumptions C60_comparison.

(** Hash values agree with ==. *)
Theorem C60_hash : forall base e f, el_eqb e f = true -> el_hash base e = el_hash base f.
Proof. intros base [x|] [y|] H; cbn in *; try discriminate; [apply Nat.eqb_eq in H; now subst|reflexivity]. Qed.
Print Assumptions C60_hash.

(** Equal geometry types do not always have equal reference elements: in every dimension
    above 0 each type has two ids (the lowest bit does not matter for ==), with two entries in
    the container. *)
Theorem C60_equal_types_refuted : forall dim c, 1 <= dim < 256 -> container dim = Some c ->
  exists t u e f, gt_eqb t u = true /\ rc_general dim c t = Some e /\ rc_general dim c u = Some f /\ el_eqb e f = false.
Proof.
  intros dim c Hd Hc. set (t := mkGT dim false 0). set (u := mkGT dim false 1).
  assert (Ht : rc_general dim c t <> None).
  { apply (C60_general_defined dim c t Hc). split; [reflexivity|]. cbn. apply N.neq_0_lt_0, N.pow_nonzero. lia. }
  assert (Hu : rc_general dim c u <> None).
  { apply (C60_general_defined dim c u Hc). split; [reflexivity|]. cbn. apply (N.pow_gt_1 2 (N.of_nat dim)); lia. }
  destruct (rc_general dim c t) as [e|] eqn:Ee; [|congruence]. destruct (rc_general dim c u) as [f|] eqn:Ef; [|congruence].
  exists t, u, e, f. split; [unfold gt_eqb; cbn; now rewrite Nat.eqb_refl|]. repeat split; try assumption.
  destruct (el_eqb e f) eqn:X; [|reflexivity]. apply (proj1 (C60_comparison dim c t u e f Hc Ee Ef)) in X. subst t u. discriminate.
Qed.
Print Assumptions C60_equal_types_refuted.

(** general() does not look at the none flag: a none type gets the simplex, whose type() differs. *)
Theorem C60_none_refuted : forall dim c, dim < 256 -> container dim = Some c ->
  exists e t, rc_general dim c (none dim) = Some e /\ rc_simplex dim c = Some e /\ el_type c e = Some t /\ gt_eqb t (none dim) = false.
Proof.
  intros dim c Hd Hc. destruct (C60_general dim c (simplex dim) Hd Hc) as (e & r & G & _ & _ & T).
  - cbn [simplex GT3 gt_dim]. unfold to_uchar. now apply Nat.mod_small.
  - cbn. apply N.neq_0_lt_0, N.pow_nonzero. lia.
  - reflexivity.
  - exists e, (simplex dim). split; [exact G|]. split; [|split; [exact T|reflexivity]].
    rewrite (proj1 (C60_named dim c Hd Hc)). exact G.
Qed.
Print Assumptions C60_none_refuted.

(** ** Python *)
Lemma py_all_ok {A} (f : Z -> Py A) (l : list A) : forall from, (forall k, k < length l -> exists a, nth_error l k = Some a /\ f (from + Z.of_nat k)%Z = PyReturn a) ->
  py_all f (length l) from = PyReturn l.
Proof.
  induction l as [|x l IH]; intros from H; [reflexivity|]. cbn [length py_all].
  destruct (H 0 ltac:(cbn; lia)) as (a & E & F). cbn in E. injection E as <-. rewrite Z.add_0_r in F. rewrite F. cbn [py_bind].
  rewrite IH; [reflexivity|]. intros k Hk. destruct (H (S k) ltac:(cbn; lia)) as (a & E & F'). exists a. split; [exact E|].
  rewrite <- F'. f_equal. lia.
Qed.

(** The checks in front of every call are exactly its preconditions: the answer is the one of
    the C++ function or a ValueError, never an access outside of the tables. *)
Theorem C60_python : forall id dim r, (id < 2 ^ N.of_nat dim)%N -> re_infos id dim = Some r ->
  (forall c, py_size dim r c = if (0 <=? c)%Z && (c <=? Z.of_nat dim)%Z then PyReturn (re_size r (Z.to_nat c)) else PyValueError)
  /\ (forall i c, match py_type dim r i c with
        | PyUndefined => False
        | PyReturn t => (0 <= c <= Z.of_nat dim)%Z /\ (0 <= i < Z.of_nat (re_size r (Z.to_nat c)))%Z /\ re_type r (Z.to_nat i) (Z.to_nat c) = Some t
        | PyValueError => ~ ((0 <= c <= Z.of_nat dim)%Z /\ (0 <= i < Z.of_nat (re_size r (Z.to_nat c)))%Z) end)
  /\ (forall i c ii cc, match py_subEntity dim r i c ii cc with
        | PyUndefined => False
        | PyReturn k => (0 <= ii)%Z /\ exists l, re_subEntities r (Z.to_nat i) (Z.to_nat c) (Z.to_nat cc) = Some l
             /\ nth_error l (Z.to_nat ii) = Some k /\ py_subEntities dim r i c cc = PyReturn l
        | PyValueError => ~ ((0 <= c <= cc)%Z /\ (cc <= Z.of_nat dim)%Z /\ (0 <= i < Z.of_nat (re_size r (Z.to_nat c)))%Z
             /\ (0 <= ii)%Z /\ exists n, re_size3 r (Z.to_nat i) (Z.to_nat c) (Z.to_nat cc) = Some n /\ (ii < Z.of_nat n)%Z) end).
Proof.
  intros id dim r Hid Hr.
  assert (S1 : forall c, py_size dim r c = if (0 <=? c)%Z && (c <=? Z.of_nat dim)%Z then PyReturn (re_size r (Z.to_nat c)) else PyValueError).
  { intros c. unfold py_size. destruct (Z.ltb_spec c 0), (Z.leb_spec 0 c); try lia; cbn [orb andb]; [reflexivity|].
    destruct (Z.ltb_spec (Z.of_nat dim) c), (Z.leb_spec c (Z.of_nat dim)); try lia; reflexivity. }
  split; [exact S1|]. split.
  - intros i c. unfold py_type. rewrite S1. destruct (Z.leb_spec 0 c) as [H1|H1]; cbn [andb py_bind]; [|lia].
    destruct (Z.leb_spec c (Z.of_nat dim)) as [H2|H2]; cbn [py_bind]; [|lia].
    destruct (Z.ltb_spec i 0) as [H3|H3]; cbn [orb]; [lia|]. destruct (Z.leb_spec (Z.of_nat (re_size r (Z.to_nat c))) i) as [H4|H4]; [lia|].
    assert (X : exists t, re_type r (Z.to_nat i) (Z.to_nat c) = Some t).
    { unfold re_type, re_info. destruct (nth_error (nth (Z.to_nat c) r []) (Z.to_nat i)) eqn:E; [eexists; reflexivity|].
      apply nth_error_None in E. unfold re_size in H4. lia. }
    destruct X as (t & ->). cbn [py_of]. repeat split; lia.
  - intros i c ii cc. unfold py_subEntity, py_subEntities, py_size3. rewrite S1. destruct (Z.leb_spec 0 c) as [H1|H1]; cbn [andb py_bind]; [|lia].
    destruct (Z.leb_spec c (Z.of_nat dim)) as [H2|H2]; cbn [py_bind]; [|lia].
    destruct (Z.ltb_spec i 0) as [H3|H3]; cbn [orb py_bind]; [lia|].
    destruct (Z.leb_spec (Z.of_nat (re_size r (Z.to_nat c))) i) as [H4|H4]; cbn [py_bind]; [lia|].
    destruct (Z.ltb_spec cc c) as [H5|H5]; cbn [orb py_bind]; [lia|]. destruct (Z.ltb_spec (Z.of_nat dim) cc) as [H6|H6]; cbn [py_bind]; [lia|].
    destruct (C13_subEntities_increasing id dim r (Z.to_nat i) (Z.to_nat c) (Z.to_nat cc) Hid Hr ltac:(lia) ltac:(lia) ltac:(lia))
      as (l & A & B & _ & _ & D & _). rewrite B. cbn [py_of py_bind].
    destruct (Z.ltb_spec ii 0) as [H7|H7]; cbn [orb]; [lia|].
    destruct (Z.leb_spec (Z.of_nat (length l)) ii) as [H8|H8].
    { intros (_ & _ & _ & _ & n & E & F). injection E as <-. lia. }
    rewrite (D (Z.to_nat ii)) by lia. destruct (nth_error l (Z.to_nat ii)) as [k|] eqn:E; [|apply nth_error_None in E; lia].
    cbn [py_of]. split; [lia|]. exists l. split; [exact A|]. split; [exact E|]. apply py_all_ok. intros m Hm.
    destruct (nth_error l m) as [a|] eqn:Em; [|apply nth_error_None in Em; lia]. exists a. split; [reflexivity|].
    rewrite Z.add_0_l, Nat2Z.id, D by exact Hm. now rewrite Em.
Qed.
Print Assumptions C60_python.

(** Python's general(): None for none types, else the element of the type. *)
Theorem C60_python_general : forall dim c t, dim < 256 -> container dim = Some c ->
  gt_dim t = dim -> (gt_id t < 2 ^ N.of_nat dim)%N ->
  (gt_none t = true -> py_general dim c t = Some None)
  /\ (gt_none t = false -> exists e, py_general dim c t = Some (Some e) /\ el_type c e = Some t).
Proof.
  intros dim c t Hd Hc Ht Hid. unfold py_general. split; intros Hn; rewrite Hn; [reflexivity|].
  destruct (C60_general dim c t Hd Hc Ht Hid Hn) as (e & r & G & _ & _ & T). rewrite G. exists e. split; [reflexivity|exact T].
Qed.
Print Assumptions C60_python_general.

Example C60_example :
  match container 2 with
  | Some c =>
      length (rc_range c) = 4 /\ rc_general 2 c quadrilateral = Some (Some 3) /\ el_type c (Some 3) = Some (GT2 3 2)
      /\ el_size c (Some 3) 2 = Some 4 /\ el_size c (Some 1) 2 = Some 3
      /\ rc_prism c = None /\ el_type c None = None
      /\ (match impl c (Some 2) with Some r => py_subEntity 2 r 1 1 1 2 = PyReturn 3 /\ py_subEntity 2 r 4 1 0 2 = PyValueError
                                              /\ py_size 2 r (-1) = PyValueError | None => False end)
  | None => False
  end.
Proof. vm_compute. repeat split. Qed.
