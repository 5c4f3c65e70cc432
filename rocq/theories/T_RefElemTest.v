(** C84: what the test program of the reference elements (test-referenceelements.cc) checks. *)
From Coq Require Import NArith ZArith PeanoNat Bool List Lia Sorted.
From Verif Require Import M_Type M_TypeIndex M_RefTopo P_Type P_Type2 S_Topo P_Topo P_RefTopo P_RefTopo2 P_RefTopo3 M_Container M_RefElemTest T_RefTopo P_RefElemTest.
Import ListNotations.

(** checkSubEntities returns 0 for exactly the tables that satisfy: for every subentity (i,codim) and
    every codimension c, the range subEntities(i,codim,c) has size(i,codim,c) entries - none for
    c < codim, one for c = codim, at least two for c > codim -, subEntity agrees with the range, every
    entry is a number of a subentity, and contains(k) holds for exactly the entries of the range. *)
Theorem C84_accepts : forall dim r,
  checkSubEntities dim r = Some 0 <->
  forall codim i c, codim <= dim -> i < re_size r codim -> c <= dim ->
    exists l, re_subEntities r i codim c = Some l /\ re_size3 r i codim c = Some (length l)
      /\ (c < codim -> length l = 0) /\ (c = codim -> length l = 1) /\ (codim < c -> 2 <= length l)
      /\ (forall j v, nth_error l j = Some v -> re_subEntity r i codim j c = Some v)
      /\ (forall k, In k l -> k < re_size r c)
      /\ (forall k, k < re_size r c -> exists b, re_contains r i codim c k = Some b /\ (b = true <-> In k l)).
Proof. exact checkSubEntities_iff. Qed.
Print Assumptions C84_accepts.

(** The reference elements of the library pass in every dimension, for every topology. *)
Theorem C84_library_passes : forall id dim, (id < 2 ^ N.of_nat dim)%N -> dim < 256 ->
  exists r, re_infos id dim = Some r /\ checkSubEntities dim r = Some 0.
Proof.
  intros id dim Hid Hd. destruct (C10_reference_element_size id dim Hid) as (r & Er & _). exists r. split; [exact Er|].
  apply checkSubEntities_iff. intros codim i c H1 H2 H3. now apply library_range_ok with id dim.
Qed.
Print Assumptions C84_library_passes.

(** The program returns 0 for the library. *)
Theorem C84_main_exit : mainExit library = Some 0.
Proof. vm_compute. reflexivity. Qed.
Print Assumptions C84_main_exit.

(** ** What is established by the tables in main *)
Lemma t_size_0 r c n : t_size r c n = Some 0 -> re_size r c = n.
Proof. unfold t_size. intros H. injection H as H. now apply tst0, Nat.eqb_eq in H. Qed.
Lemma t_size3_0 r i c cc n : t_size3 r i c cc n = Some 0 -> re_size3 r i c cc = Some n.
Proof. unfold t_size3. destruct (re_size3 r i c cc) as [s|]; [|discriminate]. cbn [obind]. intros H. injection H as H. apply tst0, Nat.eqb_eq in H. now subst. Qed.
Lemma t_sub_0 r i c ii cc n : t_sub r i c ii cc n = Some 0 -> re_subEntity r i c ii cc = Some n.
Proof. unfold t_sub. destruct (re_subEntity r i c ii cc) as [s|]; [|discriminate]. cbn [obind]. intros H. injection H as H. apply tst0, Nat.eqb_eq in H. now subst. Qed.

Lemma range_empty r codim i c : range_ok r codim i c -> c < codim -> re_subEntities r i codim c = Some [].
Proof. intros (l & E & _ & H & _) L. specialize (H L). destruct l; [assumption|discriminate]. Qed.
Lemma range_det r codim i c vals : range_ok r codim i c -> re_size3 r i codim c = Some (length vals) ->
  (forall j, j < length vals -> re_subEntity r i codim j c = Some (nth j vals 0)) -> re_subEntities r i codim c = Some vals.
Proof.
  intros (l & E & Es & _ & _ & _ & H & _) Hs Hv. rewrite Es in Hs. injection Hs as Hs. rewrite E. f_equal.
  apply nth_ext with 0 0; [exact Hs|]. intros j Hj. specialize (H j (nth j l 0) (nth_error_nth' l 0 Hj)). rewrite Hv in H by lia. now injection H.
Qed.

Ltac unforall := repeat match goal with H : Forall _ (_ :: _) |- _ => inversion H; clear H; subst end;
  repeat match goal with
  | H : t_size _ _ _ = Some 0 |- _ => apply t_size_0 in H
  | H : t_size3 _ _ _ _ _ = Some 0 |- _ => apply t_size3_0 in H
  | H : t_sub _ _ _ _ _ _ = Some 0 |- _ => apply t_sub_0 in H
  end.
Ltac smallnat k := destruct k as [|[|[|[|k]]]]; try lia.
Ltac onecase G E := match goal with
  | |- _ = ?rhs => let v := eval vm_compute in rhs in change rhs with v;
     first [apply E; lia
           | apply G; [lia|lia|lia|assumption|let j := fresh in let J := fresh in intros j J; cbn [length] in J; smallnat j; cbn [nth]; assumption]]
  end.

(** For the triangle and the quadrilateral the tables determine all numbers: whatever reference
    element passes has the sizes and the ranges of the library. *)
Theorem C84_triangle_determined : forall r r0, library triangle = Some r0 -> testTriangle r = Some 0 ->
  forall codim i c, codim <= 2 -> i < re_size r codim -> c <= 2 ->
    re_size r codim = re_size r0 codim /\ re_subEntities r i codim c = re_subEntities r0 i codim c.
Proof.
  intros r r0 E0 H. vm_compute in E0. injection E0 as <-. unfold testTriangle in H. rewrite osum_0 in H. unforall.
  match goal with H : checkSubEntities 2 r = Some 0 |- _ => pose proof (proj1 (checkSubEntities_iff 2 r) H) as D; clear H end.
  assert (G : forall codim i c vals, codim <= 2 -> i < re_size r codim -> c <= 2 -> re_size3 r i codim c = Some (length vals) ->
     (forall j, j < length vals -> re_subEntity r i codim j c = Some (nth j vals 0)) -> re_subEntities r i codim c = Some vals)
    by (intros; apply range_det; auto).
  assert (E : forall codim i c, codim <= 2 -> i < re_size r codim -> c <= 2 -> c < codim -> re_subEntities r i codim c = Some [])
    by (intros; apply range_empty; auto).
  intros codim i c ? ? ?. split.
  - smallnat codim; assumption.
  - smallnat codim; smallnat i; smallnat c; onecase G E.
Qed.
Print Assumptions C84_triangle_determined.

Theorem C84_quadrilateral_determined : forall r r0, library quadrilateral = Some r0 -> testQuad r = Some 0 ->
  forall codim i c, codim <= 2 -> i < re_size r codim -> c <= 2 ->
    re_size r codim = re_size r0 codim /\ re_subEntities r i codim c = re_subEntities r0 i codim c.
Proof.
  intros r r0 E0 H. vm_compute in E0. injection E0 as <-. unfold testQuad in H. rewrite osum_0 in H. unforall.
  match goal with H : checkSubEntities 2 r = Some 0 |- _ => pose proof (proj1 (checkSubEntities_iff 2 r) H) as D; clear H end.
  assert (G : forall codim i c vals, codim <= 2 -> i < re_size r codim -> c <= 2 -> re_size3 r i codim c = Some (length vals) ->
     (forall j, j < length vals -> re_subEntity r i codim j c = Some (nth j vals 0)) -> re_subEntities r i codim c = Some vals)
    by (intros; apply range_det; auto).
  assert (E : forall codim i c, codim <= 2 -> i < re_size r codim -> c <= 2 -> c < codim -> re_subEntities r i codim c = Some [])
    by (intros; apply range_empty; auto).
  intros codim i c ? ? ?. split.
  - smallnat codim; assumption.
  - smallnat codim; smallnat i; smallnat c; onecase G E.
Qed.
Print Assumptions C84_quadrilateral_determined.

(** ** What is not checked *)

(** The numbers themselves: with every subentity number replaced by 0 (and contains adapted) every
    reference element of the library still passes checkSubEntities. *)
Theorem C84_numbers_unchecked : forall id dim, (id < 2 ^ N.of_nat dim)%N -> dim < 256 ->
  exists r r', re_infos id dim = Some r /\ checkSubEntities dim r' = Some 0
    /\ (forall c, re_size r' c = re_size r c)
    /\ (forall i c, re_type r' i c = re_type r i c)
    /\ (forall i codim c, codim <= dim -> i < re_size r codim -> c <= dim -> re_size3 r' i codim c = re_size3 r i codim c)
    /\ (forall i codim j c v, re_subEntity r' i codim j c = Some v -> v = 0).
Proof.
  intros id dim Hid Hd. destruct (C84_library_passes id dim Hid Hd) as (r & Er & P). rewrite checkSubEntities_iff in P.
  exists r, (zeroNumbers r). split; [exact Er|]. split; [|split; [|split; [|split]]].
  - apply checkSubEntities_iff. intros codim i c H1 H2 H3. rewrite zero_size in H2. apply range_ok_zero; [|auto].
    destruct (C10_reference_element_size id dim Hid) as (r2 & E2 & S2). rewrite Er in E2. injection E2 as <-. rewrite S2 by assumption.
    pose proof (C10_size_positive id dim c H3). lia.
  - intros c. apply zero_size.
  - intros i c. unfold re_type. rewrite zero_info. destruct (re_info r i c); reflexivity.
  - intros i codim c _ _ _. unfold re_size3. rewrite zero_info. destruct (re_info r i codim); reflexivity.
  - intros i codim j c v. unfold re_subEntity. rewrite zero_info. destruct (re_info r i codim) as [s|]; [|discriminate]. cbn [option_map obind].
    unfold info_number, rd. cbn [zeroInfo numbering_ offset_]. rewrite nth_error_map. destruct (nth_error _ _) as [m|]; cbn [option_map]; [|discriminate]. intros H. now injection H.
Qed.
Print Assumptions C84_numbers_unchecked.

(** The claim "whatever passes the program has the numbering of the library" is false: the program
    returns 0 also when all numbers of all elements but triangle and quadrilateral are 0. *)
Theorem C84_main_numbering_refuted : exists general : GeometryType -> option RefElement,
  mainExit general = Some 0 /\ forall t, In t [line; tetrahedron; pyramid; prism; hexahedron] ->
    exists r r0, general t = Some r /\ library t = Some r0
      /\ re_subEntities r 0 0 (gt_dim t) = Some (repeat 0 (re_size r0 (gt_dim t)))
      /\ re_subEntities r0 0 0 (gt_dim t) = Some (seq 0 (re_size r0 (gt_dim t))).
Proof.
  exists (fun t => if (gt_dim t =? 2) then library t else option_map zeroNumbers (library t)). split; [vm_compute; reflexivity|].
  intros t H. repeat (destruct H as [<-|H]); [..|destruct H];
    (eexists; eexists; split; [vm_compute; reflexivity|split; [vm_compute; reflexivity|split; vm_compute; reflexivity]]).
Qed.
Print Assumptions C84_main_numbering_refuted.

(** ** Examples *)

(** a prism in which contains forgets one vertex of a facet: 2 errors (one in
    line 64, one in line 71) *)
Definition forget (s : SubEntityInfo) : SubEntityInfo :=
  mkInfo (offset_ s) (type_ s) (numbering_ s)
    (match containsSubentity_ s with [a; b; c; _ :: d] => [a; b; c; false :: d] | x => x end).
Definition forgetful (r : RefElement) : RefElement :=
  match r with
  | [e0; e1 :: es; e2; e3] => [e0; forget e1 :: es; e2; e3]
  | x => x
  end.
Example C84_ex_prism : exists r, re_infos 5 3 = Some r /\ checkSubEntities 3 r = Some 0
  /\ checkSubEntities 3 (forgetful r) = Some 2.
Proof. eexists. split; [vm_compute; reflexivity|]. split; vm_compute; reflexivity. Qed.

(** a four-dimensional element (prism over a pyramid) *)
Example C84_ex_4d : exists r, re_infos 11 4 = Some r /\ re_size r 4 = 10 /\ re_size3 r 0 1 4 = Some 8 /\ checkSubEntities 4 r = Some 0.
Proof. eexists. split; [vm_compute; reflexivity|]. split; [vm_compute; reflexivity|]. split; vm_compute; reflexivity. Qed.

(** exchanging the elements of two types is noticed *)
Example C84_ex_exchange : obind (library prism) testPyramid = Some 11 /\ obind (library pyramid) testPrism <> Some 0.
Proof. split; vm_compute; [reflexivity|discriminate]. Qed.
