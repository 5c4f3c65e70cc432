(** Comparison of the iterators of refinements: iterators of two refinements of one element
    compare equal exactly if the number of intervals and the position are the same (C46, C48, C51,
    C53), and comparison of vertex order iterators (C45). *)
From Coq Require Import PeanoNat NArith ZArith Bool List Factorial Lia.
From Verif Require Import M_Type M_VertexOrder M_Refine S_Refine S_Refine2 P_Refine1 P_Refine2 P_Refine3 P_Refine6 P_Refine7 P_Refine8 P_Refine9 T_Refine.
Import ListNotations.

Theorem C46_equality : forall dim n n' vs vs' st st', cubeVertices dim n vs -> cubeVertices dim n' vs' -> cubeElements dim n st -> cubeElements dim n' st' ->
  (forall k k', k <= hc_nVertices dim n -> k' <= hc_nVertices dim n' -> (hi_equals (vs k) (vs' k') = true <-> n = n' /\ k = k'))
  /\ (forall k k', k <= hc_nElements dim n -> k' <= hc_nElements dim n' -> (hi_equals (st k) (st' k') = true <-> n = n' /\ k = k')).
Proof.
  intros dim n n' vs vs' st st' V V' S S'.
  split; intros k k' H H';
    [rewrite (hst n _ vs V k H), (hst n' _ vs' V' k' H')|rewrite (hst n _ st S k H), (hst n' _ st' S' k' H')];
    unfold hi_equals, hAt; cbn [hi_index hi_n]; rewrite andb_true_iff, !Nat.eqb_eq; tauto.
Qed.
Print Assumptions C46_equality.

Lemma svAt_equals : forall dim n n' k k', 0 < dim -> (sv_equals dim (svAt dim n k) (svAt dim n' k') = true <-> n = n' /\ k = k').
Proof.
  intros dim n n' k k' Hd. unfold sv_equals, svAt. cbn [sv_size sv_vertex]. rewrite andb_true_iff, Nat.eqb_eq, veq_agree.
  split; intros [-> A]; (split; [reflexivity|]); [|now subst].
  rewrite <- (vseq_index dim k Hd), <- (vseq_index dim k' Hd). unfold pointIndex.
  assert (G : forall l a, (forall i, In i l -> i < dim) ->
    fold_left (fun index i => index + binom (dim - i + vseq dim k i - 1) (dim - i)) l a = fold_left (fun index i => index + binom (dim - i + vseq dim k' i - 1) (dim - i)) l a).
  { induction l as [|x l IH]; intros a Hl; cbn [fold_left]; [reflexivity|]. rewrite (A x (Hl x (or_introl eq_refl))). apply IH. intros i Hi. apply Hl. now right. }
  apply G. intros i Hi. apply in_seq in Hi. lia.
Qed.
Theorem C48_equality : forall dim n n' vs vs', 0 < dim -> simplexVertices dim n vs -> simplexVertices dim n' vs' ->
  forall k k', k <= sx_nVertices dim n -> k' <= sx_nVertices dim n' -> (sv_equals dim (vs k) (vs' k') = true <-> n = n' /\ k = k').
Proof.
  intros dim n n' vs vs' Hd V V' k k' H H'. rewrite (visits_unique _ _ _ _ _ _ V (svertices dim n Hd) k H), (visits_unique _ _ _ _ _ _ V' (svertices dim n' Hd) k' H').
  now apply svAt_equals.
Qed.
Print Assumptions C48_equality.

Theorem C51_equality : forall fuel dim n n' st st', 0 < dim -> 0 < n -> 0 < n' -> fact dim <= fuel -> simplexElements fuel dim n st -> simplexElements fuel dim n' st' ->
  forall k k', k <= n ^ dim -> k' <= n' ^ dim -> (se_equals (st k) (st' k') = true <-> n = n' /\ k = k').
Proof.
  intros fuel dim n n' st st' Hd Hn Hn' F V V' k k' H H'.
  rewrite (visits_unique _ _ _ _ _ _ V (selements fuel dim n Hd Hn F) k H), (visits_unique _ _ _ _ _ _ V' (selements fuel dim n' Hd Hn' F) k' H').
  unfold se_equals, elemAt. cbn [se_size se_index]. now rewrite andb_true_iff, !Nat.eqb_eq.
Qed.
Print Assumptions C51_equality.

Lemma divmod_inj a b c : 0 < c -> a / c = b / c -> a mod c = b mod c -> a = b.
Proof. intros Hc Q R. rewrite (Nat.div_mod a c), (Nat.div_mod b c) by lia. congruence. Qed.
Theorem C53_equality : forall fuel dim t id n n' vs vs' st st', CoarseShape dim t id -> 0 < n -> 0 < n' -> fact dim <= fuel ->
  triangVertices dim t n vs -> triangVertices dim t n' vs' -> triangElements fuel dim t n st -> triangElements fuel dim t n' st' ->
  (forall k k', k <= tr_nVertices dim t n -> k' <= tr_nVertices dim t n' -> (tv_equals dim (vs k) (vs' k') = true <-> n = n' /\ k = k'))
  /\ (forall k k', k <= tr_nElements dim t n -> k' <= tr_nElements dim t n' -> (te_equals (st k) (st' k') = true <-> n = n' /\ k = k')).
Proof.
  intros fuel dim t id n n' vs vs' st st' C Hn Hn' F V V' S S'. pose proof (shape_dim dim t id C) as Hd. split; intros k k' H H'.
  - rewrite (visits_unique _ _ _ _ _ _ V (tvertices dim t n Hd Hn) k H), (visits_unique _ _ _ _ _ _ V' (tvertices dim t n' Hd Hn') k' H').
    unfold tv_equals, tvAt. cbn [tv_kuhn tv_backend]. rewrite andb_true_iff, Nat.eqb_eq, svAt_equals by assumption.
    split; [intros (A & -> & B)|intros [-> ->]; auto]. split; [reflexivity|]. exact (divmod_inj _ _ _ (nvpos dim n' Hd Hn') A B).
  - rewrite (visits_unique _ _ _ _ _ _ S (telements fuel dim t n Hd Hn F) k H), (visits_unique _ _ _ _ _ _ S' (telements fuel dim t n' Hd Hn' F) k' H').
    unfold te_equals, teAt, se_equals, elemAt. cbn [te_kuhn te_backend se_size se_index]. rewrite !andb_true_iff, !Nat.eqb_eq.
    split; [intros (A & -> & B)|intros [-> ->]; auto]. split; [reflexivity|].
    exact (divmod_inj _ _ _ (pow_pos n' dim Hn') A B).
Qed.
Print Assumptions C53_equality.

(** Vertex order iterators: equal exactly if they belong to the same order object and the same
    subentity and stand at the same position; equal iterators deliver the same ranks. *)
Theorem C45_equality : forall a b, (vi_equals a b = true <-> a = b).
Proof.
  intros [a1 a2 a3 a4] [b1 b2 b3 b4]. unfold vi_equals. cbn [vi_addr vi_codim vi_sub vi_vertex]. rewrite !andb_true_iff, !Nat.eqb_eq, Z.eqb_eq.
  split; [intros (((-> & ->) & ->) & ->); reflexivity|]. intros E. injection E as -> -> -> ->. auto.
Qed.
Print Assumptions C45_equality.

Example C51_equality_example :
  se_equals (sx_eBegin 2 3) (sx_eBegin 2 4) = false /\ se_equals (sx_eEnd 2 3) (sx_eEnd 2 3) = true
  /\ vi_equals (mkVIter 1 1 0 0) (mkVIter 1 1 1 0) = false /\ sv_equals 2 (svAt 2 3 4) (svAt 2 3 5) = false.
Proof. vm_compute. repeat split. Qed.
