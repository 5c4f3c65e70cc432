(** C85: the refinements are conforming meshes: where they are and where they are not. *)
From Coq Require Import PeanoNat NArith ZArith Bool List Reals Factorial Lia Lra FunctionalExtensionality Classical.
From Verif Require Import M_Type M_RefTopo M_RefGeo M_Matrix S_Topo S_RefGeo S_Matrix S_MultiLinear P_RSum P_RefGeo2
  P_Det P_RefDet P_MxBridge M_MultiLinear M_Affine
  M_Refine S_Refine S_Refine2 P_Refine1 P_Refine2 P_Refine3 P_Refine4 P_Refine5 P_Refine6 P_Refine7 P_Refine8 P_Refine9 T_Refine S_Conform P_Conform P_Conform2.
Import ListNotations.
Local Open Scope R_scope.

Lemma nth_map_at {A B} : forall (f : A -> B) l j a b, (j < length l)%nat -> nth j (map f l) b = f (nth j l a).
Proof. intros. rewrite (nth_indep _ b (f a)) by (rewrite map_length; assumption). apply map_nth. Qed.
(** any pattern of bits is the binary representation of a number *)
Lemma bits_exist : forall dim (f : nat -> bool), exists j, (j < 2 ^ dim)%nat /\ forall d, (d < dim)%nat -> Nat.testbit j d = f d.
Proof.
  induction dim as [|dim IH]; intros f; [exists 0%nat; split; [cbn; lia|intros; lia]|].
  destruct (IH (fun d => f (S d))) as (j & Hj & B). exists (2 * j + Nat.b2n (f 0%nat))%nat. split.
  - cbn [Nat.pow]. destruct (f 0%nat); cbn [Nat.b2n]; lia.
  - intros [|d] Hd; [apply Nat.testbit_0_r|]. rewrite Nat.testbit_succ_r. apply B. lia.
Qed.
(** what conformity says about point sets: two conforming elements meet in the hull of corners they share *)
Theorem C85_meet : forall m cs cs' X, conform m cs cs' -> in_hull m cs X -> in_hull m cs' X ->
  exists common, in_hull m common X /\ forall c, In c common -> In c cs /\ exists c', In c' cs' /\ agree m c c'.
Proof.
  intros m cs cs' X C (w & W0 & W1 & W2) I.
  assert (K := C X w W0 W1 W2 I). rewrite Ssum_rsum in W1.
  set (L := filter (fun i => if Rlt_dec 0 (w i) then true else false) (seq 0 (length cs))).
  assert (InL : forall l, In l L <-> (l < length cs)%nat /\ 0 < w l).
  { intros l. unfold L. rewrite filter_In, in_seq. destruct (Rlt_dec 0 (w l)); intuition (try lia; try congruence; try lra). }
  assert (S : forall f : nat -> R, rsum (length cs) (fun i => w i * f i) = rsum (length L) (fun j => w (nth j L 0%nat) * f (nth j L 0%nat))).
  { intros f. rewrite (rsum_lsum (length cs) L).
    - apply (lsum_nth (fun i => w i * f i) L 0%nat).
    - apply NoDup_filter, seq_NoDup.
    - intros l J. apply InL in J. lia.
    - intros l Hl J. assert (Z : w l = 0); [|rewrite Z; ring]. specialize (W0 l Hl). destruct (Rlt_dec 0 (w l)); [exfalso; apply J, InL; auto|lra]. }
  exists (map (fun i => nth i cs (fun _ => 0)) L). split.
  - exists (fun j => w (nth j L 0%nat)). rewrite map_length, !Ssum_rsum. repeat apply conj.
    + intros i Hi. pose proof (proj1 (InL _) (nth_In L 0%nat Hi)). lra.
    + transitivity (rsum (length L) (fun j => w (nth j L 0%nat) * 1)); [apply rsum_ext; intros; ring|].
      transitivity (rsum (length cs) (fun i => w i * 1)); [exact (eq_sym (S (fun _ => 1)))|].
      transitivity (rsum (length cs) w); [apply rsum_ext; intros; ring|exact W1].
    + intros k Hk. rewrite W2 by assumption. etransitivity; [exact (S (fun i => nth i cs (fun _ => 0) k))|]. apply rsum_ext. intros j Hj. f_equal.
      exact (f_equal (fun v => v k) (eq_sym (nth_map_at (fun i => nth i cs (fun _ => 0)) L j 0%nat (fun _ => 0) Hj))).
  - intros c Ic. apply in_map_iff in Ic. destruct Ic as (i & <- & J). apply InL in J. destruct J as [J1 J2].
    split; [apply nth_In; assumption|]. apply K; assumption.
Qed.
Print Assumptions C85_meet.

(** ** the simplex, in every dimension *)
Theorem C85_simplex : forall fuel dim n r st k k' g g', (0 < dim)%nat -> (0 < n)%nat -> (fact dim <= fuel)%nat -> simplexElements fuel dim n st ->
  (k < n ^ dim)%nat -> (k' < n ^ dim)%nat -> se_geometry dim r (st k) = Some g -> se_geometry dim r (st k') = Some g' ->
  conform dim (ml_corners g) (ml_corners g').
Proof.
  intros fuel dim n r st k k' g g' Hd Hn F V Hk Hk' E E'. rewrite !(stElem fuel dim n st Hd Hn F V) in * by assumption.
  destruct (elem_spec dim n k Hd Hn Hk) as (p & q & G & P & Q & qp & pq & _).
  destruct (elem_spec dim n k' Hd Hn Hk') as (p' & q' & G' & P' & Q' & qp' & pq' & _).
  rewrite (se_geometry_eq dim r _ p G) in E. injection E as <-. rewrite (se_geometry_eq dim r _ p' G') in E'. injection E' as <-. cbn [ml_corners].
  apply (simplex_conform dim n p q _ p' q'); assumption.
Qed.
Print Assumptions C85_simplex.

(** ** two simplices of a grid, refined separately with the same number of intervals *)
(** They may have their corners in any order; they share at most three corners. *)
Theorem C85_neighbours : forall fuel dim n r st m a b k k' g g', (0 < dim)%nat -> (0 < n)%nat -> (fact dim <= fuel)%nat -> simplexElements fuel dim n st ->
  length a = S dim -> length b = S dim -> conform m a b -> independent m b ->
  (exists C, (length C <= 3)%nat /\ forall i, (i <= dim)%nat -> (exists c', In c' b /\ agree m (nth i a (fun _ => 0)) c') -> In i C) ->
  (k < n ^ dim)%nat -> (k' < n ^ dim)%nat -> se_geometry dim r (st k) = Some g -> se_geometry dim r (st k') = Some g' ->
  conform m (map (simplexPoint dim a) (ml_corners g)) (map (simplexPoint dim b) (ml_corners g')).
Proof.
  intros fuel dim n r st m a b k k' g g' Hd Hn F V La Lb C I Co Hk Hk' E E'. rewrite !(stElem fuel dim n st Hd Hn F V) in * by assumption.
  destruct (elem_spec dim n k Hd Hn Hk) as (p & q & G & P & Q & qp & pq & _).
  destruct (elem_spec dim n k' Hd Hn Hk') as (p' & q' & G' & P' & Q' & qp' & pq' & _).
  rewrite (se_geometry_eq dim r _ p G) in E. injection E as <-. rewrite (se_geometry_eq dim r _ p' G') in E'. injection E' as <-. cbn [ml_corners].
  rewrite !map_map. apply (neighbour_conform m dim n a b p q _ p' q'); auto.
  - intros x. apply (elem_inside dim n k p x Hd Hn Hk G).
  - intros x. apply (elem_inside dim n k' p' x Hd Hn Hk' G').
Qed.
Print Assumptions C85_neighbours.

(** ** the triangulations of cube, prism and pyramid *)
(** the simplices of the triangulation itself conform, in every dimension *)
Lemma coarse_conform : forall dim t id Ti, ShapeOK dim t id Ti -> forall j j', (j < tr_count t)%nat -> (j' < tr_count t)%nat ->
  conform dim (map (fun i => Hmap dim t j (sc i)) (seq 0 (dim + 1))) (map (fun i => Hmap dim t j' (sc i)) (seq 0 (dim + 1))).
Proof.
  intros dim t id Ti [S1 S2 S3 S4 S5 S6 S7 S8] j j' Hj Hj'.
  destruct (permOf_spec dim _ (S2 _ Hj)) as [_ P]. destruct (permOf_spec dim _ (S2 _ Hj')) as [_ P'].
  destruct (perm_inverse dim _ P) as (q & Q & qp & pq). destruct (perm_inverse dim _ P') as (q' & Q' & qp' & pq').
  pose proof (simplex_conform dim 1 _ q (fun _ => 0%nat) _ q' (fun _ => 0%nat) S1 ltac:(lia) P Q qp pq P' Q' qp' pq') as C.
  assert (FT : affdet dim (fun y => tr_transform t (K0 dim y)) (1 * 1)).
  { apply (affdet_comp dim (tr_transform t) (K0 dim)); [assumption|]. apply (affdet_r2k dim idp). apply isPerm_id. }
  apply (conform_image dim (fun y => tr_transform t (K0 dim y)) _ _ _ FT) in C.
  - rewrite !map_map in C. revert C. apply conform_agree; intros i Hi; rewrite K0_Gmap by lia; apply (affdet_agree dim _ 1 _ _ S4); intros l Hl; cbn [INR]; field.
  - intros x y A. apply (affdet_agree dim _ 1 _ _ S5) in A. apply K0_inj. intros i Hi. rewrite <- (S7 (K0 dim x)), <- (S7 (K0 dim y)) by assumption. apply A. assumption.
Qed.
Lemma coarse_distinct : forall dim t id Ti, ShapeOK dim t id Ti -> forall j j', (j < tr_count t)%nat -> (j' < tr_count t)%nat -> j <> j' ->
  exists i, (i <= dim)%nat /\ ~ exists c', In c' (map (fun i => Hmap dim t j' (sc i)) (seq 0 (dim + 1)))
    /\ agree dim (nth i (map (fun i => Hmap dim t j (sc i)) (seq 0 (dim + 1))) (fun _ => 0)) c'.
Proof.
  intros dim t id Ti Sk j j' Hj Hj' N. pose proof Sk as [S1 S2 S3 S4 S5 S6 S7 S8].
  destruct (classic (forall i, (i <= dim)%nat -> exists c', In c' (map (fun i => Hmap dim t j' (sc i)) (seq 0 (dim + 1)))
    /\ agree dim (nth i (map (fun i => Hmap dim t j (sc i)) (seq 0 (dim + 1))) (fun _ => 0)) c')) as [A|A].
  2:{ apply not_all_ex_not in A. destruct A as (i & A). apply imply_to_and in A. exists i. exact A. }
  exfalso. apply N. destruct (permOf_spec dim _ (S2 _ Hj)) as [Ge P]. destruct (permOf_spec dim _ (S2 _ Hj')) as [Ge' P'].
  (* the barycentre of the first simplex *)
  set (u := fun _ : nat => / INR (S dim)). set (X := Hmap dim t j u).
  assert (Up : 0 < / INR (S dim)) by (apply Rinv_0_lt_compat, lt_0_INR; lia).
  assert (U : simpQ (Rlt 0) dim u).
  { split; [intros; exact Up|]. rewrite Ssum_rsum. unfold u. rewrite rsum_const, S_INR. assert (0 < INR dim + 1) by (pose proof (pos_INR dim); lra).
    replace (1 - INR dim * / (INR dim + 1)) with (/ (INR dim + 1)) by (field; lra). apply Rinv_0_lt_compat. assumption. }
  assert (In1 : kuhnQ (Rlt 0) dim (permOf dim (tr_perm t j)) (Ti X)).
  { apply (in_kuhn_Hinv dim t Ti S2 (Rlt 0)); [lra|assumption|]. destruct U as [U1 U2].
    assert (Au : agree dim (Hinv dim t Ti j X) u) by (apply (Hinv_H dim t Ti S2 S7); assumption).
    split; [intros i Hi; rewrite Au by assumption; apply U1; assumption|]. rewrite Ssum_rsum in *. rewrite (rsum_ext dim _ u) by exact Au. exact U2. }
  assert (In2 : kuhnQ (Rle 0) dim (permOf dim (tr_perm t j')) (Ti X)).
  { (* every corner of the first simplex satisfies the inequalities of the second *)
    apply (in_kuhn_Hinv dim t Ti S2 (Rle 0)); [lra|assumption|].
    assert (HF : affdet dim (Hinv dim t Ti j') 1) by (apply (affdet_Hinv dim t Ti 1 S2 S5); assumption).
    assert (Cn : forall i, (i <= dim)%nat -> simpQ (Rle 0) dim (Hinv dim t Ti j' (Hmap dim t j (sc i)))).
    { intros i Hi. destruct (A i Hi) as (c' & Ic & Ac). rewrite nth_map_seq in Ac by lia. apply in_map_iff in Ic. destruct Ic as (l & <- & Jl). apply in_seq in Jl.
      assert (Ag : agree dim (Hinv dim t Ti j' (Hmap dim t j (sc i))) (sc l)).
      { intros b Hb. rewrite (affdet_agree dim _ 1 _ _ HF Ac b Hb). apply (Hinv_H dim t Ti S2 S7); assumption. }
      split; [intros b Hb; rewrite Ag by assumption; unfold sc; destruct (Nat.eqb l (S b)); lra|].
      rewrite Ssum_rsum, (rsum_ext dim _ (sc l)) by exact Ag. unfold sc. destruct l as [|l].
      - rewrite rsum_0 by (intros; reflexivity). lra.
      - rewrite (rsum_ext dim _ (fun k => if Nat.eqb k l then 1 else 0)) by (intros b Hb; cbn [Nat.eqb]; rewrite (Nat.eqb_sym l b); reflexivity).
        rewrite (rsum_delta dim l (fun _ => 1)) by lia. lra. }
    assert (Ex : forall b, (b < dim)%nat -> Hinv dim t Ti j' X b = rsum (S dim) (fun i => / INR (S dim) * Hinv dim t Ti j' (Hmap dim t j (sc i)) b)).
    { intros b Hb. assert (FG : affdet dim (fun x => Hinv dim t Ti j' (Hmap dim t j x)) (1 * 1)).
      { apply (affdet_comp dim (Hinv dim t Ti j') (Hmap dim t j)); [assumption|]. apply (affdet_Hmap dim t 1 S2 S4). assumption. }
      unfold X. apply (affdet_comb dim _ _ (fun _ => / INR (S dim)) (S dim) sc FG); [rewrite rsum_const; apply Rinv_r, not_0_INR; lia| |assumption].
      intros c Hc. symmetry. apply (sc_sum dim (fun _ => / INR (S dim))). assumption. }
    split.
    - intros b Hb. rewrite Ex by assumption. apply rsum_nonneg. intros i Hi. apply Rmult_le_pos; [lra|]. apply (Cn i ltac:(lia)). assumption.
    - rewrite Ssum_rsum, (rsum_ext dim _ (fun b => rsum (S dim) (fun i => / INR (S dim) * Hinv dim t Ti j' (Hmap dim t j (sc i)) b))) by exact Ex.
      rewrite rsum_swap. assert (B : rsum (S dim) (fun i => rsum dim (fun b => / INR (S dim) * Hinv dim t Ti j' (Hmap dim t j (sc i)) b)) <= rsum (S dim) (fun _ => / INR (S dim))).
      { apply rsum_le. intros i Hi. rewrite rsum_scal. destruct (Cn i ltac:(lia)) as [_ B]. rewrite Ssum_rsum in B. nra. }
      rewrite rsum_const, Rinv_r in B by (apply not_0_INR; lia). lra. }
  apply S3; auto.
  assert (Z : forall (Q : R -> Prop) q, kuhnQ Q dim q (Ti X) -> isPerm dim q -> kuhnQ Q dim q (fun j => Ti X j - INR 0)).
  { intros Q q HQ Pq. revert HQ. apply kuhnQ_agree; [assumption|]. intros l _. cbn. ring. }
  destruct (kuhn_unique dim _ _ (fun _ => 0%nat) (fun _ => 0%nat) (Ti X) S1 P P' (Z _ _ In1 P) (Z _ _ In2 P')) as [_ Ag].
  eapply getPermutation_inj; [apply S2; assumption|apply S2; assumption|exact Ge|exact Ge'|exact Ag].
Qed.
Theorem C85_triangulation : forall fuel dim t id n r st k k' g g', CoarseShape dim t id -> (dim <= 3)%nat -> (0 < n)%nat -> (fact dim <= fuel)%nat ->
  triangElements fuel dim t n st -> (k < tr_nElements dim t n)%nat -> (k' < tr_nElements dim t n)%nat ->
  te_geometry dim t r (st k) = Some g -> te_geometry dim t r (st k') = Some g' -> conform dim (ml_corners g) (ml_corners g').
Proof.
  intros fuel dim t id n r st k k' g g' Sh D3 Hn F V Hk Hk' E E'. destruct (shape_ok _ _ _ Sh) as (Ti & Sk). pose proof Sk as [S1 S2 S3 S4 S5 S6 S7 S8].
  destruct (tr_split fuel dim t n Hn F k Hk) as [H1 H2]. destruct (tr_split fuel dim t n Hn F k' Hk') as [H1' H2'].
  rewrite !(tst fuel dim t id n st Sh Hn F V) in * by assumption.
  destruct (elem_spec dim n _ S1 Hn H2) as (p & q & G & P & Q & qp & pq & _).
  destruct (elem_spec dim n _ S1 Hn H2') as (p' & q' & G' & P' & Q' & qp' & pq' & _).
  rewrite (te_geometry_eq dim t S1 S2 r (teAt dim n k) p H1 G) in E. injection E as <-.
  rewrite (te_geometry_eq dim t S1 S2 r (teAt dim n k') p' H1' G') in E'. injection E' as <-. cbn [ml_corners teAt te_kuhn te_backend elemAt se_size].
  set (j := (k / n ^ dim)%nat) in *. set (j' := (k' / n ^ dim)%nat) in *. destruct (Nat.eq_dec j j') as [<-|N].
  - pose proof (simplex_conform dim n p q (se_origin (elemAt dim n (k mod n ^ dim))) p' q' (se_origin (elemAt dim n (k' mod n ^ dim))) S1 Hn P Q qp pq P' Q' qp' pq') as C.
    apply (conform_image dim (Hmap dim t j) 1 _ _ (affdet_Hmap dim t 1 S2 S4 j H1)) in C; [rewrite !map_map in C; exact C|].
    intros x y A i Hi. rewrite <- (Hinv_H dim t Ti S2 S7 j x H1 i Hi), <- (Hinv_H dim t Ti S2 S7 j y H1 i Hi).
    apply (affdet_agree dim _ 1 _ _ (affdet_Hinv dim t Ti 1 S2 S5 j H1) A). assumption.
  - set (a := map (fun i => Hmap dim t j (sc i)) (seq 0 (dim + 1))). set (b := map (fun i => Hmap dim t j' (sc i)) (seq 0 (dim + 1))).
    assert (C : conform dim (map (fun i => simplexPoint dim a (Gmap dim p (se_origin (elemAt dim n (k mod n ^ dim))) n (sc i))) (seq 0 (dim + 1)))
                            (map (fun i => simplexPoint dim b (Gmap dim p' (se_origin (elemAt dim n (k' mod n ^ dim))) n (sc i))) (seq 0 (dim + 1)))).
    { apply (neighbour_conform dim dim n a b p q _ p' q'); auto.
      - intros x. apply (elem_inside dim n _ p x S1 Hn H2 G).
      - intros x. apply (elem_inside dim n _ p' x S1 Hn H2' G').
      - unfold a. rewrite map_length, seq_length. lia.
      - unfold b. rewrite map_length, seq_length. lia.
      - apply (coarse_conform dim t id Ti Sk); assumption.
      - apply (independent_image dim (Hmap dim t j') 1); [apply (affdet_Hmap dim t 1 S2 S4); assumption|].
        intros x y A i Hi. rewrite <- (Hinv_H dim t Ti S2 S7 j' x H1' i Hi), <- (Hinv_H dim t Ti S2 S7 j' y H1' i Hi).
        apply (affdet_agree dim _ 1 _ _ (affdet_Hinv dim t Ti 1 S2 S5 j' H1') A). assumption.
      - destruct (coarse_distinct dim t id Ti Sk j j' H1 H1' N) as (i & Hi & A).
        exists (remove Nat.eq_dec i (seq 0 (S dim))). split.
        + assert (In i (seq 0 (S dim))) by (apply in_seq; lia). pose proof (remove_length_lt Nat.eq_dec (seq 0 (S dim)) i H). rewrite seq_length in *. lia.
        + intros l Hl B. apply in_in_remove; [|apply in_seq; lia]. intros ->. contradiction. }
    revert C. apply conform_agree; intros i Hi.
    + apply (simplexPoint_image dim (Hmap dim t j) 1). apply (affdet_Hmap dim t 1 S2 S4). assumption.
    + apply (simplexPoint_image dim (Hmap dim t j') 1). apply (affdet_Hmap dim t 1 S2 S4). assumption.
Qed.
Print Assumptions C85_triangulation.

(** ** the refined cube *)
Theorem C85_cube : forall dim n st k k', (0 < n)%nat -> cubeElements dim n st -> (k < n ^ dim)%nat -> (k' < n ^ dim)%nat ->
  conform dim (map (aac_corner dim dim (he_geometry dim (st k))) (seq 0 (2 ^ dim))) (map (aac_corner dim dim (he_geometry dim (st k'))) (seq 0 (2 ^ dim))).
Proof.
  intros dim n st k k' Hn V Hk Hk' X w W0 W1 E I i Hi Wi. rewrite !(hst n _ st V) in * by (unfold hc_nElements; lia).
  rewrite map_length, seq_length in *. destruct I as (w' & V0 & V1 & V2). rewrite map_length, seq_length in *. rewrite Ssum_rsum in W1, V1.
  assert (Np : 0 < INR n) by (apply lt_0_INR; assumption).
  set (bt := fun j d : nat => if Nat.testbit j d then 1 else 0).
  assert (Co : forall k j d, (d < dim)%nat -> aac_corner dim dim (he_geometry dim (hAt n k)) j d = (INR (idx2coord dim k n d) + bt j d) / INR n).
  { intros k0 j d Hd. rewrite he_corner by assumption. unfold bt. rewrite plus_INR. destruct (Nat.testbit j d); cbn [INR]; f_equal; ring. }
  assert (Sm : forall (u : nat -> R) k0 d, (d < dim)%nat -> rsum (2 ^ dim) u = 1 ->
    INR n * rsum (2 ^ dim) (fun i => u i * aac_corner dim dim (he_geometry dim (hAt n k0)) i d) = INR (idx2coord dim k0 n d) + rsum (2 ^ dim) (fun i => u i * bt i d)).
  { intros u k0 d Hd Hu. rewrite <- rsum_scal. rewrite (rsum_ext _ _ (fun i => u i * INR (idx2coord dim k0 n d) + u i * bt i d)).
    - rewrite rsum_plus, rsum_scal_r, Hu. ring.
    - intros j Hj. rewrite Co by assumption. field. lra. }
  assert (T : forall u d, (forall i, (i < 2 ^ dim)%nat -> 0 <= u i) -> rsum (2 ^ dim) u = 1 -> 0 <= rsum (2 ^ dim) (fun i => u i * bt i d) <= 1).
  { intros u d U0 U1. split.
    - apply rsum_nonneg. intros j Hj. apply Rmult_le_pos; [apply U0; assumption|]. unfold bt. destruct (Nat.testbit j d); lra.
    - rewrite <- U1. apply rsum_le. intros j Hj. specialize (U0 j Hj). unfold bt. destruct (Nat.testbit j d); lra. }
  (* in every coordinate the corner lies on the grid of the other cell *)
  assert (K : forall d, (d < dim)%nat -> exists b : bool, INR (idx2coord dim k n d) + bt i d = INR (idx2coord dim k' n d) + if b then 1 else 0).
  { intros d Hd. pose proof (Sm w k d Hd W1) as A. pose proof (Sm w' k' d Hd V1) as A'.
    assert (Eq : rsum (2 ^ dim) (fun i => w i * aac_corner dim dim (he_geometry dim (hAt n k)) i d) = rsum (2 ^ dim) (fun i => w' i * aac_corner dim dim (he_geometry dim (hAt n k')) i d)).
    { specialize (E d Hd). specialize (V2 d Hd). rewrite E in V2. rewrite !Ssum_rsum in V2.
      etransitivity; [|etransitivity; [exact V2|]]; apply rsum_ext; intros j Hj; rewrite nth_map_seq by assumption; reflexivity. }
    rewrite Eq, A' in A. clear Eq A'. pose proof (T w d W0 W1) as B. pose proof (T w' d V0 V1) as B'.
    set (c := idx2coord dim k n d) in *. set (c' := idx2coord dim k' n d) in *.
    assert (One : rsum (2 ^ dim) (fun i => w i * bt i d) = 0 -> bt i d = 0).
    { intros Z. destruct (Nat.testbit i d) eqn:Bi; [|unfold bt; rewrite Bi; reflexivity]. exfalso.
      assert (P : rsum (2 ^ dim) (fun j => if Nat.eqb j i then w j else 0) <= rsum (2 ^ dim) (fun i => w i * bt i d)).
      { apply rsum_le. intros j Hj. specialize (W0 j Hj). destruct (Nat.eqb_spec j i) as [->|]; unfold bt; [rewrite Bi; lra|]. destruct (Nat.testbit j d); lra. }
      rewrite rsum_delta in P by assumption. lra. }
    assert (All : rsum (2 ^ dim) (fun i => w i * bt i d) = 1 -> bt i d = 1).
    { intros Z. destruct (Nat.testbit i d) eqn:Bi; [unfold bt; rewrite Bi; reflexivity|]. exfalso.
      assert (P : rsum (2 ^ dim) (fun i => w i * bt i d) <= rsum (2 ^ dim) (fun j => w j - (if Nat.eqb j i then w j else 0))).
      { apply rsum_le. intros j Hj. specialize (W0 j Hj). destruct (Nat.eqb_spec j i) as [->|]; unfold bt; [rewrite Bi; lra|]. destruct (Nat.testbit j d); lra. }
      rewrite rsum_minus, rsum_delta in P by assumption. lra. }
    destruct (Nat.lt_trichotomy c c') as [L|[L|L]].
    - exists false. pose proof L as L'. apply Nat.le_succ_l, le_INR in L'. rewrite S_INR in L'. assert (Z : rsum (2 ^ dim) (fun i => w i * bt i d) = 1) by lra.
      rewrite (All Z). lra.
    - exists (Nat.testbit i d). rewrite L. reflexivity.
    - exists true. pose proof L as L'. apply Nat.le_succ_l, le_INR in L'. rewrite S_INR in L'. assert (Z : rsum (2 ^ dim) (fun i => w i * bt i d) = 0) by lra.
      rewrite (One Z). lra. }
  destruct (finite_choice dim (fun d m => INR (idx2coord dim k n d) + bt i d = INR (idx2coord dim k' n d) + if Nat.eqb m 0 then 0 else 1)) as (s & S).
  { intros d Hd. destruct (K d Hd) as ([|] & B); [exists 1%nat|exists 0%nat]; exact B. }
  destruct (bits_exist dim (fun d => negb (Nat.eqb (s d) 0))) as (j & Hj & Bj).
  exists (aac_corner dim dim (he_geometry dim (hAt n k')) j). split; [apply in_map, in_seq; lia|].
  rewrite nth_map_seq by assumption. intros d Hd. rewrite !Co by assumption. rewrite (S d Hd). unfold bt. rewrite Bj by assumption. destruct (Nat.eqb (s d) 0); reflexivity.
Qed.
Print Assumptions C85_cube.

(** ** in four dimensions the triangulation of the cube does not conform *)
Lemma r2k4 : forall p (x : Vec) a b c d, p 0%nat = a -> p 1%nat = b -> p 2%nat = c -> p 3%nat = d ->
  referenceToKuhn Rplus 4 x p = r2kLoop Rplus (fun i => nth i [a; b; c; d] 0%nat) 3 x.
Proof. intros p x a b c d <- <- <- <-. reflexivity. Qed.
(** the corners of two of the 384 elements *)
Definition c85_A : list (list R) := [[0; / 2; 0; 0]; [1; 1; / 2; 0]; [/ 2; 1; / 2; 0]; [/ 2; / 2; / 2; 0]; [/ 2; 1; / 2; / 2]].
Definition c85_B : list (list R) := [[0; / 2; 0; 0]; [/ 2; 1; / 2; 0]; [/ 2; 1; / 2; / 2]; [/ 2; 1; 1; 0]; [1; 1; 1; / 2]].
Theorem C85_four_dim_refuted : exists fuel dim t id n r st k k' g g', CoarseShape dim t id /\ (0 < n)%nat /\ (fact dim <= fuel)%nat /\
  triangElements fuel dim t n st /\ (k < tr_nElements dim t n)%nat /\ (k' < tr_nElements dim t n)%nat /\
  te_geometry dim t r (st k) = Some g /\ te_geometry dim t r (st k') = Some g' /\ ~ conform dim (ml_corners g) (ml_corners g').
Proof.
  assert (Sh : CoarseShape 4 (tr_cube 4) (gt_id (cube 4))) by (apply cs_cube; lia). destruct (shape_ok _ _ _ Sh) as (Ti & Sk). destruct Sk as [S1 S2 S3 S4 S5 S6 S7 S8].
  assert (H23 : (te_kuhn (teAt 4 2 23) < tr_count (tr_cube 4))%nat) by (vm_compute; lia).
  assert (H88 : (te_kuhn (teAt 4 2 88) < tr_count (tr_cube 4))%nat) by (vm_compute; lia).
  destruct (elem_spec 4 2 7 ltac:(lia) ltac:(lia) ltac:(cbn; lia)) as (p & q & G & P & Q & qp & pq & _).
  destruct (elem_spec 4 2 8 ltac:(lia) ltac:(lia) ltac:(cbn; lia)) as (p' & q' & G' & P' & Q' & qp' & pq' & _).
  assert (Ep : map p [0; 1; 2; 3]%nat = [2; 0; 1; 3]%nat).
  { assert (E : option_map (fun p => map p [0; 1; 2; 3]%nat) (getPermutation 4 (se_kuhn (elemAt 4 2 7))) = Some [2; 0; 1; 3]%nat) by (vm_compute; reflexivity).
    rewrite G in E. cbn [option_map] in E. congruence. }
  assert (Ep' : map p' [0; 1; 2; 3]%nat = [0; 2; 3; 1]%nat).
  { assert (E : option_map (fun p => map p [0; 1; 2; 3]%nat) (getPermutation 4 (se_kuhn (elemAt 4 2 8))) = Some [0; 2; 3; 1]%nat) by (vm_compute; reflexivity).
    rewrite G' in E. cbn [option_map] in E. congruence. }
  cbn [map] in Ep, Ep'. injection Ep as E0 E1 E2 E3. injection Ep' as E0' E1' E2' E3'.
  assert (F0 : permOf 4 (tr_perm (tr_cube 4) 1) 0 = 1%nat) by (vm_compute; reflexivity).
  assert (F1 : permOf 4 (tr_perm (tr_cube 4) 1) 1 = 0%nat) by (vm_compute; reflexivity).
  assert (F2 : permOf 4 (tr_perm (tr_cube 4) 1) 2 = 2%nat) by (vm_compute; reflexivity).
  assert (F3 : permOf 4 (tr_perm (tr_cube 4) 1) 3 = 3%nat) by (vm_compute; reflexivity).
  assert (F0' : permOf 4 (tr_perm (tr_cube 4) 5) 0 = 1%nat) by (vm_compute; reflexivity).
  assert (F1' : permOf 4 (tr_perm (tr_cube 4) 5) 1 = 2%nat) by (vm_compute; reflexivity).
  assert (F2' : permOf 4 (tr_perm (tr_cube 4) 5) 2 = 0%nat) by (vm_compute; reflexivity).
  assert (F3' : permOf 4 (tr_perm (tr_cube 4) 5) 3 = 3%nat) by (vm_compute; reflexivity).
  assert (O0 : se_origin (elemAt 4 2 7) 0 = 1%nat) by (vm_compute; reflexivity).
  assert (O1 : se_origin (elemAt 4 2 7) 1 = 1%nat) by (vm_compute; reflexivity).
  assert (O2 : se_origin (elemAt 4 2 7) 2 = 0%nat) by (vm_compute; reflexivity).
  assert (O3 : se_origin (elemAt 4 2 7) 3 = 0%nat) by (vm_compute; reflexivity).
  assert (O0' : se_origin (elemAt 4 2 8) 0 = 1%nat) by (vm_compute; reflexivity).
  assert (O1' : se_origin (elemAt 4 2 8) 1 = 1%nat) by (vm_compute; reflexivity).
  assert (O2' : se_origin (elemAt 4 2 8) 2 = 0%nat) by (vm_compute; reflexivity).
  assert (O3' : se_origin (elemAt 4 2 8) 3 = 0%nat) by (vm_compute; reflexivity).
  assert (A : forall i j, (i < 5)%nat -> (j < 4)%nat -> Hmap 4 (tr_cube 4) 1 (Gmap 4 p (se_origin (elemAt 4 2 7)) 2 (sc i)) j = nth j (nth i c85_A []) 0).
  { intros i j Hi Hj. unfold Hmap. rewrite (r2k4 _ _ _ _ _ _ F0 F1 F2 F3). cbn [tr_cube tr_transform r2kLoop nth]. unfold aset.
    assert (Y : forall l, (l < 4)%nat -> Gmap 4 p (se_origin (elemAt 4 2 7)) 2 (sc i) l = (fun l =>
       (r2kLoop Rplus (fun i => nth i [2; 0; 1; 3]%nat 0%nat) 3 (sc i) l + INR (nth l [1; 1; 0; 0]%nat 0%nat)) / 2 -
       if Nat.ltb (S l) 4 then (r2kLoop Rplus (fun i => nth i [2; 0; 1; 3]%nat 0%nat) 3 (sc i) (S l) + INR (nth (S l) [1; 1; 0; 0]%nat 0%nat)) / 2 else 0) l).
    { intros l Hl. unfold Gmap. rewrite k2r_id by assumption. rewrite (r2k4 _ _ _ _ _ _ E0 E1 E2 E3). change (INR 2) with (1 + 1).
      destruct l as [|[|[|[|l]]]]; [| | | |lia]; rewrite ?O0, ?O1, ?O2, ?O3; reflexivity. }
    destruct j as [|[|[|[|j]]]]; [| | | |lia]; cbn [Nat.eqb]; rewrite !Y by lia;
    destruct i as [|[|[|[|[|i]]]]]; try lia; unfold sc; cbn; unfold aset; cbn; lra. }
  assert (B : forall i j, (i < 5)%nat -> (j < 4)%nat -> Hmap 4 (tr_cube 4) 5 (Gmap 4 p' (se_origin (elemAt 4 2 8)) 2 (sc i)) j = nth j (nth i c85_B []) 0).
  { intros i j Hi Hj. unfold Hmap. rewrite (r2k4 _ _ _ _ _ _ F0' F1' F2' F3'). cbn [tr_cube tr_transform r2kLoop nth]. unfold aset.
    assert (Y : forall l, (l < 4)%nat -> Gmap 4 p' (se_origin (elemAt 4 2 8)) 2 (sc i) l = (fun l =>
       (r2kLoop Rplus (fun i => nth i [0; 2; 3; 1]%nat 0%nat) 3 (sc i) l + INR (nth l [1; 1; 0; 0]%nat 0%nat)) / 2 -
       if Nat.ltb (S l) 4 then (r2kLoop Rplus (fun i => nth i [0; 2; 3; 1]%nat 0%nat) 3 (sc i) (S l) + INR (nth (S l) [1; 1; 0; 0]%nat 0%nat)) / 2 else 0) l).
    { intros l Hl. unfold Gmap. rewrite k2r_id by assumption. rewrite (r2k4 _ _ _ _ _ _ E0' E1' E2' E3'). change (INR 2) with (1 + 1).
      destruct l as [|[|[|[|l]]]]; [| | | |lia]; rewrite ?O0', ?O1', ?O2', ?O3'; reflexivity. }
    destruct j as [|[|[|[|j]]]]; [| | | |lia]; cbn [Nat.eqb]; rewrite !Y by lia;
    destruct i as [|[|[|[|[|i]]]]]; try lia; unfold sc; cbn; unfold aset; cbn; lra. }
  exists 24%nat, 4%nat, (tr_cube 4), (gt_id (cube 4)), 2%nat, [], (teAt 4 2), 23%nat, 88%nat. eexists. eexists.
  split; [exact Sh|]. split; [lia|]. split; [cbn; lia|]. split; [apply telements; cbn; lia|]. split; [vm_compute; lia|]. split; [vm_compute; lia|].
  split; [exact (te_geometry_eq 4 (tr_cube 4) S1 S2 [] (teAt 4 2 23) p H23 G)|].
  split; [exact (te_geometry_eq 4 (tr_cube 4) S1 S2 [] (teAt 4 2 88) p' H88 G')|].
  cbn [ml_corners]. intros C.
  destruct (C (fun k => nth k [/ 2; 3 / 4; / 2; / 4] 0) (fun i => nth i [0; 0; 0; / 2; / 2] 0)) with (i := 3%nat) as (c' & I & Ag).
  - intros i Hi. destruct i as [|[|[|[|[|i]]]]]; cbn; try lra. destruct i; lra.
  - cbn. lra.
  - intros k Hk. rewrite map_length, seq_length, Ssum_rsum. rewrite (rsum_ext _ _ (fun i => nth i [0; 0; 0; / 2; / 2] 0 * nth k (nth i c85_A []) 0)).
    + unfold c85_A. destruct k as [|[|[|[|k]]]]; [| | | |lia]; cbn; lra.
    + intros i Hi. rewrite nth_map_seq by lia. f_equal. apply A; lia.
  - exists (fun i => nth i [/ 2; 0; 0; 0; / 2] 0). rewrite map_length, seq_length. repeat apply conj.
    + intros i Hi. destruct i as [|[|[|[|[|i]]]]]; cbn; try lra. destruct i; lra.
    + cbn. lra.
    + intros k Hk. rewrite Ssum_rsum. rewrite (rsum_ext _ _ (fun i => nth i [/ 2; 0; 0; 0; / 2] 0 * nth k (nth i c85_B []) 0)).
      * unfold c85_B. destruct k as [|[|[|[|k]]]]; [| | | |lia]; cbn; lra.
      * intros i Hi. rewrite nth_map_seq by lia. f_equal. apply B; lia.
  - rewrite map_length, seq_length. lia.
  - cbn. lra.
  - apply in_map_iff in I. destruct I as (i & <- & Ji). apply in_seq in Ji. rewrite nth_map_seq in Ag by lia.
    assert (K : forall j, (j < 4)%nat -> nth j (nth 3 c85_A []) 0 = nth j (nth i c85_B []) 0) by (intros j Hj; rewrite <- A, <- B by lia; apply Ag; assumption).
    pose proof (K 0%nat ltac:(lia)) as K0'. pose proof (K 1%nat ltac:(lia)) as K1. pose proof (K 2%nat ltac:(lia)) as K2. pose proof (K 3%nat ltac:(lia)) as K3.
    unfold c85_A, c85_B in K0', K1, K2, K3. clear - K0' K1 K2 K3 Ji. destruct i as [|[|[|[|[|i]]]]]; [cbn in K0', K1, K2, K3; lra..|lia].
Qed.
Print Assumptions C85_four_dim_refuted.

(** ** examples *)
(** two triangles that meet in half an edge do not conform: the corner (1/2,0) of the second is none of the first *)
Example C85_example_hanging :
  let v := fun a b : R => fun i : nat => match i with 0%nat => a | _ => b end in
  ~ conform 2 [v (/ 2) 0; v 1 0; v 1 (-1)] [v 0 0; v 1 0; v 0 1].
Proof.
  intros v C. destruct (C (v (/ 2) 0) (fun i => match i with 0%nat => 1 | _ => 0 end)) with (i := 0%nat) as (c & I & A).
  - intros [|i] _; lra.
  - cbn. lra.
  - intros [|[|k]] Hk; [| |lia]; cbn; lra.
  - exists (fun i => match i with 0%nat => / 2 | 1%nat => / 2 | _ => 0 end). repeat apply conj.
    + intros [|[|i]] _; lra.
    + cbn. lra.
    + intros [|[|k]] Hk; [| |lia]; cbn; lra.
  - cbn. lia.
  - lra.
  - pose proof (A 0%nat ltac:(lia)) as A0. pose proof (A 1%nat ltac:(lia)) as A1. cbn in I, A0, A1. destruct I as [<-|[<-|[<-|[]]]]; cbn in *; lra.
Qed.
(** the refined prism: any two of its 3 * 2^3 tetrahedra *)
Example C85_example_prism : forall k k' g g', (k < 24)%nat -> (k' < 24)%nat ->
  te_geometry 3 tr_prism [] (teAt 3 2 k) = Some g -> te_geometry 3 tr_prism [] (teAt 3 2 k') = Some g' -> conform 3 (ml_corners g) (ml_corners g').
Proof.
  intros k k' g g' Hk Hk'. apply (C85_triangulation 6 3 tr_prism (gt_id prism) 2 [] (teAt 3 2) k k'); [apply cs_prism|lia|lia|cbn; lia|apply telements; cbn; lia|assumption..].
Qed.
