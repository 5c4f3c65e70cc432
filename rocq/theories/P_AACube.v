(** Proofs about AxisAlignedCubeGeometry: all code paths give the same entrywise formulas. *)
From Coq Require Import PeanoNat NArith Lia Bool List Reals Lra FunctionalExtensionality.
From Verif Require Import M_Type M_RefTopo M_RefGeo M_Matrix M_Affine S_Matrix P_RSum P_Det P_MxBridge P_Matrix P_Matrix2 P_Matrix3 P_Matrix4 P_Matrix5.
Import ListNotations.
Local Open Scope R_scope.

Lemma bcount_mono axes : forall n m, (n <= m)%nat -> (bcount n axes <= bcount m axes)%nat.
Proof. intros n m H. induction H; simpl; lia. Qed.
Lemma bcount_lt axes i n : (i < n)%nat -> axes i = true -> (bcount i axes < bcount n axes)%nat.
Proof. intros H E. assert (Q := bcount_mono axes (S i) n H). simpl in Q. rewrite E in Q. lia. Qed.
Lemma bcount_le n axes : (bcount n axes <= n)%nat.
Proof. induction n; simpl; [lia|]. destruct (axes n); lia. Qed.
Lemma bcount_full axes : forall n, bcount n axes = n -> forall i, (i < n)%nat -> axes i = true.
Proof.
  induction n; simpl; intros H i Hi; [lia|]. assert (B := bcount_le n axes).
  destruct (axes n) eqn:E; [|lia]. destruct (Nat.eq_dec i n); [now subst|]. apply IHn; lia.
Qed.
Lemma bcount_zero axes : forall n, bcount n axes = 0%nat -> forall i, (i < n)%nat -> axes i = false.
Proof.
  induction n; simpl; intros H i Hi; [lia|]. destruct (axes n) eqn:E; [lia|].
  destruct (Nat.eq_dec i n); [now subst|]. apply IHn; lia.
Qed.
Lemma bcount_full_id axes : forall n, bcount n axes = n -> forall i, (i <= n)%nat -> bcount i axes = i.
Proof.
  induction n; simpl; intros H i Hi; [now replace i with 0%nat by lia|]. assert (B := bcount_le n axes).
  destruct (axes n) eqn:E; [|lia]. destruct (Nat.eq_dec i (S n)); [subst; simpl; rewrite E; lia|]. apply IHn; lia.
Qed.
Lemma bcount_inj axes i j : axes i = true -> axes j = true -> bcount i axes = bcount j axes -> i = j.
Proof.
  intros Hi Hj E. destruct (lt_eq_lt_dec i j) as [[L|L]|L]; auto.
  - assert (Q := bcount_lt axes i j L Hi). lia.
  - assert (Q := bcount_lt axes j i L Hj). lia.
Qed.
Lemma bcount_surj axes : forall n j, (j < bcount n axes)%nat -> exists i, (i < n)%nat /\ axes i = true /\ bcount i axes = j.
Proof.
  induction n; simpl; intros j Hj; [lia|]. destruct (axes n) eqn:E.
  - destruct (Nat.eq_dec j (bcount n axes)); [subst; eauto|].
    destruct (IHn j) as (i & Hi & A & B); [lia|]. exists i. auto.
  - destruct (IHn j) as (i & Hi & A & B); [lia|]. exists i. auto.
Qed.

Record aac_wf (dim cd : nat) (g : AACube) : Prop := {
  aw_count : bcount cd (ac_axes g) = dim;
  aw_flat : dim = 0%nat \/ forall i, (i < cd)%nat -> ac_axes g i = false -> ac_upper g i = ac_lower g i }.
Definition ext (g : AACube) (i : nat) : R := ac_upper g i - ac_lower g i.

Section Slow.
Variables (axes : nat -> bool).
Lemma slow_vec (f : nat -> nat -> R) (h : nat -> R) n v :
  let s := forN n (fun i '(lc, result) => if axes i then (S lc, upd result i (f i lc)) else (lc, upd result i (h i))) (O, v) in
  fst s = bcount n axes /\ forall i, snd s i = if Nat.ltb i n then (if axes i then f i (bcount i axes) else h i) else v i.
Proof.
  induction n; cbn [forN]; cbv zeta; [split; reflexivity|].
  cbv zeta in IHn. destruct (forN n _ (O, v)) as [lc r]. simpl in IHn. destruct IHn as [-> H].
  simpl. destruct (axes n) eqn:E; simpl; (split; [lia|]); intro i; unfold upd;
  destruct (Nat.eqb_spec i n).
  1,3: subst; rewrite (proj2 (Nat.ltb_lt n (S n))), E by lia; reflexivity.
  all: rewrite H; destruct (Nat.ltb_spec i n), (Nat.ltb_spec i (S n)); try lia; reflexivity.
Qed.
Lemma slow_local (f : nat -> R) n v :
  let s := forN n (fun i '(lc, result) => if axes i then (S lc, upd result lc (f i)) else (lc, result)) (O, v) in
  fst s = bcount n axes /\ (forall i, (i < n)%nat -> axes i = true -> snd s (bcount i axes) = f i).
Proof.
  induction n; cbn [forN]; cbv zeta; [split; [reflexivity|intros; lia]|].
  cbv zeta in IHn. destruct (forN n _ (O, v)) as [lc r]. simpl in IHn. destruct IHn as [-> H].
  simpl. destruct (axes n) eqn:E; simpl; (split; [lia|]); intros i Hi A.
  - destruct (Nat.eq_dec i n); [subst; apply upd_eq|]. rewrite upd_ne; [apply H; auto; lia|].
    assert (Q := bcount_lt axes i n ltac:(lia) A). lia.
  - destruct (Nat.eq_dec i n); [congruence|]. apply H; auto; lia.
Qed.
Lemma slow_mat (f : nat -> R) n :
  let s := forN n (fun i '(lc, m) => if axes i then (S lc, mupd m lc i (f i)) else (lc, m)) (O, mzero) in
  fst s = bcount n axes /\ (forall j i, snd s j i = if andb (Nat.ltb i n) (andb (axes i) (Nat.eqb (bcount i axes) j)) then f i else 0).
Proof.
  induction n; cbn [forN]; cbv zeta; [split; reflexivity|].
  cbv zeta in IHn. destruct (forN n _ (O, mzero)) as [lc r]. simpl in IHn. destruct IHn as [-> H].
  simpl. destruct (axes n) eqn:E; simpl; (split; [lia|]); intros j i.
  - rewrite mupd_case, H. destruct (Nat.eqb_spec i n).
    + subst. rewrite (proj2 (Nat.ltb_lt n (S n))), E, Nat.ltb_irrefl, andb_true_r by lia. simpl. rewrite Nat.eqb_sym. reflexivity.
    + rewrite andb_false_r. destruct (Nat.ltb_spec i n), (Nat.ltb_spec i (S n)); try lia; reflexivity.
  - rewrite H. destruct (Nat.eq_dec i n); [subst; rewrite E, andb_false_r; now rewrite andb_false_r|].
    destruct (Nat.ltb_spec i n), (Nat.ltb_spec i (S n)); try lia; reflexivity.
Qed.
Lemma slow_matT (f : nat -> R) n :
  let s := forN n (fun i '(lc, m) => if axes i then (S lc, mupd m i lc (f i)) else (lc, m)) (O, mzero) in
  fst s = bcount n axes /\ (forall j i, snd s i j = if andb (Nat.ltb i n) (andb (axes i) (Nat.eqb (bcount i axes) j)) then f i else 0).
Proof.
  induction n; cbn [forN]; cbv zeta; [split; reflexivity|].
  cbv zeta in IHn. destruct (forN n _ (O, mzero)) as [lc r]. simpl in IHn. destruct IHn as [-> H].
  simpl. destruct (axes n) eqn:E; simpl; (split; [lia|]); intros j i.
  - rewrite mupd_case, H. destruct (Nat.eqb_spec i n).
    + subst. rewrite (proj2 (Nat.ltb_lt n (S n))), E, Nat.ltb_irrefl by lia. simpl. rewrite Nat.eqb_sym. reflexivity.
    + simpl. destruct (Nat.ltb_spec i n), (Nat.ltb_spec i (S n)); try lia; reflexivity.
  - rewrite H. destruct (Nat.eq_dec i n); [subst; rewrite E, andb_false_r; now rewrite andb_false_r|].
    destruct (Nat.ltb_spec i n), (Nat.ltb_spec i (S n)); try lia; reflexivity.
Qed.
End Slow.

Lemma fill_diag n (f : nat -> R) i j :
  forN n (fun i m => mupd m i i (f i)) mzero i j = if andb (Nat.ltb i n) (Nat.eqb i j) then f i else 0.
Proof.
  induction n; simpl; [reflexivity|]. rewrite mupd_case, IHn.
  destruct (Nat.eqb_spec i n).
  - subst. rewrite (proj2 (Nat.ltb_lt n (S n))) by lia. simpl.
    destruct (Nat.eqb_spec j n), (Nat.eqb_spec n j); try lia; try reflexivity.
    now rewrite Nat.ltb_irrefl.
  - simpl. destruct (Nat.ltb_spec i n), (Nat.ltb_spec i (S n)); try lia; reflexivity.
Qed.

Section WF.
Variables (dim cd : nat) (g : AACube).
Hypothesis W : aac_wf dim cd g.
Let axes := ac_axes g.

Lemma wf_rank i : (i < cd)%nat -> axes i = true -> (bcount i axes < dim)%nat.
Proof. intros Hi A. rewrite <- (aw_count _ _ _ W). now apply bcount_lt. Qed.

Lemma global_spec x i : (i < cd)%nat ->
  aac_global dim cd g x i = if axes i then ac_lower g i + x (bcount i axes) * ext g i else ac_lower g i.
Proof.
  intro Hi. unfold aac_global. destruct (Nat.eqb_spec dim cd).
  - rewrite (fill_vec cd (fun i => ac_lower g i + x i * (ac_upper g i - ac_lower g i))), (proj2 (Nat.ltb_lt i cd)) by assumption.
    assert (F : bcount cd axes = cd) by (rewrite <- e at 2; apply (aw_count _ _ _ W)).
    rewrite (bcount_full axes cd F i Hi), (bcount_full_id axes cd F i) by lia. reflexivity.
  - destruct (Nat.eqb_spec dim 0).
    + rewrite (bcount_zero axes cd); auto. rewrite <- e. apply (aw_count _ _ _ W).
    + destruct (slow_vec axes (fun i lc => ac_lower g i + x lc * (ac_upper g i - ac_lower g i)) (ac_lower g) cd vzero) as [_ H].
      unfold axes in *. rewrite H, (proj2 (Nat.ltb_lt i cd)) by assumption. reflexivity.
Qed.
Lemma corner_spec k i : (i < cd)%nat ->
  aac_corner dim cd g k i = if axes i then (if Nat.testbit k (bcount i axes) then ac_upper g i else ac_lower g i) else ac_lower g i.
Proof.
  intro Hi. unfold aac_corner. destruct (Nat.eqb_spec dim cd).
  - rewrite (fill_vec cd (fun i => if Nat.testbit k i then ac_upper g i else ac_lower g i)), (proj2 (Nat.ltb_lt i cd)) by assumption.
    assert (F : bcount cd axes = cd) by (rewrite <- e at 2; apply (aw_count _ _ _ W)).
    rewrite (bcount_full axes cd F i Hi), (bcount_full_id axes cd F i) by lia. reflexivity.
  - destruct (Nat.eqb_spec dim 0).
    + rewrite (bcount_zero axes cd); auto. rewrite <- e. apply (aw_count _ _ _ W).
    + destruct (slow_vec axes (fun i lc => if Nat.testbit k lc then ac_upper g i else ac_lower g i) (ac_lower g) cd vzero) as [_ H].
      unfold axes in *.
      match goal with |- snd ?a i = _ => match type of H with forall _, snd ?b _ = _ => replace a with b end end.
      * rewrite H, (proj2 (Nat.ltb_lt i cd)) by assumption. reflexivity.
      * apply forN_ext. intros j [lc r] _. destruct (ac_axes g j); reflexivity.
Qed.
Lemma local_spec y i : (i < cd)%nat -> axes i = true ->
  aac_local dim cd g y (bcount i axes) = (y i - ac_lower g i) / ext g i.
Proof.
  intros Hi A. assert (R := wf_rank i Hi A). unfold aac_local. destruct (Nat.eqb_spec dim cd).
  - assert (F : bcount cd axes = cd) by (rewrite <- e at 2; apply (aw_count _ _ _ W)).
    rewrite (bcount_full_id axes cd F i) by lia.
    rewrite (fill_vec dim (fun i => (y i - ac_lower g i) / (ac_upper g i - ac_lower g i))), (proj2 (Nat.ltb_lt i dim)) by lia. reflexivity.
  - destruct (Nat.eqb_spec dim 0); [lia|]. simpl.
    destruct (slow_local axes (fun i => (y i - ac_lower g i) / (ac_upper g i - ac_lower g i)) cd vzero) as [_ H].
    now apply H.
Qed.
Lemma jt_spec j i : (i < cd)%nat -> (j < dim)%nat ->
  aac_jacobianTransposed dim cd g j i = if andb (axes i) (Nat.eqb (bcount i axes) j) then ext g i else 0.
Proof.
  intros Hi Hj. unfold aac_jacobianTransposed. destruct (Nat.eqb_spec dim cd).
  - assert (F : bcount cd axes = cd) by (rewrite <- e at 2; apply (aw_count _ _ _ W)).
    rewrite (bcount_full axes cd F i Hi), (bcount_full_id axes cd F i) by lia.
    rewrite (fill_diag dim (fun i => ac_upper g i - ac_lower g i)), (proj2 (Nat.ltb_lt j dim)) by lia.
    simpl. rewrite Nat.eqb_sym. destruct (Nat.eqb_spec i j); [subst|]; reflexivity.
  - destruct (Nat.eqb_spec dim 0); [lia|].
    destruct (slow_mat axes (fun i => ac_upper g i - ac_lower g i) cd) as [_ H].
    unfold axes in *. rewrite H, (proj2 (Nat.ltb_lt i cd)) by assumption. reflexivity.
Qed.
Lemma jit_spec j i : (i < cd)%nat -> (j < dim)%nat ->
  aac_jacobianInverseTransposed dim cd g i j = if andb (axes i) (Nat.eqb (bcount i axes) j) then 1 / ext g i else 0.
Proof.
  intros Hi Hj. unfold aac_jacobianInverseTransposed. destruct (Nat.eqb_spec dim cd).
  - assert (F : bcount cd axes = cd) by (rewrite <- e at 2; apply (aw_count _ _ _ W)).
    rewrite (bcount_full axes cd F i Hi), (bcount_full_id axes cd F i) by lia.
    rewrite (fill_diag dim (fun i => 1 / (ac_upper g i - ac_lower g i))), (proj2 (Nat.ltb_lt i dim)) by lia. reflexivity.
  - destruct (Nat.eqb_spec dim 0); [lia|].
    destruct (slow_matT axes (fun i => 1 / (ac_upper g i - ac_lower g i)) cd) as [_ H].
    unfold axes in *. rewrite H, (proj2 (Nat.ltb_lt i cd)) by assumption. reflexivity.
Qed.
Definition aprod (n : nat) : R := forN n (fun i v => if axes i then v * ext g i else v) 1.
Lemma volume_spec : aac_volume dim cd g = aprod cd.
Proof.
  unfold aac_volume, aprod. destruct (Nat.eqb_spec dim cd).
  - assert (F : bcount cd axes = cd) by (rewrite <- e at 2; apply (aw_count _ _ _ W)).
    rewrite e. apply forN_ext. intros i s Hi. now rewrite (bcount_full axes cd F i Hi).
  - destruct (Nat.eqb_spec dim 0); simpl; [|reflexivity].
    assert (Z := bcount_zero axes cd). rewrite e in *. specialize (Z (aw_count _ _ _ W)).
    clear -Z. induction cd; simpl; [reflexivity|]. rewrite Z by lia. apply IHn. intros; apply Z; lia.
Qed.
Lemma center_spec i : (i < cd)%nat ->
  aac_center dim cd g i = if axes i then ac_lower g i + 1 / 2 * ext g i else ac_lower g i.
Proof.
  intro Hi. unfold aac_center. destruct (Nat.eqb_spec dim 0).
  - rewrite (bcount_zero axes cd); auto. rewrite <- e. apply (aw_count _ _ _ W).
  - rewrite (fill_vec cd (fun i => 1 / 2 * (ac_lower g i + ac_upper g i))), (proj2 (Nat.ltb_lt i cd)) by assumption.
    unfold ext. destruct (axes i) eqn:A; [lra|].
    destruct (aw_flat _ _ _ W) as [Z|Z]; [lia|]. rewrite (Z i Hi A). lra.
Qed.
(** a sum over the axes picks one term *)
Lemma axis_pick j (f : nat -> R) i0 : (i0 < cd)%nat -> axes i0 = true -> bcount i0 axes = j ->
  rsum cd (fun i => if andb (axes i) (Nat.eqb (bcount i axes) j) then f i else 0) = f i0.
Proof.
  intros Hi A B. rewrite <- (rsum_delta cd i0 f Hi). apply rsum_ext. intros i Hi'.
  destruct (Nat.eqb_spec i i0).
  - subst. rewrite A, Nat.eqb_refl. reflexivity.
  - destruct (axes i) eqn:Ai; simpl; [|reflexivity]. destruct (Nat.eqb_spec (bcount i axes) j); [|reflexivity].
    exfalso. apply n. apply (bcount_inj axes); congruence.
Qed.
End WF.

(** determinant of the Gram matrix of the Jacobian *)
Definition nthaxis (axes : nat -> bool) (n j : nat) : nat := nth j (filter axes (seq 0 n)) 0%nat.
Lemma filter_rank axes : forall n, length (filter axes (seq 0 n)) = bcount n axes /\
  forall i, (i < n)%nat -> axes i = true -> nth (bcount i axes) (filter axes (seq 0 n)) 0%nat = i.
Proof.
  induction n; [split; [reflexivity|intros; lia]|]. destruct IHn as [L H].
  rewrite seq_S, filter_app, app_length, L. simpl. destruct (axes n) eqn:E; simpl; (split; [lia|]); intros i Hi A.
  - destruct (Nat.eq_dec i n).
    + subst. rewrite app_nth2, L, Nat.sub_diag by lia. reflexivity.
    + rewrite app_nth1 by (rewrite L; apply bcount_lt; auto; lia). apply H; auto; lia.
  - rewrite app_nil_r. destruct (Nat.eq_dec i n); [congruence|]. apply H; auto; lia.
Qed.
Lemma aprod_sq g n : aprod g n * aprod g n =
  detL (bcount n (ac_axes g)) (fun j j' => if Nat.eqb j j' then ext g (nthaxis (ac_axes g) n j) * ext g (nthaxis (ac_axes g) n j) else 0).
Proof.
  induction n; [unfold aprod, detL; simpl; ring|].
  assert (EX : forall j, (j < bcount n (ac_axes g))%nat -> nthaxis (ac_axes g) (S n) j = nthaxis (ac_axes g) n j).
  { intros j Hj. unfold nthaxis. rewrite seq_S, filter_app, app_nth1; [reflexivity|]. now rewrite (proj1 (filter_rank _ n)). }
  assert (DE : forall m (A B : Mat), (forall k, (k < m)%nat -> A k k = B k k) -> detL m A = detL m B).
  { intros m A B H. unfold detL. apply forN_ext. intros k s Hk. now rewrite H. }
  unfold aprod in *. cbn [forN bcount]. destruct (ac_axes g n) eqn:E.
  - rewrite Nat.add_1_r. unfold detL. cbn [forN]. fold (detL (bcount n (ac_axes g)) (fun j j' => if Nat.eqb j j' then ext g (nthaxis (ac_axes g) (S n) j) * ext g (nthaxis (ac_axes g) (S n) j) else 0)).
    erewrite (DE (bcount n (ac_axes g))). 
    2:{ intros k Hk. rewrite Nat.eqb_refl, EX by assumption. instantiate (1 := fun j j' => if Nat.eqb j j' then ext g (nthaxis (ac_axes g) n j) * ext g (nthaxis (ac_axes g) n j) else 0). simpl. now rewrite Nat.eqb_refl. }
    rewrite <- IHn, Nat.eqb_refl. unfold nthaxis. rewrite (proj2 (filter_rank (ac_axes g) (S n)) n) by (auto; lia). ring.
  - rewrite Nat.add_0_r, IHn. apply DE. intros k Hk. rewrite !Nat.eqb_refl, EX by assumption. reflexivity.
Qed.
Lemma aac_gram dim cd g : aac_wf dim cd g ->
  meq dim dim (mmul cd (aac_jacobianTransposed dim cd g) (mtr (aac_jacobianTransposed dim cd g)))
    (fun j j' => if Nat.eqb j j' then ext g (nthaxis (ac_axes g) cd j) * ext g (nthaxis (ac_axes g) cd j) else 0).
Proof.
  intros W j j' Hj Hj'. unfold mmul, mtr.
  destruct (bcount_surj (ac_axes g) cd j) as (i0 & Hi & A & B); [rewrite (aw_count _ _ _ W); assumption|].
  rewrite (rsum_ext cd _ (fun i => if andb (ac_axes g i) (Nat.eqb (bcount i (ac_axes g)) j) then (if Nat.eqb j j' then ext g i * ext g i else 0) else 0)).
  - rewrite (axis_pick cd g j _ i0 Hi A B). destruct (Nat.eqb j j'); [|reflexivity].
    unfold nthaxis. rewrite <- B, (proj2 (filter_rank (ac_axes g) cd) i0 Hi A). reflexivity.
  - intros i Hi'. rewrite !(jt_spec dim cd g W) by assumption.
    destruct (ac_axes g i); simpl; [|ring]. destruct (Nat.eqb_spec (bcount i (ac_axes g)) j); [|ring].
    rewrite e. destruct (Nat.eqb j j'); ring.
Qed.
Lemma aac_volume_gram dim cd g : aac_wf dim cd g ->
  aac_volume dim cd g * aac_volume dim cd g =
  detR dim (mmul cd (aac_jacobianTransposed dim cd g) (mtr (aac_jacobianTransposed dim cd g))).
Proof.
  intro W. rewrite (volume_spec dim cd g W), aprod_sq, (aw_count _ _ _ W), detL_low, (detR_meq _ _ _ (aac_gram dim cd g W)).
  apply detR_ext. intros i j _ _. unfold low. destruct (Nat.leb_spec j i); [reflexivity|].
  destruct (Nat.eqb_spec i j); [lia|reflexivity].
Qed.
Lemma aac_inverse dim cd g : aac_wf dim cd g -> (forall i, (i < cd)%nat -> ac_axes g i = true -> ext g i <> 0) ->
  meq dim dim (mmul cd (aac_jacobianTransposed dim cd g) (aac_jacobianInverseTransposed dim cd g)) mone.
Proof.
  intros W NZ j j' Hj Hj'. unfold mmul.
  destruct (bcount_surj (ac_axes g) cd j) as (i0 & Hi & A & B); [rewrite (aw_count _ _ _ W); assumption|].
  rewrite (rsum_ext cd _ (fun i => if andb (ac_axes g i) (Nat.eqb (bcount i (ac_axes g)) j) then (if Nat.eqb j j' then 1 else 0) else 0)).
  - rewrite (axis_pick cd g j _ i0 Hi A B). reflexivity.
  - intros i Hi'. rewrite (jt_spec dim cd g W), (jit_spec dim cd g W) by assumption.
    destruct (ac_axes g i) eqn:Ai; simpl; [|ring]. destruct (Nat.eqb_spec (bcount i (ac_axes g)) j); [|ring].
    rewrite e. destruct (Nat.eqb j j'); [|ring]. field. now apply NZ.
Qed.
(** jit = jt^T G with G the inverse of the Gram matrix *)
Lemma aac_pinv dim cd g : aac_wf dim cd g -> (forall i, (i < cd)%nat -> ac_axes g i = true -> ext g i <> 0) ->
  exists G, meq dim dim (mmul dim (mmul cd (aac_jacobianTransposed dim cd g) (mtr (aac_jacobianTransposed dim cd g))) G) mone /\
    meq cd dim (aac_jacobianInverseTransposed dim cd g) (mmul dim (mtr (aac_jacobianTransposed dim cd g)) G).
Proof.
  intros W NZ. exists (fun j j' => if Nat.eqb j j' then 1 / (ext g (nthaxis (ac_axes g) cd j) * ext g (nthaxis (ac_axes g) cd j)) else 0).
  assert (NZ' : forall j, (j < dim)%nat -> ext g (nthaxis (ac_axes g) cd j) <> 0).
  { intros j Hj. destruct (bcount_surj (ac_axes g) cd j) as (i0 & Hi & A & B); [rewrite (aw_count _ _ _ W); assumption|].
    unfold nthaxis. rewrite <- B, (proj2 (filter_rank (ac_axes g) cd) i0 Hi A). now apply NZ. }
  split.
  - eapply meq_trans; [apply meq_mulL, (aac_gram dim cd g W)|]. intros j j' Hj Hj'. unfold mmul.
    rewrite (rsum_ext dim _ (fun k => if Nat.eqb k j then mone k j' else 0)).
    + now rewrite (rsum_delta dim j (fun k => mone k j')).
    + intros k Hk. destruct (Nat.eqb_spec j k), (Nat.eqb_spec k j); try lia; try ring. subst. unfold mone.
      destruct (Nat.eqb k j'); [|ring]. field. now apply NZ'.
  - intros i j Hi Hj. unfold mmul, mtr. rewrite (jit_spec dim cd g W) by assumption.
    rewrite (rsum_ext dim _ (fun k => if Nat.eqb k j then aac_jacobianTransposed dim cd g k i * (1 / (ext g (nthaxis (ac_axes g) cd k) * ext g (nthaxis (ac_axes g) cd k))) else 0)).
    + rewrite (rsum_delta dim j (fun k => aac_jacobianTransposed dim cd g k i * (1 / (ext g (nthaxis (ac_axes g) cd k) * ext g (nthaxis (ac_axes g) cd k))))) by assumption.
      rewrite (jt_spec dim cd g W) by assumption.
      destruct (ac_axes g i) eqn:A; simpl; [|ring]. destruct (Nat.eqb_spec (bcount i (ac_axes g)) j); [|ring].
      unfold nthaxis. rewrite <- e, (proj2 (filter_rank (ac_axes g) cd) i Hi A). field. now apply NZ.
    + intros k Hk. destruct (Nat.eqb_spec k j); [reflexivity|ring].
Qed.

Lemma wf_make2 n l u : aac_wf n n (aac_make2 n l u).
Proof.
  assert (F : forall m, (m <= n)%nat -> bcount m (fun i => Nat.ltb i n) = m).
  { induction m; intro H; simpl; [reflexivity|]. rewrite IHm, (proj2 (Nat.ltb_lt m n)) by lia. lia. }
  split; cbn.
  - apply F. lia.
  - right. intros i Hi E. change (Nat.ltb i n = false) in E. apply Nat.ltb_ge in E. lia.
Qed.
Lemma make3_upper cd (axes : nat -> bool) (l u : Vec) i :
  forN cd (fun i u => if axes i then u else upd u i (l i)) u i = if andb (Nat.ltb i cd) (negb (axes i)) then l i else u i.
Proof.
  induction cd; simpl; [reflexivity|]. destruct (axes cd) eqn:E.
  - rewrite IHcd. destruct (Nat.eq_dec i cd); [subst; rewrite E, !andb_false_r; reflexivity|].
    destruct (Nat.ltb_spec i cd), (Nat.ltb_spec i (S cd)); try lia; reflexivity.
  - unfold upd at 1. destruct (Nat.eqb_spec i cd).
    + subst. rewrite (proj2 (Nat.ltb_lt cd (S cd))), E by lia. reflexivity.
    + rewrite IHcd. destruct (Nat.ltb_spec i cd), (Nat.ltb_spec i (S cd)); try lia; reflexivity.
Qed.
Lemma wf_make3 dim cd l u axes g : aac_make3 dim cd l u axes = Some g -> aac_wf dim cd g.
Proof.
  unfold aac_make3. destruct (Nat.eqb_spec (bcount cd axes) dim); [|discriminate]. intro E. injection E as <-.
  split; [assumption|]. right. cbn [ac_upper ac_lower ac_axes]. intros i Hi A.
  etransitivity; [apply make3_upper|]. rewrite (proj2 (Nat.ltb_lt i cd)), A by assumption. reflexivity.
Qed.
Lemma wf_make1 cd l : aac_wf 0 cd (aac_make1 l).
Proof. split; cbn; [|now left]. induction cd; simpl; lia. Qed.
