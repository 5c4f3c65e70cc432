(** The triangulations of the cube, the prism and the pyramid. *)
From Coq Require Import PeanoNat NArith ZArith Bool List Permutation Reals Factorial Lia Lra FunctionalExtensionality.
From Verif Require Import M_Type M_RefTopo M_RefGeo M_Matrix S_Topo S_RefGeo S_Matrix S_MultiLinear P_Type P_Topo P_RefTopo P_RefTopo2 P_RSum P_RefGeo P_RefGeo2 P_RefGeo4
  P_Det P_RefDet P_RefGeo3 P_Type2 P_RefTopo3 P_MxBridge T_RefGeo M_MultiLinear M_Refine S_Refine P_Refine1 P_Refine2 P_Refine3 P_Refine4 P_Refine5 P_Refine6.
Import ListNotations.
Local Open Scope R_scope.

(** interior points of an element are interior points of the simplex *)
Lemma elem_inside_strict : forall dim n k p x, (0 < dim)%nat -> (0 < n)%nat -> (k < n ^ dim)%nat ->
  getPermutation dim (se_kuhn (elemAt dim n k)) = Some p ->
  kuhnQ (Rlt 0) dim p (local0 dim n (se_origin (elemAt dim n k)) x) -> simpQ (Rlt 0) dim x.
Proof.
  intros dim n k p x H Hn Hk E K.
  destruct (elem_spec dim n k H Hn Hk) as (p1 & q & E1 & P & Q & qp & pq & D & B & C & _). rewrite E1 in E. injection E as <-.
  destruct (kuhn_strict dim p1 _ K P H) as [Zb Zm].
  apply (simp_kuhn _ dim idp); [lra|apply isPerm_id|]. fold (K0 dim x).
  assert (Np : 0 < INR n) by (apply lt_0_INR; assumption).
  set (o := se_origin (elemAt dim n k)) in *. set (z := local0 dim n o x) in *.
  assert (Y : forall j, INR n * K0 dim x j = z j + INR (o j)) by (intros; unfold z, local0; ring).
  intros _. repeat apply conj.
  - assert (INR n * K0 dim x 0%nat < INR n * 1).
    { rewrite Y. specialize (Zb 0%nat H). rewrite Rmult_1_r. apply Rlt_le_trans with (1 + INR (o 0%nat)); [lra|].
      rewrite Rplus_comm, <- S_INR. apply le_INR. lia. }
    apply Rmult_lt_reg_l in H0; [lra|assumption].
  - assert (0 < INR n * K0 dim x (dim - 1)%nat).
    { rewrite Y. specialize (Zb (dim - 1)%nat ltac:(lia)). pose proof (pos_INR (o (dim - 1)%nat)). lra. }
    nra.
  - intros i Hi.
    assert (INR n * K0 dim x (S i) < INR n * K0 dim x i).
    { rewrite !Y. specialize (C i Hi). destruct (Nat.ltb_spec (q i) (q (S i))) as [L|L].
      - pose proof (Zm (q i) (q (S i)) ltac:(lia) ltac:(apply Q; lia)) as G. rewrite !pq in G by lia.
        assert (INR (o (S i)) <= INR (o i)) by (apply le_INR; lia). lra.
      - assert (INR (S (o (S i))) <= INR (o i)) by (apply le_INR; lia). rewrite S_INR in H0.
        pose proof (Zb i ltac:(lia)). pose proof (Zb (S i) Hi). lra. }
    nra.
Qed.

(** ** the iterators *)
Section Iter.
Variables (dim : nat) (t : Triang) (n : nat).
Hypothesis Hd : (0 < dim)%nat.
Hypothesis Hn : (0 < n)%nat.

Definition teAt (j : nat) : TElem :=
  {| te_n := n; te_kuhn := (j / n ^ dim)%nat; te_backend := elemAt dim n (j mod n ^ dim); te_backendEnd := sx_eEnd dim n |}.
Lemma npos : (0 < n ^ dim)%nat. Proof. apply pow_pos. assumption. Qed.
Lemma teAt_begin : teAt 0 = te_make dim t n false.
Proof.
  unfold teAt, te_make. pose proof npos. rewrite Nat.div_0_l, Nat.mod_0_l by lia. rewrite elemAt_begin by assumption. reflexivity.
Qed.
Lemma teAt_end : teAt (n ^ dim * tr_count t) = te_make dim t n true.
Proof.
  unfold teAt, te_make. pose proof npos. rewrite Nat.mul_comm, Nat.div_mul, Nat.mod_mul by lia. rewrite elemAt_begin by assumption. reflexivity.
Qed.
Lemma div_mod_next : forall N j, (0 < N)%nat ->
  (S (j mod N) < N /\ S j / N = j / N /\ S j mod N = S (j mod N))%nat \/ (S (j mod N) = N /\ S j / N = S (j / N) /\ S j mod N = 0)%nat.
Proof.
  intros N j H. pose proof (Nat.div_mod j N ltac:(lia)) as E. pose proof (Nat.mod_upper_bound j N ltac:(lia)) as B.
  set (a := (j / N)%nat) in *. set (b := (j mod N)%nat) in *. destruct (Nat.eq_dec (S b) N) as [F|F].
  - right. split; [assumption|]. assert (X : S j = (N * S a + 0)%nat) by lia.
    split; [symmetry; apply (Nat.div_unique _ _ _ 0); lia|symmetry; apply (Nat.mod_unique _ _ (S a)); lia].
  - left. split; [lia|]. split; [symmetry; apply (Nat.div_unique _ _ _ (S b)); lia|symmetry; apply (Nat.mod_unique _ _ a); lia].
Qed.
Lemma teAt_step : forall fuel j, (fact dim <= fuel)%nat -> te_increment dim fuel (teAt j) = Ret (teAt (S j)).
Proof.
  intros fuel j F. unfold te_increment, teAt. cbn [te_backend te_backendEnd te_kuhn te_n]. pose proof npos as P.
  pose proof (Nat.mod_upper_bound j (n ^ dim) ltac:(lia)) as B.
  rewrite elemAt_step by assumption. f_equal. unfold se_equals. cbn [se_size se_index elemAt sx_eEnd se_make]. unfold sx_nElements.
  rewrite Nat.eqb_refl. cbn [andb].
  destruct (div_mod_next (n ^ dim) j P) as [(a & b & c)|(a & b & c)]; rewrite b, c.
  - destruct (Nat.eqb_spec (S (j mod n ^ dim)) (n ^ dim)); [lia|]. reflexivity.
  - destruct (Nat.eqb_spec (S (j mod n ^ dim)) (n ^ dim)); [|lia]. rewrite elemAt_begin by assumption. reflexivity.
Qed.
Lemma teAt_index : forall j, te_index dim (teAt j) = j.
Proof.
  intros j. unfold te_index, teAt, sx_nElements, elemAt. cbn [te_kuhn te_n te_backend se_index]. pose proof npos.
  rewrite (Nat.div_mod j (n ^ dim)) at 3 by lia. lia.
Qed.
Lemma teAt_not_end : forall j, (j < n ^ dim * tr_count t)%nat -> te_equals (teAt j) (te_make dim t n true) = false.
Proof.
  intros j H. unfold te_equals, teAt, te_make. cbn [te_kuhn te_backend]. destruct (Nat.eqb_spec (j / n ^ dim) (tr_count t)) as [E|]; [|reflexivity].
  assert (j / n ^ dim < tr_count t)%nat by (apply Nat.div_lt_upper_bound; [pose proof npos; lia|assumption]). lia.
Qed.

Definition tvAt (j : nat) : TVert :=
  {| tv_n := n; tv_kuhn := (j / sx_nVertices dim n)%nat; tv_backend := svAt dim n (j mod sx_nVertices dim n); tv_backendEnd := sx_vEnd n |}.
Lemma nvpos : (0 < sx_nVertices dim n)%nat.
Proof. unfold sx_nVertices. pose proof (binom_mono dim dim (dim + n) ltac:(lia)). rewrite binom_diag in H. lia. Qed.
Lemma tvAt_begin : tvAt 0 = tv_make t n false.
Proof. unfold tvAt, tv_make. pose proof nvpos. rewrite Nat.div_0_l, Nat.mod_0_l by lia. rewrite svAt_begin. reflexivity. Qed.
Lemma tvAt_end : tvAt (sx_nVertices dim n * tr_count t) = tv_make t n true.
Proof. unfold tvAt, tv_make. pose proof nvpos. rewrite Nat.mul_comm, Nat.div_mul, Nat.mod_mul by lia. rewrite svAt_begin. reflexivity. Qed.
Lemma tvAt_step : forall j, tv_increment dim (tvAt j) = Some (tvAt (S j)).
Proof.
  intros j. unfold tv_increment, tvAt. cbn [tv_backend tv_backendEnd tv_kuhn tv_n]. pose proof nvpos as P.
  pose proof (Nat.mod_upper_bound j (sx_nVertices dim n) ltac:(lia)) as B.
  rewrite svAt_step by assumption. cbn [obind]. f_equal.
  pose proof (svAt_end dim n (S (j mod sx_nVertices dim n)) Hd) as E.
  destruct (div_mod_next (sx_nVertices dim n) j P) as [(a & b & c)|(a & b & c)]; rewrite b, c.
  - destruct (sv_equals dim _ _) eqn:F; [apply proj1 in E; specialize (E eq_refl); lia|]. reflexivity.
  - rewrite (proj2 E a). rewrite svAt_begin. reflexivity.
Qed.
Lemma tvAt_index : forall j, tv_index dim (tvAt j) = j.
Proof.
  intros j. unfold tv_index, tvAt, sv_index, svAt. cbn [tv_kuhn tv_n tv_backend sv_vertex]. rewrite vseq_index by assumption.
  pose proof nvpos. rewrite (Nat.div_mod j (sx_nVertices dim n)) at 3 by lia. lia.
Qed.
Lemma tvAt_not_end : forall j, (j < sx_nVertices dim n * tr_count t)%nat -> tv_equals dim (tvAt j) (tv_make t n true) = false.
Proof.
  intros j H. unfold tv_equals, tvAt, tv_make. cbn [tv_kuhn tv_backend]. destruct (Nat.eqb_spec (j / sx_nVertices dim n) (tr_count t)) as [E|]; [|reflexivity].
  assert (j / sx_nVertices dim n < tr_count t)%nat by (apply Nat.div_lt_upper_bound; [pose proof nvpos; lia|assumption]). lia.
Qed.
End Iter.

(** ** the elements as point sets *)
Section Shape.
Variables (dim : nat) (t : Triang).
Hypothesis Hd : (0 < dim)%nat.
Variable Tinv : Vec -> Vec.
Variables d d' : R.
Hypothesis Hperm : forall k, (k < tr_count t)%nat -> (tr_perm t k < fact dim)%nat.
Hypothesis Hinj : forall k k', (k < tr_count t)%nat -> (k' < tr_count t)%nat -> tr_perm t k = tr_perm t k' -> k = k'.
Hypothesis HT : affdet dim (tr_transform t) d.
Hypothesis HTi : affdet dim Tinv d'.
Hypothesis T_Ti : forall x, agree dim (tr_transform t (Tinv x)) x.
Hypothesis Ti_T : forall x, agree dim (Tinv (tr_transform t x)) x.

Notation kp k := (permOf dim (tr_perm t k)).
Definition Hmap (k : nat) (x : Vec) : Vec := tr_transform t (referenceToKuhn Rplus dim x (kp k)).
Lemma te_global_eq : forall s x, (te_kuhn s < tr_count t)%nat -> te_global dim t s x = Some (Hmap (te_kuhn s) x).
Proof.
  intros s x H. unfold te_global. destruct (permOf_spec dim (tr_perm t (te_kuhn s)) (Hperm _ H)) as [E _]. rewrite E. reflexivity.
Qed.
Lemma te_corners_eq : forall r s p, (te_kuhn s < tr_count t)%nat -> getPermutation dim (se_kuhn (te_backend s)) = Some p ->
  te_corners dim t r s = Some (map (fun i => Hmap (te_kuhn s) (Gmap dim p (se_origin (te_backend s)) (se_size (te_backend s)) (sc i))) (seq 0 (dim + 1))).
Proof.
  intros r s p H E. unfold te_corners. rewrite (se_geometry_eq dim r _ p E). cbn [obind]. apply sequence_map. intros i I. apply in_seq in I.
  unfold mlg_corner. cbn [ml_corners]. rewrite nth_error_map, (nth_error_nth' _ 0%nat) by (rewrite seq_length; lia).
  rewrite seq_nth by lia. cbn [option_map obind Nat.add]. apply te_global_eq. assumption.
Qed.
Lemma te_geometry_eq : forall r s p, (te_kuhn s < tr_count t)%nat -> getPermutation dim (se_kuhn (te_backend s)) = Some p ->
  te_geometry dim t r s = Some {| ml_id := simplexId; ml_ref := r; ml_corners :=
    map (fun i => Hmap (te_kuhn s) (Gmap dim p (se_origin (te_backend s)) (se_size (te_backend s)) (sc i))) (seq 0 (dim + 1)) |}.
Proof. intros r s p H E. unfold te_geometry. rewrite (te_corners_eq r s p H E). reflexivity. Qed.
Lemma affdet_Hmap : forall k, (k < tr_count t)%nat -> affdet dim (Hmap k) d.
Proof.
  intros k H. destruct (permOf_spec dim _ (Hperm _ H)) as [_ P].
  pose proof (affdet_comp dim _ _ _ _ HT (affdet_r2k dim _ P)) as A. rewrite Rmult_1_l in A. exact A.
Qed.
Lemma affdet_HG : forall k p o n, (k < tr_count t)%nat -> isPerm dim p -> affdet dim (fun x => Hmap k (Gmap dim p o n x)) ((/ INR n) ^ dim * d).
Proof. intros k p o n H P. exact (affdet_comp dim _ _ _ _ (affdet_Hmap k H) (affdet_Gmap dim p o n P)). Qed.
Definition Hinv (k : nat) (x : Vec) : Vec := kuhnToReference Rminus dim (Tinv x) (kp k).
Lemma affdet_Hinv : forall k, (k < tr_count t)%nat -> affdet dim (Hinv k) d'.
Proof.
  intros k H. destruct (permOf_spec dim _ (Hperm _ H)) as [_ P].
  pose proof (affdet_comp dim _ _ _ _ (affdet_k2r dim _ P) HTi) as A. rewrite Rmult_1_r in A. exact A.
Qed.
Lemma Hinv_H : forall k x, (k < tr_count t)%nat -> agree dim (Hinv k (Hmap k x)) x.
Proof.
  intros k x H. destruct (permOf_spec dim _ (Hperm _ H)) as [_ P]. unfold Hinv, Hmap.
  intros i Hi. pose proof (affdet_agree dim _ 1 _ _ (affdet_k2r dim _ P) (Ti_T (referenceToKuhn Rplus dim x (kp k))) i Hi) as A.
  cbv beta in A. rewrite A, k2r_r2k by assumption. reflexivity.
Qed.
Lemma H_Hinv : forall k x, (k < tr_count t)%nat -> agree dim (Hmap k (Hinv k x)) x.
Proof.
  intros k x H. destruct (permOf_spec dim _ (Hperm _ H)) as [_ P]. unfold Hinv, Hmap. rewrite r2k_k2r by assumption. apply T_Ti.
Qed.
Lemma HG_injective : forall k p o n, (k < tr_count t)%nat -> isPerm dim p -> (0 < n)%nat -> injective_on dim (fun x => Hmap k (Gmap dim p o n x)).
Proof.
  intros k p o n H P Hn x y A. apply (Gmap_injective dim p o n P Hn).
  apply (affdet_agree dim _ d' _ _ (affdet_Hinv k H)) in A. intros i Hi. rewrite <- (Hinv_H k) by assumption.
  rewrite A by assumption. apply Hinv_H; assumption.
Qed.
(** the points of an element *)
Lemma te_hull : forall (Q : R -> Prop) k p o n X, Q 1 -> (k < tr_count t)%nat -> isPerm dim p -> (0 < n)%nat ->
  ((exists x, simpQ Q dim x /\ agree dim X (Hmap k (Gmap dim p o n x))) <-> kuhnQ Q dim p (local0 dim n o (Hinv k X))).
Proof.
  intros Q k p o n X Q1 H P Hn. rewrite <- (elem_hull Q dim p o n (Hinv k X) Q1 P Hn). split; intros (x & S & A); exists x; (split; [assumption|]).
  - intros i Hi. rewrite (affdet_agree dim _ d' _ _ (affdet_Hinv k H) A i Hi). apply Hinv_H; assumption.
  - intros i Hi. rewrite <- (H_Hinv k X H i Hi). apply (affdet_agree dim _ d _ _ (affdet_Hmap k H) A i Hi).
Qed.
Lemma in_kuhn_Hinv : forall (Q : R -> Prop) k X, Q 1 -> (k < tr_count t)%nat -> (simpQ Q dim (Hinv k X) <-> kuhnQ Q dim (kp k) (Tinv X)).
Proof.
  intros Q k X Q1 H. destruct (permOf_spec dim _ (Hperm _ H)) as [_ P]. rewrite (simp_kuhn Q dim (kp k)) by assumption.
  unfold Hinv. rewrite r2k_k2r by assumption. reflexivity.
Qed.
Lemma te_disjoint : forall n k k' e e' p p' X, (0 < n)%nat -> (k < tr_count t)%nat -> (k' < tr_count t)%nat -> (e < n ^ dim)%nat -> (e' < n ^ dim)%nat ->
  getPermutation dim (se_kuhn (elemAt dim n e)) = Some p -> getPermutation dim (se_kuhn (elemAt dim n e')) = Some p' ->
  kuhnQ (Rlt 0) dim p (local0 dim n (se_origin (elemAt dim n e)) (Hinv k X)) ->
  kuhnQ (Rle 0) dim p' (local0 dim n (se_origin (elemAt dim n e')) (Hinv k' X)) -> k = k' /\ e = e'.
Proof.
  intros n k k' e e' p p' X Hn Hk Hk' He He' E E' K K'.
  pose proof (elem_inside_strict dim n e p _ Hd Hn He E K) as I.
  pose proof (elem_inside dim n e' p' _ Hd Hn He' E' K') as I'. apply inSimplex_Q in I'.
  apply (in_kuhn_Hinv (Rlt 0)) in I; [|lra|assumption]. apply (in_kuhn_Hinv (Rle 0)) in I'; [|lra|assumption].
  destruct (permOf_spec dim _ (Hperm _ Hk)) as [G P]. destruct (permOf_spec dim _ (Hperm _ Hk')) as [G' P'].
  assert (KK : k = k').
  { apply Hinj; auto.
    assert (Z : forall (Q : R -> Prop) q, kuhnQ Q dim q (Tinv X) -> isPerm dim q -> kuhnQ Q dim q (fun j => Tinv X j - INR 0)).
    { intros Q q HQ Pq. revert HQ. apply kuhnQ_agree; [assumption|]. intros j _. cbn. ring. }
    destruct (kuhn_unique dim (kp k) (kp k') (fun _ => 0%nat) (fun _ => 0%nat) (Tinv X) Hd P P') as [_ A]; [apply Z; assumption|apply Z; assumption|].
    eapply getPermutation_inj; [apply Hperm; assumption|apply Hperm; assumption|exact G|exact G'|exact A]. }
  subst k'. split; [reflexivity|]. exact (elem_disjoint dim n e e' p p' _ Hd Hn He He' E E' K K').
Qed.
End Shape.

(** ** the three shapes *)
Lemma insideT_cub : forall T x, cubT T -> (insideT T x 1 <-> forall i, (i < tdim T)%nat -> 0 <= x i <= 1).
Proof.
  induction T as [|b IH|b IH]; intros x C; cbn [insideT tdim cubT] in *.
  - split; [intros _ i Hi; lia|auto].
  - rewrite (IH x C). split.
    + intros [A B] i Hi. destruct (Nat.eq_dec i (tdim b)) as [->|]; [assumption|apply B; lia].
    + intros A. split; [apply A; lia|intros i Hi; apply A; lia].
  - subst b. cbn [tdim insideT]. split.
    + intros [A _] i Hi. replace i with 0%nat by lia. assumption.
    + intros A. split; [apply A; lia|exact I].
Qed.
Lemma cube_hull : forall dim x, (dim < 256)%nat ->
  (in_hull dim (referenceCorners (gt_id (cube dim)) dim) x <-> forall i, (i < dim)%nat -> 0 <= x i <= 1).
Proof.
  intros dim x H. rewrite corners_verts. pose proof (in_hull_insideT (topo_of (gt_id (cube dim)) dim) x) as A. rewrite tdim_topo_of in A. rewrite A.
  rewrite insideT_cub, tdim_topo_of; [reflexivity|]. apply cubT_topo. intros k Hk. unfold cube, GT3. cbn [gt_id].
  destruct (Nat.ltb_spec 1 dim); [|lia]. rewrite bit_pow. rewrite N.sub_1_r, <- N.ones_equiv. apply N.ones_spec_low. lia.
Qed.
Lemma prism_hull : forall x, in_hull 3 (referenceCorners (gt_id prism) 3) x <->
  (0 <= x 2%nat <= 1 /\ 0 <= x 0%nat /\ 0 <= x 1%nat /\ x 0%nat + x 1%nat <= 1).
Proof.
  intros x. rewrite corners_verts. pose proof (in_hull_insideT (topo_of (gt_id prism) 3) x) as A. rewrite tdim_topo_of in A. rewrite A.
  cbn. intuition lra.
Qed.
Lemma pyramid_hull : forall x, in_hull 3 (referenceCorners (gt_id pyramid) 3) x <->
  (0 <= x 2%nat /\ 0 <= x 0%nat /\ 0 <= x 1%nat /\ x 0%nat + x 2%nat <= 1 /\ x 1%nat + x 2%nat <= 1).
Proof.
  intros x. rewrite corners_verts. pose proof (in_hull_insideT (topo_of (gt_id pyramid) 3) x) as A. rewrite tdim_topo_of in A. rewrite A.
  cbn. split; intros H; repeat apply conj; try lra; exact I.
Qed.

Definition prismInv (x : Vec) : Vec := fun i => match i with 0%nat => 1 - x 1%nat | 1%nat => x 0%nat | _ => x i end.
Lemma prism_affdet : affdet 3 prismTransform 1.
Proof.
  exists (fun k => match k with 1%nat => 1 | _ => 0 end),
    (fun j k => match j, k with 1%nat, 0%nat => 1 | 0%nat, 1%nat => -1 | 2%nat, 2%nat => 1 | _, _ => 0 end).
  split; [|rewrite detR_3; cbn; ring].
  intros x [|[|[|k]]] H; try lia; cbn [rsum prismTransform]; ring.
Qed.
Lemma prismInv_affdet : affdet 3 prismInv 1.
Proof.
  exists (fun k => match k with 0%nat => 1 | _ => 0 end),
    (fun j k => match j, k with 1%nat, 0%nat => -1 | 0%nat, 1%nat => 1 | 2%nat, 2%nat => 1 | _, _ => 0 end).
  split; [|rewrite detR_3; cbn; ring].
  intros x [|[|[|k]]] H; try lia; cbn [rsum prismInv]; ring.
Qed.
Lemma pyramid_affdet : affdet 3 pyramidTransform 1.
Proof.
  exists (fun k => match k with 2%nat => 0 | _ => 1 end),
    (fun j k => match j, k with 0%nat, 0%nat => -1 | 1%nat, 1%nat => -1 | 2%nat, 2%nat => 1 | _, _ => 0 end).
  split; [|rewrite detR_3; cbn; ring].
  intros x [|[|[|k]]] H; try lia; cbn [rsum pyramidTransform]; ring.
Qed.

Record ShapeOK (dim : nat) (t : Triang) (id : N) (Tinv : Vec -> Vec) : Prop := {
  so_dim : (0 < dim)%nat;
  so_perm : forall k, (k < tr_count t)%nat -> (tr_perm t k < fact dim)%nat;
  so_inj : forall k k', (k < tr_count t)%nat -> (k' < tr_count t)%nat -> tr_perm t k = tr_perm t k' -> k = k';
  so_T : affdet dim (tr_transform t) 1;
  so_Ti : affdet dim Tinv 1;
  so_TTi : forall x, agree dim (tr_transform t (Tinv x)) x;
  so_TiT : forall x, agree dim (Tinv (tr_transform t x)) x;
  so_region : forall x, in_hull dim (referenceCorners id dim) x <->
    exists k, (k < tr_count t)%nat /\ inKuhn dim (permOf dim (tr_perm t k)) (Tinv x) }.

Lemma shape_cube : forall dim, (0 < dim < 256)%nat -> ShapeOK dim (tr_cube dim) (gt_id (cube dim)) (fun x => x).
Proof.
  intros dim H. constructor; try (cbn; intros; auto; lia).
  - apply affdet_id.
  - apply affdet_id.
  - intros x i _. reflexivity.
  - intros x i _. reflexivity.
  - intros x. rewrite cube_hull by lia. split.
    + intros B. destruct (sort_down dim x) as (p & q & P & Q & qp & pq & S & _).
      destruct (getPermutation_surj dim p P) as (m & p' & Hm & E & A). exists m. split; [assumption|]. cbn [tr_cube tr_perm].
      unfold permOf. rewrite E. split.
      * intros i Hi. rewrite A by assumption. apply B, P, Hi.
      * intros i Hi. rewrite !A by lia. apply S, Hi.
    + intros (k & Hk & B & _) i Hi. cbn [tr_cube tr_perm tr_count] in *. destruct (permOf_spec dim k Hk) as [_ P].
      destruct (perm_onto dim _ P i Hi) as (j & Hj & <-). apply B, Hj.
Qed.
Lemma kuhn3 : forall p y, inKuhn 3 p y <-> 1 >= y (p 0%nat) /\ y (p 0%nat) >= y (p 1%nat) /\ y (p 1%nat) >= y (p 2%nat) /\ y (p 2%nat) >= 0.
Proof.
  intros p y. split.
  - intros [A B]. pose proof (A 0%nat ltac:(lia)). pose proof (A 2%nat ltac:(lia)). pose proof (B 0%nat ltac:(lia)). pose proof (B 1%nat ltac:(lia)). lra.
  - intros A. split; intros [|[|[|i]]] Hi; try lia; lra.
Qed.
Lemma shape_prism : ShapeOK 3 tr_prism (gt_id prism) prismInv.
Proof.
  constructor.
  - lia.
  - intros [|[|[|k]]] H; cbn in H |- *; lia.
  - intros [|[|[|k]]] [|[|[|k']]] H H' E; cbn in H, H', E; try lia.
  - apply prism_affdet.
  - apply prismInv_affdet.
  - intros x [|[|[|i]]] Hi; try lia; cbn; lra.
  - intros x [|[|[|i]]] Hi; try lia; cbn; lra.
  - intros x. rewrite prism_hull. split.
    + intros H. destruct (Rle_dec (x 2%nat) (x 0%nat)) as [L|L]; [exists 2%nat|destruct (Rle_dec (x 2%nat) (1 - x 1%nat)); [exists 0%nat|exists 1%nat]];
        (split; [cbn; lia|apply kuhn3; cbn; lra]).
    + intros (k & Hk & K). apply kuhn3 in K. destruct k as [|[|[|k]]]; cbn in Hk, K; try lia; lra.
Qed.
Lemma shape_pyramid : ShapeOK 3 tr_pyramid (gt_id pyramid) pyramidTransform.
Proof.
  constructor.
  - lia.
  - intros [|[|k]] H; cbn in H |- *; lia.
  - intros [|[|k]] [|[|k']] H H' E; cbn in H, H', E; try lia.
  - apply pyramid_affdet.
  - apply pyramid_affdet.
  - intros x [|[|[|i]]] Hi; try lia; cbn; lra.
  - intros x [|[|[|i]]] Hi; try lia; cbn; lra.
  - intros x. rewrite pyramid_hull. split.
    + intros H. destruct (Rle_dec (x 0%nat) (x 1%nat)) as [L|L]; [exists 0%nat|exists 1%nat];
        (split; [cbn; lia|apply kuhn3; cbn; lra]).
    + intros (k & Hk & K). apply kuhn3 in K. destruct k as [|[|k]]; cbn in Hk, K; try lia; lra.
Qed.
