(** C86: orientation of the elements of a refinement, by geometry() and by vertexIndices(). *)
From Coq Require Import PeanoNat NArith ZArith Bool List Reals Factorial Lia Lra FunctionalExtensionality.
From Verif Require Import M_Type M_RefTopo M_RefGeo M_Matrix S_Topo S_RefGeo S_Matrix S_MultiLinear P_RSum P_RefGeo2
  P_Det P_RefDet P_MxBridge M_MultiLinear M_Affine
  M_Refine S_Refine S_Refine2 P_Refine1 P_Refine2 P_Refine3 P_Refine4 P_Refine5 P_Refine6 P_Refine7 P_Refine8 P_Refine9 T_Refine S_Orientation P_Orientation.
Import ListNotations.
Local Open Scope R_scope.

(** ** geometry(): all elements are oriented like the reference element *)
Lemma orientation_list : forall dim G d, affdet dim G d -> orientation dim (fun i => nth i (map (fun i => G (sc i)) (seq 0 (dim + 1))) (fun _ => 0)) = d.
Proof.
  intros dim G d H. rewrite (orientation_ext dim _ (fun i => G (sc i))); [rewrite (orientation_affine dim G d sc H), orientation_sc; ring|].
  intros i Hi j Hj. rewrite nth_map_seq by lia. reflexivity.
Qed.
Theorem C86_geometry : forall fuel dim n r st k g, (0 < dim)%nat -> (0 < n)%nat -> (fact dim <= fuel)%nat -> simplexElements fuel dim n st ->
  (k < n ^ dim)%nat -> se_geometry dim r (st k) = Some g ->
  orientation dim (fun i => nth i (ml_corners g) (fun _ => 0)) = (/ INR n) ^ dim.
Proof.
  intros fuel dim n r st k g Hd Hn F V Hk E. rewrite !(stElem fuel dim n st Hd Hn F V) in * by assumption.
  destruct (elem_spec dim n k Hd Hn Hk) as (p & q & G & P & _). rewrite (se_geometry_eq dim r _ p G) in E. injection E as <-. cbn [ml_corners].
  apply (orientation_list dim (Gmap dim p (se_origin (elemAt dim n k)) n)). apply affdet_Gmap. assumption.
Qed.
Print Assumptions C86_geometry.
Theorem C86_geometry_triangulation : forall fuel dim t id n r st k g, CoarseShape dim t id -> (0 < n)%nat -> (fact dim <= fuel)%nat ->
  triangElements fuel dim t n st -> (k < tr_nElements dim t n)%nat -> te_geometry dim t r (st k) = Some g ->
  orientation dim (fun i => nth i (ml_corners g) (fun _ => 0)) = (/ INR n) ^ dim.
Proof.
  intros fuel dim t id n r st k g Sh Hn F V Hk E. destruct (shape_ok _ _ _ Sh) as (Ti & Sk). pose proof Sk as [S1 S2 S3 S4 S5 S6 S7 S8].
  destruct (tr_split fuel dim t n Hn F k Hk) as [H1 H2].
  destruct (tstGeo fuel dim t id n r st Sh Hn F V Ti Sk k Hk) as (p & P & G & E'). rewrite E' in E. injection E as <-. cbn [ml_corners].
  transitivity ((/ INR n) ^ dim * 1); [|ring].
  exact (orientation_list dim (fun x => Hmap dim t (k / n ^ dim) (Gmap dim p (se_origin (elemAt dim n (k mod n ^ dim))) n x)) _ (affdet_HG dim t 1 S2 S4 _ p _ n H1 P)).
Qed.
Print Assumptions C86_geometry_triangulation.
(** the corner 2^i of a cube is its neighbour of corner 0 in direction i *)
Theorem C86_geometry_cube : forall dim n st k, (0 < n)%nat -> cubeElements dim n st -> (k < n ^ dim)%nat ->
  orientation dim (fun i => aac_corner dim dim (he_geometry dim (st k)) (match i with O => 0 | S l => 2 ^ l end)) = (/ INR n) ^ dim.
Proof.
  intros dim n st k Hn V Hk. rewrite !(hst n _ st V) in * by (unfold hc_nElements; lia).
  rewrite (orientation_ext dim _ (fun i => (fun x j => (x j + INR (idx2coord dim k n j)) / INR n) (sc i))).
  - rewrite (orientation_affine dim _ _ sc (affdet_scale dim (fun j => INR (idx2coord dim k n j)) (INR n))), orientation_sc. ring.
  - intros i Hi j Hj. rewrite he_corner by assumption. rewrite plus_INR. f_equal. f_equal. unfold sc. destruct i as [|i].
    + rewrite Nat.bits_0. reflexivity.
    + rewrite Nat.pow2_bits_eqb. cbn [Nat.eqb]. destruct (Nat.eqb i j); reflexivity.
Qed.
Print Assumptions C86_geometry_cube.

(** ** vertexIndices(): the orientation depends on the permutation *)
Theorem C86_vertex_indices : forall fuel dim n st vs k, (0 < dim)%nat -> (0 < n)%nat -> (fact dim <= fuel)%nat ->
  simplexElements fuel dim n st -> simplexVertices dim n vs -> (k < n ^ dim)%nat ->
  exists vi x, se_vertexIndices dim (st k) = Some vi /\ (forall i, (i <= dim)%nat -> sv_coords dim (vs (vi i)) = Some (x i))
  /\ orientation dim x = indexSign dim (se_kuhn (st k)) * (/ INR n) ^ dim.
Proof.
  intros fuel dim n st vs k Hd Hn F V W Hk. rewrite !(stElem fuel dim n st Hd Hn F V) in * by assumption.
  destruct (elem_orientation dim n k (fun x => x) 1 Hd Hn Hk (affdet_id dim)) as (vi & x & E & X & O). exists vi, x. split; [assumption|]. split.
  - intros i Hi. destruct (X i Hi) as [B C]. rewrite (visits_unique _ _ _ _ _ _ W (svertices dim n Hd)); [assumption|]. lia.
  - etransitivity; [exact O|]. ring.
Qed.
Print Assumptions C86_vertex_indices.
Theorem C86_vertex_indices_triangulation : forall fuel dim t id n st vs k, CoarseShape dim t id -> (0 < n)%nat -> (fact dim <= fuel)%nat ->
  triangElements fuel dim t n st -> triangVertices dim t n vs -> (k < tr_nElements dim t n)%nat ->
  exists vi x, te_vertexIndices dim (st k) = Some vi /\ (forall i, (i <= dim)%nat -> tv_coords dim t (vs (vi i)) = Some (x i))
  /\ orientation dim x = indexSign dim (se_kuhn (te_backend (st k))) * (/ INR n) ^ dim.
Proof.
  intros fuel dim t id n st vs k Sh Hn F V W Hk. destruct (shape_ok _ _ _ Sh) as (Ti & Sk). pose proof Sk as [S1 S2 S3 S4 S5 S6 S7 S8].
  destruct (tr_split fuel dim t n Hn F k Hk) as [H1 H2]. rewrite !(tst fuel dim t id n st Sh Hn F V) by assumption.
  set (j := (k / n ^ dim)%nat) in *. set (N := sx_nVertices dim n).
  destruct (elem_orientation dim n _ (Hmap dim t j) 1 S1 Hn H2 (affdet_Hmap dim t 1 S2 S4 j H1)) as (vi & x & E & X & O).
  exists (fun i => (vi i + j * N)%nat), (fun i => Hmap dim t j (x i)). split.
  { unfold te_vertexIndices, teAt. cbn [te_backend te_kuhn te_n]. rewrite E. reflexivity. }
  split; [|rewrite O; unfold teAt; cbn [te_backend]; ring].
  intros i Hi. destruct (X i Hi) as [B C]. fold N in B. assert (BB : (vi i + j * N < tr_nVertices dim t n)%nat) by (unfold tr_nVertices; fold N; nia).
  rewrite (tvst fuel dim t id n vs Sh Hn F W) by assumption. unfold tv_coords, tvAt. cbn [tv_backend tv_kuhn]. fold N.
  assert (Q1 : ((vi i + j * N) / N = j)%nat) by (rewrite Nat.div_add by lia; rewrite Nat.div_small by assumption; lia).
  assert (Q2 : ((vi i + j * N) mod N = vi i)%nat) by (rewrite Nat.mod_add by lia; apply Nat.mod_small; assumption).
  rewrite Q1, Q2, C. cbn [obind]. destruct (permOf_spec dim _ (S2 _ H1)) as [EP _]. rewrite EP. reflexivity.
Qed.
Print Assumptions C86_vertex_indices_triangulation.
(** up to dimension two every list of indices has the orientation of the reference element *)
Theorem C86_plane : forall fuel dim n st vs k vi x, (0 < dim <= 2)%nat -> (0 < n)%nat -> (fact dim <= fuel)%nat ->
  simplexElements fuel dim n st -> simplexVertices dim n vs -> (k < n ^ dim)%nat -> se_vertexIndices dim (st k) = Some vi ->
  (forall i, (i <= dim)%nat -> sv_coords dim (vs (vi i)) = Some (x i)) -> orientation dim x = (/ INR n) ^ dim.
Proof.
  intros fuel dim n st vs k vi x Hd Hn F V W Hk E X.
  destruct (C86_vertex_indices fuel dim n st vs k ltac:(lia) Hn F V W Hk) as (vi' & x' & E' & X' & O). rewrite E in E'. injection E' as <-.
  rewrite (orientation_ext dim x x'); [|intros i Hi j Hj; pose proof (X i Hi) as A; rewrite (X' i Hi) in A; assert (EQ : x' i = x i) by congruence; rewrite EQ; reflexivity].
  rewrite O. rewrite indexSign_plane; [ring|lia|]. rewrite (stElem fuel dim n st ltac:(lia) Hn F V) by assumption. apply candK_lt.
Qed.
Print Assumptions C86_plane.
(** from dimension three on there are elements of either orientation, in spite of the reversal *)
Theorem C86_order_refuted : forall fuel dim n st vs, (3 <= dim)%nat -> (2 <= n)%nat -> (fact dim <= fuel)%nat ->
  simplexElements fuel dim n st -> simplexVertices dim n vs ->
  exists k k' vi vi' x x', (k < n ^ dim)%nat /\ (k' < n ^ dim)%nat /\ se_vertexIndices dim (st k) = Some vi /\ se_vertexIndices dim (st k') = Some vi'
  /\ (forall i, (i <= dim)%nat -> sv_coords dim (vs (vi i)) = Some (x i)) /\ (forall i, (i <= dim)%nat -> sv_coords dim (vs (vi' i)) = Some (x' i))
  /\ orientation dim x < 0 < orientation dim x'.
Proof.
  intros fuel dim n st vs Hd Hn F V W. destruct (kuhn_two dim n Hd Hn) as (k & Hk & K).
  assert (H0 : (0 < n ^ dim)%nat) by (apply pow_pos; lia).
  destruct (C86_vertex_indices fuel dim n st vs k ltac:(lia) ltac:(lia) F V W Hk) as (vi & x & E & X & O).
  destruct (C86_vertex_indices fuel dim n st vs 0 ltac:(lia) ltac:(lia) F V W H0) as (vi' & x' & E' & X' & O').
  rewrite (stElem fuel dim n st ltac:(lia) ltac:(lia) F V) in O by assumption. rewrite (stElem fuel dim n st ltac:(lia) ltac:(lia) F V) in O' by assumption.
  rewrite K, indexSign_two in O by assumption. rewrite elemAt_begin in O' by lia.
  assert (Z : indexSign dim 0 = 1).
  { unfold indexSign. replace (transpositions dim 0) with 0%nat; [cbn; ring|]. symmetry. unfold transpositions. apply length_zero_iff_nil.
    induction (seq 0 dim) as [|a l IH]; [reflexivity|]. cbn [filter]. rewrite Nat.div_0_l by (pose proof (fact_neq_0 a); assumption). rewrite Nat.mod_0_l by lia. cbn. exact IH. }
  cbn [sx_eBegin se_make se_kuhn] in O'. rewrite Z in O'.
  assert (P : 0 < (/ INR n) ^ dim) by (apply pow_lt, Rinv_0_lt_compat, lt_0_INR; lia).
  exists k, 0%nat, vi, vi', x, x'. repeat (split; [assumption|]). lra.
Qed.
Print Assumptions C86_order_refuted.
(** the signs of the 6 permutations in dimension three: the parity of the permutation, not of its number *)
Example C86_example_three : map (transpositions 3) [0; 1; 2; 3; 4; 5]%nat = [0; 1; 1; 2; 1; 2]%nat.
Proof. reflexivity. Qed.
(** the eight elements of the tetrahedron with two intervals: number of the permutation and indices of the vertices; the elements with permutations 1 and 2
   are oriented the other way; those with the odd numbers are reversed, which changes nothing in dimension three *)
Example C86_example_element : map (fun k => (se_kuhn (elemAt 3 2 k), option_map (fun v => map v [0; 1; 2; 3]%nat) (se_vertexIndices 3 (elemAt 3 2 k)))) (seq 0 8)
  = [(0, Some [0; 1; 2; 3]); (0, Some [1; 4; 5; 6]); (1, Some [6; 5; 2; 1]); (5, Some [6; 3; 2; 1]);
     (0, Some [2; 5; 7; 8]); (2, Some [2; 5; 6; 8]); (3, Some [8; 6; 3; 2]); (0, Some [3; 6; 8; 9])]%nat.
Proof. vm_compute. reflexivity. Qed.
