(** C46-C53: the refinements. *)
From Coq Require Import PeanoNat NArith ZArith Bool List Reals Factorial Lia Lra FunctionalExtensionality.
From Verif Require Import M_Type M_RefTopo M_RefGeo M_Matrix S_Topo S_RefGeo S_Matrix S_MultiLinear P_Type P_Topo P_RefTopo P_RefTopo2 P_RSum P_RefGeo P_RefGeo2 P_RefGeo4
  P_Det P_RefDet P_RefGeo3 P_Type2 P_RefTopo3 P_MxBridge P_RefVol T_RefGeo M_MultiLinear M_Affine P_Affine P_AACube T_Affine
  M_Refine S_Refine S_Refine2 P_Refine1 P_Refine2 P_Refine3 P_Refine4 P_Refine5 P_Refine6 P_Refine7 P_Refine8 P_Refine9.
Import ListNotations.
Local Open Scope R_scope.

(** ** C49 permutations *)
Theorem C49_permutations : forall n,
  (forall m, (m < fact n)%nat -> exists p, getPermutation n m = Some p /\ isPerm n p)
  /\ (forall s, isPerm n s -> exists m p, (m < fact n)%nat /\ getPermutation n m = Some p /\ agree n p s)
  /\ (forall m m' p p', (m < fact n)%nat -> (m' < fact n)%nat -> getPermutation n m = Some p -> getPermutation n m' = Some p' ->
        agree n p p' -> m = m').
Proof.
  intros n. split; [exact (getPermutation_perm n)|]. split; [exact (getPermutation_surj n)|].
  intros m m' p p'. exact (getPermutation_inj n m m' p p').
Qed.
Print Assumptions C49_permutations.
Theorem C49_identity : forall n, getPermutation n 0 = Some (fun i => i).
Proof. exact getPermutation_zero. Qed.
Print Assumptions C49_identity.
(** numbers beyond the range access the vector outside of its bounds *)
Theorem C49_out_of_range : forall n m, (0 < n)%nat -> (fact n <= m)%nat -> getPermutation n m = None.
Proof. exact getPermutation_oob. Qed.
Print Assumptions C49_out_of_range.
Example C49_example : option_map (fun p => map p [0; 1; 2; 3]%nat) (getPermutation 4 17) = Some [3; 2; 0; 1]%nat
  /\ option_map (fun p => map p [0; 1; 2]%nat) (getPermutation 3 4) = Some [2; 1; 0]%nat.
Proof. vm_compute. split; reflexivity. Qed.

(** ** C50 Kuhn coordinates *)
Theorem C50_inverse : forall dim p, isPerm dim p -> forall x : Vec,
  kuhnToReference Rminus dim (referenceToKuhn Rplus dim x p) p = x /\ referenceToKuhn Rplus dim (kuhnToReference Rminus dim x p) p = x.
Proof. intros dim p P x. split; [apply k2r_r2k; assumption|apply r2k_k2r; assumption]. Qed.
Print Assumptions C50_inverse.
Theorem C50_onto : forall dim p, isPerm dim p -> forall x y : Vec,
  (inSimplex dim x <-> inKuhn dim p (referenceToKuhn Rplus dim x p)) /\ (inKuhn dim p y <-> inSimplex dim (kuhnToReference Rminus dim y p)).
Proof.
  intros dim p P. assert (A : forall x, inSimplex dim x <-> inKuhn dim p (referenceToKuhn Rplus dim x p)).
  { intros x. rewrite inSimplex_Q, inKuhn_Q. apply simp_kuhn; [lra|assumption]. }
  intros x y. split; [apply A|]. rewrite A, r2k_k2r by assumption. reflexivity.
Qed.
Print Assumptions C50_onto.
(** the map is affine with determinant 1: it preserves volumes *)
Theorem C50_volume : forall dim p, isPerm dim p ->
  exists (c : Vec) (M : Mat), (forall x k, (k < dim)%nat -> referenceToKuhn Rplus dim x p k = c k + rsum dim (fun j => x j * M j k)) /\ detR dim M = 1.
Proof. intros dim p P. exact (affdet_r2k dim p P). Qed.
Print Assumptions C50_volume.
Example C50_example : let p := fun i => match i with 0%nat => 2%nat | 1%nat => 0%nat | _ => 1%nat end in
  isPerm 3 p /\ map (referenceToKuhn Nat.add 3 (fun i => match i with 0%nat => 1 | 1%nat => 2 | _ => 4 end)%nat p) [0; 1; 2]%nat = [3; 2; 7]%nat.
Proof.
  cbv zeta. split; [|reflexivity]. split; [intros [|[|[|i]]] H; lia|]. intros [|[|[|i]]] [|[|[|j]]] H H' E; lia.
Qed.

(** ** C48 vertices of the simplex *)
Lemma svertices : forall dim n, (0 < dim)%nat -> simplexVertices dim n (svAt dim n).
Proof.
  intros dim n Hd. split; [apply svAt_begin|]. split.
  - intros k Hk. split; [|rewrite Nat.add_1_r; apply svAt_step; assumption].
    destruct (sv_equals dim (svAt dim n k) (sx_vEnd n)) eqn:E; [|reflexivity]. apply svAt_end in E; [lia|assumption].
  - apply svAt_end; [assumption|reflexivity].
Qed.
Theorem C48_count : forall dim n, (0 < dim)%nat -> exists st, simplexVertices dim n st /\ forall k, (k <= sx_nVertices dim n)%nat -> sv_index dim (st k) = k.
Proof.
  intros dim n Hd. exists (svAt dim n). split; [apply svertices; assumption|]. intros k _. apply vseq_index. assumption.
Qed.
Print Assumptions C48_count.
(** [binom] is the binomial coefficient *)
Theorem C48_number : forall dim n, (sx_nVertices dim n * (fact dim * fact n) = fact (dim + n))%nat.
Proof.
  intros dim. unfold sx_nVertices. induction dim as [|d IH]; intros n.
  - cbn [Nat.add fact]. replace (binom n 0) with 1%nat by (destruct n; reflexivity). lia.
  - induction n as [|n IHn].
    + rewrite Nat.add_0_r, binom_diag. cbn [fact]. lia.
    + replace (S d + S n)%nat with (S (d + S n)) by lia. rewrite binom_S. replace (d + S n)%nat with (S d + n)%nat at 2 by lia.
      specialize (IH (S n)). replace (d + S n)%nat with (S d + n)%nat in * by lia.
      change (fact (S (S d + n))) with (S (S d + n) * fact (S d + n))%nat.
      change (fact (S d)) with (S d * fact d)%nat in *. change (fact (S n)) with (S n * fact n)%nat in *.
      nia.
Qed.
Print Assumptions C48_number.
Theorem C48_lattice : forall dim n st, (0 < dim)%nat -> (0 < n)%nat -> simplexVertices dim n st ->
  (forall k, (k < sx_nVertices dim n)%nat -> exists (a : nat -> nat) x, (fold_right Nat.add 0 (map a (seq 0 dim)) <= n)%nat
      /\ sv_coords dim (st k) = Some x /\ agree dim x (fun i => INR (a i) / INR n))
  /\ (forall a : nat -> nat, (fold_right Nat.add 0 (map a (seq 0 dim)) <= n)%nat ->
      exists k, (k < sx_nVertices dim n)%nat /\ exists x, sv_coords dim (st k) = Some x /\ agree dim x (fun i => INR (a i) / INR n))
  /\ (forall k k' x x', (k < sx_nVertices dim n)%nat -> (k' < sx_nVertices dim n)%nat ->
      sv_coords dim (st k) = Some x -> sv_coords dim (st k') = Some x' -> agree dim x x' -> k = k').
Proof.
  intros dim n st Hd Hn V.
  assert (E : forall k, (k < sx_nVertices dim n)%nat -> st k = svAt dim n k).
  { intros k Hk. apply (visits_unique _ _ _ _ _ _ V (svertices dim n Hd)). lia. }
  repeat apply conj.
  - intros k Hk. rewrite E by assumption. apply vertex_lattice; assumption.
  - intros a Ha. destruct (lattice_vertex dim n a Hd Hn Ha) as (k & Hk & X). exists k. split; [assumption|]. rewrite E by assumption. exact X.
  - intros k k' x x' Hk Hk' A B. rewrite E in A, B by assumption. exact (vertex_inj dim n k k' x x' Hd Hn A B).
Qed.
Print Assumptions C48_lattice.
Example C48_example : sx_nVertices 3 4 = 35%nat
  /\ option_map (fun s => map (sv_vertex s) [0; 1; 2]%nat) (Nat.iter 8 (fun s => obind s (sv_increment 3)) (Some (sx_vBegin 4))) = Some [2; 2; 1]%nat.
Proof. vm_compute. split; reflexivity. Qed.

(** ** C51 elements of the simplex *)
Lemma selements : forall fuel dim n, (0 < dim)%nat -> (0 < n)%nat -> (fact dim <= fuel)%nat -> simplexElements fuel dim n (elemAt dim n).
Proof.
  intros fuel dim n Hd Hn F. split; [apply elemAt_begin; assumption|]. unfold sx_nElements. split.
  - intros k Hk. split; [|rewrite elemAt_step by assumption; rewrite Nat.add_1_r; reflexivity].
    unfold se_equals, sx_eEnd, se_make, elemAt. cbn [se_size se_index]. unfold sx_nElements. destruct (Nat.eqb_spec k (n ^ dim)); [lia|apply andb_false_r].
  - rewrite elemAt_end by assumption. unfold se_equals, sx_eEnd. cbn. rewrite !Nat.eqb_refl. reflexivity.
Qed.
(** one call of increment() tries at most dim! candidates *)
Theorem C51_count : forall fuel dim n, (0 < dim)%nat -> (0 < n)%nat -> (fact dim <= fuel)%nat ->
  exists st, simplexElements fuel dim n st
    /\ (forall k, (k <= n ^ dim)%nat -> se_index (st k) = k)
    /\ st (n ^ dim)%nat = sx_eEnd dim n.
Proof.
  intros fuel dim n Hd Hn F. exists (elemAt dim n). split; [apply selements; assumption|]. split; [reflexivity|]. apply elemAt_end; assumption.
Qed.
Print Assumptions C51_count.
Lemma stElem : forall fuel dim n st, (0 < dim)%nat -> (0 < n)%nat -> (fact dim <= fuel)%nat -> simplexElements fuel dim n st ->
  forall k, (k < n ^ dim)%nat -> st k = elemAt dim n k.
Proof. intros fuel dim n st Hd Hn F V k Hk. apply (visits_unique _ _ _ _ _ _ V (selements fuel dim n Hd Hn F)). unfold sx_nElements. lia. Qed.
Theorem C51_distinct : forall fuel dim n st, (0 < dim)%nat -> (0 < n)%nat -> (fact dim <= fuel)%nat -> simplexElements fuel dim n st ->
  forall k k', (k < n ^ dim)%nat -> (k' < n ^ dim)%nat -> se_kuhn (st k) = se_kuhn (st k') -> agree dim (se_origin (st k)) (se_origin (st k')) -> k = k'.
Proof.
  intros fuel dim n st Hd Hn F V k k' Hk Hk' E A. rewrite !(stElem fuel dim n st Hd Hn F V) in * by assumption.
  destruct (elem_spec dim n k Hd Hn Hk) as (p & q & G & _). pose proof G as G'. rewrite E in G'.
  exact (elem_inj dim n k k' p p Hd Hn G G' (fun i _ => eq_refl) A).
Qed.
Print Assumptions C51_distinct.
(** the vertex indices name exactly the corners of the geometry, up to the order *)
Theorem C51_vertex_indices : forall fuel dim n st vs r, (0 < dim)%nat -> (0 < n)%nat -> (fact dim <= fuel)%nat ->
  simplexElements fuel dim n st -> simplexVertices dim n vs ->
  forall k, (k < n ^ dim)%nat -> exists vi g s,
    se_vertexIndices dim (st k) = Some vi /\ se_geometry dim r (st k) = Some g /\ length (ml_corners g) = (dim + 1)%nat /\ isPerm (dim + 1) s
    /\ (forall i, (i <= dim)%nat -> (vi i < sx_nVertices dim n)%nat)
    /\ (forall i j, (i <= dim)%nat -> (j <= dim)%nat -> vi i = vi j -> i = j)
    /\ forall i, (i <= dim)%nat -> exists c x, nth_error (ml_corners g) i = Some c /\ sv_coords dim (vs (vi (s i))) = Some x /\ agree dim c x.
Proof.
  intros fuel dim n st vs r Hd Hn F V W k Hk. rewrite !(stElem fuel dim n st Hd Hn F V) in * by assumption.
  destruct (elem_spec dim n k Hd Hn Hk) as (p & q & G & _).
  destruct (elem_vertices dim n k p Hd Hn Hk G) as (vi & s & E & P & B & I & C).
  exists vi, {| ml_id := simplexId; ml_ref := r; ml_corners := map (fun i => Gmap dim p (se_origin (elemAt dim n k)) n (sc i)) (seq 0 (dim + 1)) |}, s.
  split; [assumption|]. split; [apply se_geometry_eq; assumption|]. split; [cbn; rewrite map_length, seq_length; reflexivity|].
  split; [assumption|]. split; [assumption|]. split; [assumption|].
  intros i Hi. destruct (C i Hi) as (x & X & A). exists (Gmap dim p (se_origin (elemAt dim n k)) n (sc i)), x.
  split; [|split; [|assumption]].
  - cbn [ml_corners]. rewrite nth_error_map, (nth_error_nth' _ 0%nat) by (rewrite seq_length; lia). rewrite seq_nth by lia. reflexivity.
  - rewrite (visits_unique _ _ _ _ _ _ W (svertices dim n Hd)); [assumption|]. apply Nat.lt_le_incl, B. pose proof (proj1 P i ltac:(lia)). lia.
Qed.
Print Assumptions C51_vertex_indices.
(** vertexIndices() is not sorted like the corners of geometry() *)
Theorem C51_order_refuted : exists dim n fuel st vs r k vi g i c x, (0 < dim)%nat /\ (0 < n)%nat /\ (fact dim <= fuel)%nat
  /\ simplexElements fuel dim n st /\ simplexVertices dim n vs /\ (k < n ^ dim)%nat /\ (i <= dim)%nat
  /\ se_vertexIndices dim (st k) = Some vi /\ se_geometry dim r (st k) = Some g
  /\ nth_error (ml_corners g) i = Some c /\ sv_coords dim (vs (vi i)) = Some x /\ ~ agree dim c x.
Proof.
  set (r := (@nil (list SubEntityInfo)) : RefElement). set (e := elemAt 2 2 2).
  assert (D : (0 < 2)%nat) by lia. assert (K : (2 < 2 ^ 2)%nat) by (cbn; lia).
  destruct (elem_spec 2 2 2 D D K) as (p & q & G & P & Q & qp & pq & _). fold e in G.
  assert (exists vi, se_vertexIndices 2 e = Some vi /\ vi 0%nat = 4%nat) as (vi & EV & V0).
  { destruct (se_vertexIndices 2 e) as [vi|] eqn:E.
    - exists vi. split; [reflexivity|]. assert (X : option_map (fun f => f 0%nat) (se_vertexIndices 2 e) = Some 4%nat) by (vm_compute; reflexivity).
      rewrite E in X. injection X as X. exact X.
    - assert (X : option_map (fun f => f 0%nat) (se_vertexIndices 2 e) = Some 4%nat) by (vm_compute; reflexivity). rewrite E in X. discriminate. }
  pose proof (corner_coords 2 2 p q (se_origin e) 0 P qp pq Q D ltac:(lia) 1%nat ltac:(lia)) as C.
  pose proof (sv_coords_eq 2 (svAt 2 2 4) D) as X.
  exists 2%nat, 2%nat, 2%nat, (elemAt 2 2), (svAt 2 2), r, 2%nat, vi,
    {| ml_id := simplexId; ml_ref := r; ml_corners := map (fun i => Gmap 2 p (se_origin e) 2 (sc i)) (seq 0 (2 + 1)) |}, 0%nat,
    (Gmap 2 p (se_origin e) 2 (sc 0)), (kuhnToReference Rminus 2 (fun i => INR (sv_vertex (svAt 2 2 4) i) / INR (sv_size (svAt 2 2 4))) idp).
  split; [assumption|]. split; [assumption|]. split; [cbn; lia|]. split; [apply selements; auto|]. split; [apply svertices; assumption|].
  split; [assumption|]. split; [lia|]. split; [assumption|]. split; [apply (se_geometry_eq 2 r e p G)|]. split; [reflexivity|].
  split; [rewrite V0; assumption|]. intros A. specialize (A 1%nat ltac:(lia)). rewrite C in A. rewrite !k2r_id in A by lia.
  assert (O : cornerAt q (se_origin e) (chainPos q 0) 1 = 0%nat).
  { unfold cornerAt, chainPos. replace (se_origin e 1%nat) with 0%nat by (vm_compute; reflexivity). destruct (Nat.ltb_spec (q 1%nat) 0); lia. }
  rewrite O in A. replace (sv_vertex (svAt 2 2 4) 1%nat) with 1%nat in A by (vm_compute; reflexivity). cbn [sv_size svAt Nat.ltb Nat.leb INR] in A. lra.
Qed.
Print Assumptions C51_order_refuted.
Example C51_example : map (fun k => option_map (fun v => map v [0; 1; 2]%nat) (se_vertexIndices 2 (elemAt 2 2 k))) [0; 1; 2; 3]%nat
  = [Some [0; 1; 2]; Some [1; 3; 4]; Some [4; 2; 1]; Some [2; 4; 5]]%nat.
Proof. vm_compute. reflexivity. Qed.

(** ** C52 the elements of the simplex *)
Lemma hull_iff : forall dim G d X, affdet dim G d ->
  in_hull dim (map (fun i => G (sc i)) (seq 0 (dim + 1))) X <-> exists x, simpQ (Rle 0) dim x /\ agree dim X (G x).
Proof. intros dim G d X HG. exact (hull_image (Rle 0) dim G d X HG). Qed.
Lemma interior_iff : forall dim G d X, affdet dim G d ->
  in_interior dim (map (fun i => G (sc i)) (seq 0 (dim + 1))) X <-> exists x, simpQ (Rlt 0) dim x /\ agree dim X (G x).
Proof. intros dim G d X HG. exact (hull_image (Rlt 0) dim G d X HG). Qed.

Section C52.
Variables (fuel dim n : nat) (r : RefElement) (st : nat -> SElem).
Hypothesis Hd : (0 < dim)%nat.
Hypothesis Hn : (0 < n)%nat.
Hypothesis F : (fact dim <= fuel)%nat.
Hypothesis V : simplexElements fuel dim n st.

Lemma stGeo : forall k, (k < n ^ dim)%nat -> exists p, isPerm dim p /\ getPermutation dim (se_kuhn (elemAt dim n k)) = Some p
  /\ se_geometry dim r (st k) = Some {| ml_id := simplexId; ml_ref := r; ml_corners := map (fun i => Gmap dim p (se_origin (elemAt dim n k)) n (sc i)) (seq 0 (dim + 1)) |}.
Proof.
  intros k Hk. rewrite (stElem fuel dim n st Hd Hn F V) by assumption. destruct (elem_spec dim n k Hd Hn Hk) as (p & q & G & P & _).
  exists p. split; [assumption|]. split; [assumption|]. apply (se_geometry_eq dim r (elemAt dim n k) p G).
Qed.
Theorem C52_inside : forall k g x, (k < n ^ dim)%nat -> se_geometry dim r (st k) = Some g ->
  in_hull dim (ml_corners g) x -> in_hull dim (referenceCorners simplexId dim) x.
Proof.
  intros k g x Hk E H. destruct (stGeo k Hk) as (p & P & G & E'). rewrite E' in E. injection E as <-. cbn [ml_corners] in H.
  apply (hull_iff dim _ _ _ (affdet_Gmap dim p _ n P)) in H. apply (elem_hull (Rle 0)) in H; [|lra|assumption|assumption].
  apply simplex_hull. exact (elem_inside dim n k p x Hd Hn Hk G H).
Qed.
Theorem C52_cover : forall x, in_hull dim (referenceCorners simplexId dim) x ->
  exists k g, (k < n ^ dim)%nat /\ se_geometry dim r (st k) = Some g /\ in_hull dim (ml_corners g) x.
Proof.
  intros x H. apply simplex_hull in H. destruct (elem_cover dim n x Hd Hn H) as (k & p & Hk & G & C).
  destruct (stGeo k Hk) as (p' & P & G' & E). rewrite G in G'. injection G' as <-. exists k. eexists. split; [assumption|]. split; [exact E|].
  cbn [ml_corners]. apply (hull_iff dim _ _ _ (affdet_Gmap dim p _ n P)). apply (elem_hull (Rle 0)); [lra|assumption|assumption|exact C].
Qed.
Theorem C52_disjoint : forall k k' g g' x, (k < n ^ dim)%nat -> (k' < n ^ dim)%nat ->
  se_geometry dim r (st k) = Some g -> se_geometry dim r (st k') = Some g' ->
  in_interior dim (ml_corners g) x -> in_hull dim (ml_corners g') x -> k = k'.
Proof.
  intros k k' g g' x Hk Hk' E E' I H. destruct (stGeo k Hk) as (p & P & G & F1). destruct (stGeo k' Hk') as (p' & P' & G' & F').
  rewrite F1 in E. injection E as <-. rewrite F' in E'. injection E' as <-. cbn [ml_corners] in I, H.
  apply (hull_iff dim _ _ _ (affdet_Gmap dim p' _ n P')) in H. apply (elem_hull (Rle 0)) in H; [|lra|assumption|assumption].
  apply (interior_iff dim _ _ _ (affdet_Gmap dim p _ n P)) in I. apply (elem_hull (Rlt 0)) in I; [|lra|assumption|assumption].
  exact (elem_disjoint dim n k k' p p' x Hd Hn Hk Hk' G G' I H).
Qed.
(** geometry().volume(), with any answer of the unused external eigen solvers *)
Theorem C52_volume : forall k g tol jm jk j1 j2, (k < n ^ dim)%nat -> 0 < tol < 1 / 2 -> re_infos simplexId dim = Some r ->
  se_geometry dim r (st k) = Some g -> mlg_volume dim dim tol jm jk j1 j2 g = Some (referenceVolume simplexId dim / INR n ^ dim).
Proof.
  intros k g tol jm jk j1 j2 Hk Ht Hr E. destruct (stGeo k Hk) as (p & P & G & F1). rewrite F1 in E. injection E as <-.
  rewrite (simplex_volume dim r _ _ tol jm jk j1 j2 (affdet_Gmap dim p _ n P) (Gmap_injective dim p _ n P Hn) Ht Hr). f_equal.
  assert (0 < INR n) by (apply lt_0_INR; assumption).
  rewrite Rabs_pos_eq by (apply pow_le, Rlt_le, Rinv_0_lt_compat; assumption). rewrite <- Rinv_pow by lra. unfold Rdiv. ring.
Qed.
(** coords() is the mean of the corners *)
Theorem C52_coords : forall k g, (k < n ^ dim)%nat -> re_infos simplexId dim = Some r -> se_geometry dim r (st k) = Some g ->
  exists x, se_coords dim r (st k) = Some x
    /\ forall j, (j < dim)%nat -> x j = Ssum (dim + 1) (fun i => nth i (ml_corners g) (fun _ => 0) j) / INR (dim + 1).
Proof.
  intros k g Hk Hr E. destruct (stGeo k Hk) as (p & P & G & F1). rewrite F1 in E. injection E as <-.
  rewrite (stElem fuel dim n st Hd Hn F V) by assumption.
  destruct (simplex_center_pos dim r Hr) as (c & C & M). exists (Gmap dim p (se_origin (elemAt dim n k)) n c).
  unfold se_coords. rewrite C. cbn [obind]. split; [apply (se_global_eq dim (elemAt dim n k) p c G)|].
  intros j Hj. cbn [ml_corners].
  assert (W : rsum (dim + 1) (fun _ => / INR (dim + 1)) = 1) by (rewrite rsum_const; apply Rinv_r, not_0_INR; lia).
  rewrite (affdet_comb dim _ _ _ _ sc (affdet_Gmap dim p _ n P) W c M j Hj).
  cbv beta. rewrite (rsum_scal (dim + 1) (/ INR (dim + 1))). unfold Rdiv. rewrite Rmult_comm. f_equal. etransitivity; [|symmetry; apply Ssum_rsum]. apply rsum_ext.
  intros i Hi. rewrite nth_map_seq by assumption. reflexivity.
Qed.
End C52.
Print Assumptions C52_inside.
Print Assumptions C52_cover.
Print Assumptions C52_disjoint.
Print Assumptions C52_volume.
Print Assumptions C52_coords.

(** ** C53 triangulations *)
Lemma shape_ok : forall dim t id, CoarseShape dim t id -> exists Tinv, ShapeOK dim t id Tinv.
Proof.
  intros dim t id H. destruct H as [dim H| |].
  - exists (fun x => x). apply shape_cube. assumption.
  - exists prismInv. exact shape_prism.
  - exists pyramidTransform. exact shape_pyramid.
Qed.
Lemma shape_dim : forall dim t id, CoarseShape dim t id -> (0 < dim)%nat.
Proof. intros dim t id H. destruct (shape_ok dim t id H) as (Ti & S). exact (so_dim _ _ _ _ S). Qed.
Lemma tvertices : forall dim t n, (0 < dim)%nat -> (0 < n)%nat -> triangVertices dim t n (tvAt dim n).
Proof.
  intros dim t n Hd Hn. split; [apply tvAt_begin; assumption|]. split.
  - intros k Hk. split; [apply tvAt_not_end; assumption|]. rewrite tvAt_step by assumption. rewrite Nat.add_1_r. reflexivity.
  - unfold tr_nVertices. rewrite (tvAt_end dim t n) by assumption. unfold tv_equals. rewrite Nat.eqb_refl. cbn [tv_make tv_backend andb].
    unfold sv_equals. rewrite Nat.eqb_refl. cbn [andb]. apply veq_agree. intros i _. reflexivity.
Qed.
Lemma telements : forall fuel dim t n, (0 < dim)%nat -> (0 < n)%nat -> (fact dim <= fuel)%nat -> triangElements fuel dim t n (teAt dim n).
Proof.
  intros fuel dim t n Hd Hn F. split; [apply teAt_begin; assumption|]. unfold tr_nElements, sx_nElements. split.
  - intros k Hk. split; [apply teAt_not_end; assumption|]. rewrite teAt_step by assumption. rewrite Nat.add_1_r. reflexivity.
  - rewrite (teAt_end dim t n) by assumption. unfold te_equals, se_equals. rewrite !Nat.eqb_refl. reflexivity.
Qed.
Theorem C53_count : forall fuel dim t id n, CoarseShape dim t id -> (0 < n)%nat -> (fact dim <= fuel)%nat ->
  (exists vs, triangVertices dim t n vs /\ forall k, (k <= tr_nVertices dim t n)%nat -> tv_index dim (vs k) = k)
  /\ (exists st, triangElements fuel dim t n st /\ forall k, (k <= tr_nElements dim t n)%nat -> te_index dim (st k) = k).
Proof.
  intros fuel dim t id n S Hn F. pose proof (shape_dim dim t id S) as Hd. split.
  - exists (tvAt dim n). split; [apply tvertices; assumption|]. intros k _. apply tvAt_index; assumption.
  - exists (teAt dim n). split; [apply telements; assumption|]. intros k _. apply teAt_index; assumption.
Qed.
Print Assumptions C53_count.
Theorem C53_numbers : forall n,
  (forall dim, tr_nVertices dim (tr_cube dim) n = (fact dim * sx_nVertices dim n)%nat /\ tr_nElements dim (tr_cube dim) n = (fact dim * n ^ dim)%nat)
  /\ tr_nVertices 3 tr_prism n = (3 * sx_nVertices 3 n)%nat /\ tr_nElements 3 tr_prism n = (3 * n ^ 3)%nat
  /\ tr_nVertices 3 tr_pyramid n = (2 * sx_nVertices 3 n)%nat /\ tr_nElements 3 tr_pyramid n = (2 * n ^ 3)%nat.
Proof.
  intros n. unfold tr_nVertices, tr_nElements, sx_nElements. cbn [tr_cube tr_prism tr_pyramid tr_count].
  repeat apply conj; intros; try split; apply Nat.mul_comm.
Qed.
Print Assumptions C53_numbers.

Section C53.
Variables (fuel dim : nat) (t : Triang) (id : N) (n : nat) (r : RefElement) (st : nat -> TElem) (vs : nat -> TVert).
Hypothesis Sh : CoarseShape dim t id.
Hypothesis Hn : (0 < n)%nat.
Hypothesis F : (fact dim <= fuel)%nat.
Hypothesis V : triangElements fuel dim t n st.
Hypothesis W : triangVertices dim t n vs.

Lemma tst : forall k, (k < tr_nElements dim t n)%nat -> st k = teAt dim n k.
Proof. intros k Hk. apply (visits_unique _ _ _ _ _ _ V (telements fuel dim t n (shape_dim _ _ _ Sh) Hn F)). lia. Qed.
Lemma tvst : forall k, (k < tr_nVertices dim t n)%nat -> vs k = tvAt dim n k.
Proof. intros k Hk. apply (visits_unique _ _ _ _ _ _ W (tvertices dim t n (shape_dim _ _ _ Sh) Hn)). lia. Qed.
Lemma tr_split : forall k, (k < tr_nElements dim t n)%nat -> (k / n ^ dim < tr_count t)%nat /\ (k mod n ^ dim < n ^ dim)%nat.
Proof.
  intros k Hk. pose proof (npos dim n Hn). split; [apply Nat.div_lt_upper_bound; [lia|exact Hk]|apply Nat.mod_upper_bound; lia].
Qed.
Lemma tstGeo : forall Ti, ShapeOK dim t id Ti -> forall k, (k < tr_nElements dim t n)%nat -> exists p, isPerm dim p
  /\ getPermutation dim (se_kuhn (elemAt dim n (k mod n ^ dim))) = Some p
  /\ te_geometry dim t r (st k) = Some {| ml_id := simplexId; ml_ref := r; ml_corners :=
       map (fun i => Hmap dim t (k / n ^ dim) (Gmap dim p (se_origin (elemAt dim n (k mod n ^ dim))) n (sc i))) (seq 0 (dim + 1)) |}.
Proof.
  intros Ti S k Hk. destruct (tr_split k Hk) as [H1 H2]. pose proof (shape_dim _ _ _ Sh) as Hd. rewrite tst by assumption.
  destruct (elem_spec dim n _ Hd Hn H2) as (p & q & G & P & _). exists p. split; [assumption|]. split; [assumption|].
  apply (te_geometry_eq dim t Hd (so_perm _ _ _ _ S) r (teAt dim n k) p H1 G).
Qed.
Theorem C53_inside : forall k g x, (k < tr_nElements dim t n)%nat -> te_geometry dim t r (st k) = Some g ->
  in_hull dim (ml_corners g) x -> in_hull dim (referenceCorners id dim) x.
Proof.
  intros k g x Hk E H. destruct (shape_ok _ _ _ Sh) as (Ti & [S1 S2 S3 S4 S5 S6 S7 S8]). destruct (tr_split k Hk) as [H1 H2].
  destruct (tstGeo Ti ltac:(constructor; assumption) k Hk) as (p & P & G & E'). rewrite E' in E. injection E as <-. cbn [ml_corners] in H.
  apply (hull_iff dim _ _ _ (affdet_HG dim t 1 S2 S4 _ p _ n H1 P)) in H.
  apply (te_hull dim t Ti 1 1 S2 S4 S5 S6 S7 (Rle 0)) in H; [|lra|assumption|assumption|assumption].
  apply S8. exists (k / n ^ dim)%nat. split; [assumption|]. apply inKuhn_Q. apply (in_kuhn_Hinv dim t Ti S2); [lra|assumption|].
  apply inSimplex_Q. exact (elem_inside dim n _ p _ S1 Hn H2 G H).
Qed.
Theorem C53_cover : forall x, in_hull dim (referenceCorners id dim) x ->
  exists k g, (k < tr_nElements dim t n)%nat /\ te_geometry dim t r (st k) = Some g /\ in_hull dim (ml_corners g) x.
Proof.
  intros x H. destruct (shape_ok _ _ _ Sh) as (Ti & [S1 S2 S3 S4 S5 S6 S7 S8]). apply S8 in H. destruct H as (j & Hj & K).
  apply inKuhn_Q in K. apply (in_kuhn_Hinv dim t Ti S2) in K; [|lra|assumption]. apply inSimplex_Q in K.
  destruct (elem_cover dim n _ S1 Hn K) as (e & p & He & G & C).
  assert (Hk : (n ^ dim * j + e < tr_nElements dim t n)%nat) by (unfold tr_nElements, sx_nElements; nia).
  assert (Q1 : ((n ^ dim * j + e) / n ^ dim = j)%nat) by (symmetry; apply (Nat.div_unique _ _ _ e); [assumption|reflexivity]).
  assert (Q2 : ((n ^ dim * j + e) mod n ^ dim = e)%nat) by (symmetry; apply (Nat.mod_unique _ _ j); [assumption|reflexivity]).
  destruct (tstGeo Ti ltac:(constructor; assumption) _ Hk) as (p' & P & G' & E'). rewrite Q2 in G'. rewrite G in G'. injection G' as <-.
  rewrite Q1, Q2 in E'. eexists _, _. split; [exact Hk|]. split; [exact E'|]. cbn [ml_corners].
  apply (hull_iff dim _ _ _ (affdet_HG dim t 1 S2 S4 _ p _ n Hj P)).
  apply (te_hull dim t Ti 1 1 S2 S4 S5 S6 S7 (Rle 0)); [lra|assumption|assumption|assumption|exact C].
Qed.
Theorem C53_disjoint : forall k k' g g' x, (k < tr_nElements dim t n)%nat -> (k' < tr_nElements dim t n)%nat ->
  te_geometry dim t r (st k) = Some g -> te_geometry dim t r (st k') = Some g' ->
  in_interior dim (ml_corners g) x -> in_hull dim (ml_corners g') x -> k = k'.
Proof.
  intros k k' g g' x Hk Hk' E E' I H. destruct (shape_ok _ _ _ Sh) as (Ti & [S1 S2 S3 S4 S5 S6 S7 S8]).
  destruct (tr_split k Hk) as [H1 H2]. destruct (tr_split k' Hk') as [H1' H2'].
  destruct (tstGeo Ti ltac:(constructor; assumption) k Hk) as (p & P & G & F1).
  destruct (tstGeo Ti ltac:(constructor; assumption) k' Hk') as (p' & P' & G' & F').
  rewrite F1 in E. injection E as <-. rewrite F' in E'. injection E' as <-. cbn [ml_corners] in I, H.
  apply (hull_iff dim _ _ _ (affdet_HG dim t 1 S2 S4 _ p' _ n H1' P')) in H.
  apply (te_hull dim t Ti 1 1 S2 S4 S5 S6 S7 (Rle 0)) in H; [|lra|assumption|assumption|assumption].
  apply (interior_iff dim _ _ _ (affdet_HG dim t 1 S2 S4 _ p _ n H1 P)) in I.
  apply (te_hull dim t Ti 1 1 S2 S4 S5 S6 S7 (Rlt 0)) in I; [|lra|assumption|assumption|assumption].
  destruct (te_disjoint dim t S1 Ti S2 S3 n _ _ _ _ p p' x Hn H1 H1' H2 H2' G G' I H) as [A B].
  pose proof (npos dim n Hn). rewrite (Nat.div_mod k (n ^ dim)), (Nat.div_mod k' (n ^ dim)), A, B by lia. reflexivity.
Qed.
Theorem C53_volume : forall k g tol jm jk j1 j2, (k < tr_nElements dim t n)%nat -> 0 < tol < 1 / 2 -> re_infos simplexId dim = Some r ->
  te_geometry dim t r (st k) = Some g -> mlg_volume dim dim tol jm jk j1 j2 g = Some (referenceVolume simplexId dim / INR n ^ dim).
Proof.
  intros k g tol jm jk j1 j2 Hk Ht Hr E. destruct (shape_ok _ _ _ Sh) as (Ti & [S1 S2 S3 S4 S5 S6 S7 S8]). destruct (tr_split k Hk) as [H1 H2].
  destruct (tstGeo Ti ltac:(constructor; assumption) k Hk) as (p & P & G & F1). rewrite F1 in E. injection E as <-.
  rewrite (simplex_volume dim r _ _ tol jm jk j1 j2 (affdet_HG dim t 1 S2 S4 _ p _ n H1 P) (HG_injective dim t Ti 1 S2 S5 S7 _ p _ n H1 P Hn) Ht Hr).
  f_equal. assert (0 < INR n) by (apply lt_0_INR; assumption).
  rewrite Rmult_1_r, Rabs_pos_eq by (apply pow_le, Rlt_le, Rinv_0_lt_compat; assumption). rewrite <- Rinv_pow by lra. unfold Rdiv. ring.
Qed.
(** the vertex indices are in range, distinct and name exactly the corners *)
Theorem C53_vertex_indices : forall k, (k < tr_nElements dim t n)%nat -> exists vi g s,
    te_vertexIndices dim (st k) = Some vi /\ te_geometry dim t r (st k) = Some g /\ length (ml_corners g) = (dim + 1)%nat /\ isPerm (dim + 1) s
    /\ (forall i, (i <= dim)%nat -> (vi i < tr_nVertices dim t n)%nat)
    /\ (forall i j, (i <= dim)%nat -> (j <= dim)%nat -> vi i = vi j -> i = j)
    /\ forall i, (i <= dim)%nat -> exists c x, nth_error (ml_corners g) i = Some c /\ tv_coords dim t (vs (vi (s i))) = Some x /\ agree dim c x.
Proof.
  intros k Hk. destruct (shape_ok _ _ _ Sh) as (Ti & S). pose proof S as [S1 S2 S3 S4 S5 S6 S7 S8]. destruct (tr_split k Hk) as [H1 H2].
  destruct (tstGeo Ti S k Hk) as (p & P & G & E).
  destruct (elem_vertices dim n _ p S1 Hn H2 G) as (vi & s & EV & Ps & B & I & C).
  set (N := sx_nVertices dim n) in *. set (j := (k / n ^ dim)%nat) in *.
  assert (BB : forall i, (i <= dim)%nat -> (vi i + j * N < tr_nVertices dim t n)%nat).
  { intros i Hi. specialize (B i Hi). unfold tr_nVertices. fold N. nia. }
  exists (fun i => (vi i + j * N)%nat). eexists. exists s. split.
  { rewrite tst by assumption. unfold te_vertexIndices, teAt. cbn [te_backend te_kuhn te_n]. rewrite EV. reflexivity. }
  split; [exact E|]. split; [cbn; rewrite map_length, seq_length; reflexivity|]. split; [assumption|]. split; [assumption|].
  split; [intros i i' Hi Hi' Q; apply I; [assumption|assumption|lia]|].
  intros i Hi. destruct (C i Hi) as (x & X & A). eexists. exists (Hmap dim t j x). split; [|split].
  - cbn [ml_corners]. rewrite nth_error_map, (nth_error_nth' _ 0%nat) by (rewrite seq_length; lia). rewrite seq_nth by lia. reflexivity.
  - assert (Hs : (s i <= dim)%nat) by (pose proof (proj1 Ps i ltac:(lia)); lia).
    rewrite tvst by (apply BB; assumption). unfold tv_coords, tvAt. cbn [tv_backend tv_kuhn]. fold N.
    pose proof (B (s i) Hs) as Bs.
    assert (Q1 : ((vi (s i) + j * N) / N = j)%nat) by (rewrite Nat.div_add by lia; rewrite Nat.div_small by assumption; lia).
    assert (Q2 : ((vi (s i) + j * N) mod N = vi (s i))%nat) by (rewrite Nat.mod_add by lia; apply Nat.mod_small; assumption).
    rewrite Q1, Q2, X. cbn [obind]. destruct (permOf_spec dim _ (S2 _ H1)) as [EP _]. fold j in EP. rewrite EP. reflexivity.
  - apply (affdet_agree dim _ 1 _ _ (affdet_Hmap dim t 1 S2 S4 j H1)). assumption.
Qed.
End C53.
Print Assumptions C53_inside.
Print Assumptions C53_cover.
Print Assumptions C53_disjoint.
Print Assumptions C53_volume.
Print Assumptions C53_vertex_indices.
(** the volumes add up to the volume of the element *)
Theorem C53_volume_sum : forall dim t id n, CoarseShape dim t id -> (dim <= 13)%nat -> (0 < n)%nat ->
  INR (tr_nElements dim t n) * (referenceVolume simplexId dim / INR n ^ dim) = volumeT (topo_of id dim) /\ referenceVolume id dim = volumeT (topo_of id dim).
Proof.
  intros dim t id n S H Hn. split; [|apply C21_volume_small_dimension; assumption].
  assert (VS : referenceVolume simplexId dim = / INR (fact dim)).
  { rewrite C21_volume_small_dimension by assumption. apply C21_volume_simplex; [|reflexivity].
    unfold simplexId. assert (2 ^ N.of_nat dim <> 0)%N by (apply N.pow_nonzero; discriminate). lia. }
  assert (Np : INR n <> 0) by (apply not_0_INR; lia).
  rewrite VS. unfold tr_nElements, sx_nElements. rewrite mult_INR, pow_INR.
  assert (E : INR n ^ dim * INR (tr_count t) * (/ INR (fact dim) / INR n ^ dim) = INR (tr_count t) * / INR (fact dim)).
  { field. split; [apply not_0_INR, fact_neq_0|apply pow_nonzero; assumption]. }
  rewrite E. clear E. destruct S as [dim Hd| |].
  - cbn [tr_cube tr_count]. rewrite Rinv_r by (apply not_0_INR, fact_neq_0). symmetry.
    rewrite volumeT_tvol. assert (C : cubT (topo_of (gt_id (cube dim)) dim)).
    { apply cubT_topo. intros k Hk. unfold cube, GT3. cbn [gt_id].
      destruct (Nat.ltb_spec 1 dim); [|lia]. rewrite bit_pow, N.sub_1_r, <- N.ones_equiv. apply N.ones_spec_low. lia. }
    revert C. clear. induction (topo_of (gt_id (cube dim)) dim) as [|b IH|b IH]; intros C; cbn [cubT] in C.
    + unfold tvol. cbn. lra.
    + change (tvol (Pri b)) with (tvol b). apply IH, C.
    + subst b. unfold tvol. cbn. lra.
  - change (topo_of (gt_id prism) 3) with (Pri (Pyr (Pyr Pt))) || change (topo_of (gt_id prism) 3) with (Pri (Pyr (Pri Pt))).
    rewrite !(proj1 (C21_volume_recursion _)), !(proj2 (C21_volume_recursion _)), ?(proj1 (C21_volume_recursion _)), volumeT_tvol. unfold tvol. cbn. field.
  - change (topo_of (gt_id pyramid) 3) with (Pyr (Pri (Pri Pt))).
    rewrite !(proj2 (C21_volume_recursion _)), ?(proj1 (C21_volume_recursion _)), volumeT_tvol. unfold tvol. cbn. field.
Qed.
Print Assumptions C53_volume_sum.

Section Examples53.
Lemma visit_all : forall fuel dim t id n, CoarseShape dim t id -> (0 < n)%nat -> (fact dim <= fuel)%nat ->
  triangElements fuel dim t n (teAt dim n).
Proof. intros fuel dim t id n S Hn F. apply telements; [exact (shape_dim _ _ _ S)|assumption|assumption]. Qed.
(** the point (1/2,1/3,1/4) of the unit cube is in one of the 6 * 2^3 tetrahedra *)
Example C53_example : exists k g, (k < 48)%nat /\ te_geometry 3 (tr_cube 3) [] (teAt 3 2 k) = Some g
  /\ in_hull 3 (ml_corners g) (fun i => match i with 0%nat => / 2 | 1%nat => / 3 | _ => / 4 end).
Proof.
  pose proof (cs_cube 3 ltac:(lia)) as S.
  destruct (C53_cover 6 3 (tr_cube 3) (gt_id (cube 3)) 2 [] (teAt 3 2) S ltac:(lia) ltac:(cbn; lia) (visit_all 6 3 (tr_cube 3) (gt_id (cube 3)) 2 S ltac:(lia) ltac:(cbn; lia))
    (fun i => match i with 0%nat => / 2 | 1%nat => / 3 | _ => / 4 end)) as (k & g & Hk & E & H).
  - apply cube_hull; [lia|]. intros [|[|[|i]]] Hi; try lia; lra.
  - exists k, g. split; [exact Hk|]. split; assumption.
Qed.
End Examples53.

(** ** C46 hypercube refinement *)
Theorem C46_count : forall dim n,
  (exists vs, cubeVertices dim n vs /\ forall k, (k <= (n + 1) ^ dim)%nat -> hi_index (vs k) = k)
  /\ (exists st, cubeElements dim n st /\ forall k, (k <= n ^ dim)%nat -> hi_index (st k) = k)
  /\ hc_nVertices dim n = ((n + 1) ^ dim)%nat /\ hc_nElements dim n = (n ^ dim)%nat.
Proof.
  intros dim n. split; [|split; [|split; reflexivity]]; exists (hAt n); (split; [apply hAt_visits|reflexivity]).
Qed.
Print Assumptions C46_count.
Lemma hst : forall n N st, visits (fun s => Some (hi_increment s)) (fun s => hi_equals s (hAt n N)) (hAt n 0) N st -> forall k, (k <= N)%nat -> st k = hAt n k.
Proof. intros n N st V k Hk. exact (visits_unique _ _ _ _ _ _ V (hAt_visits n N) k Hk). Qed.
(** the vertices are the points a/n with 0 <= a i <= n, each exactly once *)
Theorem C46_lattice : forall dim n vs, (0 < n)%nat -> cubeVertices dim n vs ->
  (forall k, (k < (n + 1) ^ dim)%nat -> exists a : nat -> nat, (forall i, (i < dim)%nat -> (a i <= n)%nat) /\ agree dim (hv_coords dim (vs k)) (fun i => INR (a i) / INR n))
  /\ (forall a : nat -> nat, (forall i, (i < dim)%nat -> (a i <= n)%nat) ->
       exists k, (k < (n + 1) ^ dim)%nat /\ agree dim (hv_coords dim (vs k)) (fun i => INR (a i) / INR n))
  /\ (forall k k', (k < (n + 1) ^ dim)%nat -> (k' < (n + 1) ^ dim)%nat -> agree dim (hv_coords dim (vs k)) (hv_coords dim (vs k')) -> k = k').
Proof.
  intros dim n vs Hn V. assert (E : forall k, (k < (n + 1) ^ dim)%nat -> vs k = hAt n k) by (intros; apply (hst n _ vs V); unfold hc_nVertices; lia).
  assert (C : forall k i, (i < dim)%nat -> hv_coords dim (hAt n k) i = INR (idx2coord dim k (n + 1) i) / INR n).
  { intros k i Hi. unfold hv_coords, hi_vertexCoord, hAt. cbn [hi_index hi_n]. rewrite Rmult_1_r. reflexivity. }
  assert (Np : INR n <> 0) by (apply not_0_INR; lia).
  repeat apply conj.
  - intros k Hk. exists (idx2coord dim k (n + 1)). split.
    + intros i Hi. pose proof (idx2coord_bound dim k (n + 1) i ltac:(lia) Hi). lia.
    + intros i Hi. rewrite E by assumption. apply C, Hi.
  - intros a Ha. assert (B : (dsum dim (n + 1) a < (n + 1) ^ dim)%nat) by (apply dsum_bound; intros i Hi; specialize (Ha i Hi); lia).
    exists (dsum dim (n + 1) a). split; [assumption|]. intros i Hi. rewrite E, C by assumption.
    rewrite idx2coord_dsum; [reflexivity| |assumption]. intros j Hj. specialize (Ha j Hj). lia.
  - intros k k' Hk Hk' A. rewrite !E in A by assumption. rewrite <- (dsum_idx2coord dim (n + 1) k), <- (dsum_idx2coord dim (n + 1) k') by lia.
    apply dsum_ext. intros i Hi. specialize (A i Hi). rewrite !C in A by assumption. apply INR_eq. unfold Rdiv in A.
    apply Rmult_eq_reg_r in A; [assumption|]. apply Rinv_neq_0_compat. assumption.
Qed.
Print Assumptions C46_lattice.
Lemma bcount_full : forall dim m, (m <= dim)%nat -> bcount m (fun i => Nat.ltb i dim) = m.
Proof. intros dim. induction m; intros H; cbn [bcount]; [reflexivity|]. rewrite IHm, (proj2 (Nat.ltb_lt m dim)) by lia. lia. Qed.
Lemma he_corner : forall dim n k j d, (d < dim)%nat ->
  aac_corner dim dim (he_geometry dim (hAt n k)) j d = INR ((if Nat.testbit j d then 1 else 0) + idx2coord dim k n d) / INR n.
Proof.
  intros dim n k j d Hd. unfold he_geometry, hAt. cbn [hi_index hi_n].
  rewrite (corner_spec dim dim _ (wf_make2 dim _ _)) by assumption. cbn [aac_make2 ac_axes ac_upper ac_lower].
  rewrite (proj2 (Nat.ltb_lt d dim)) by assumption. rewrite bcount_full by lia.
  destruct (Nat.testbit j d); [rewrite Nat.add_comm|]; reflexivity.
Qed.
(** index vertexIndices()[j] belongs to the vertex at corner j of the geometry *)
Theorem C46_vertex_indices : forall dim n st vs, (0 < n)%nat -> cubeElements dim n st -> cubeVertices dim n vs ->
  forall k, (k < n ^ dim)%nat ->
    (forall j, (j < 2 ^ dim)%nat -> (he_vertexIndices dim (st k) j < (n + 1) ^ dim)%nat
       /\ agree dim (hv_coords dim (vs (he_vertexIndices dim (st k) j))) (aac_corner dim dim (he_geometry dim (st k)) j))
    /\ (forall j j', (j < 2 ^ dim)%nat -> (j' < 2 ^ dim)%nat -> he_vertexIndices dim (st k) j = he_vertexIndices dim (st k) j' -> j = j').
Proof.
  intros dim n st vs Hn V W k Hk. rewrite (hst n _ st V) by (unfold hc_nElements; lia).
  assert (B : forall j d, (d < dim)%nat -> ((if Nat.testbit j d then 1 else 0) + hi_cellCoord dim (hAt n k) d < n + 1)%nat)
    by (intros; apply cell_vertex_bound; assumption).
  assert (R : forall j, (he_vertexIndices dim (hAt n k) j < (n + 1) ^ dim)%nat).
  { intros j. rewrite he_vertexIndices_eq. cbn [hi_n hAt]. apply dsum_bound. apply B. }
  split.
  - intros j Hj. split; [apply R|]. rewrite (hst n _ vs W) by (unfold hc_nVertices; specialize (R j); lia).
    intros d Hd. rewrite he_corner by assumption. unfold hv_coords, hi_vertexCoord. cbn [hi_index hi_n hAt]. rewrite Rmult_1_r.
    rewrite he_vertexIndices_eq. cbn [hi_n hAt]. rewrite idx2coord_dsum; [reflexivity|apply B|assumption].
  - intros j j' Hj Hj' E. rewrite !he_vertexIndices_eq in E. cbn [hi_n hAt] in E. apply (bits_inj dim); [assumption|assumption|].
    intros d Hd. pose proof (dsum_inj dim (n + 1) _ _ (B j) (B j') E d Hd) as X. cbv beta in X.
    destruct (Nat.testbit j d), (Nat.testbit j' d); try reflexivity; lia.
Qed.
Print Assumptions C46_vertex_indices.
(** the cells tile the unit cube; coords() is the centre *)
Lemma he_global : forall dim n k x i, (i < dim)%nat -> (0 < n)%nat ->
  aac_global dim dim (he_geometry dim (hAt n k)) x i = (INR (idx2coord dim k n i) + x i) / INR n.
Proof.
  intros dim n k x i Hi Hn. unfold he_geometry, hAt. cbn [hi_index hi_n].
  rewrite (global_spec dim dim _ (wf_make2 dim _ _)) by assumption. cbn [aac_make2 ac_axes ac_upper ac_lower].
  rewrite (proj2 (Nat.ltb_lt i dim)) by assumption. rewrite bcount_full by lia. unfold ext. cbn [aac_make2 ac_upper ac_lower].
  rewrite plus_INR. cbn [INR]. field. apply not_0_INR. lia.
Qed.
Theorem C46_tiles : forall dim n st, (0 < n)%nat -> cubeElements dim n st ->
  (forall y, (forall i, (i < dim)%nat -> 0 <= y i <= 1) <->
     exists k x, (k < n ^ dim)%nat /\ (forall i, (i < dim)%nat -> 0 <= x i <= 1) /\ agree dim y (aac_global dim dim (he_geometry dim (st k)) x))
  /\ (forall k k' x x', (k < n ^ dim)%nat -> (k' < n ^ dim)%nat -> (forall i, (i < dim)%nat -> 0 < x i < 1) -> (forall i, (i < dim)%nat -> 0 <= x' i <= 1) ->
       agree dim (aac_global dim dim (he_geometry dim (st k)) x) (aac_global dim dim (he_geometry dim (st k')) x') -> k = k')
  /\ (forall k, (k < n ^ dim)%nat -> aac_volume dim dim (he_geometry dim (st k)) = (/ INR n) ^ dim)
  /\ (forall k, (k < n ^ dim)%nat -> agree dim (he_coords dim (st k)) (aac_global dim dim (he_geometry dim (st k)) (fun _ => / 2))).
Proof.
  intros dim n st Hn V. assert (E : forall k, (k < n ^ dim)%nat -> st k = hAt n k) by (intros; apply (hst n _ st V); unfold hc_nElements; lia).
  assert (Np : 0 < INR n) by (apply lt_0_INR; assumption).
  assert (B : forall k i, (i < dim)%nat -> INR (idx2coord dim k n i) + 1 <= INR n).
  { intros k i Hi. rewrite <- S_INR. apply le_INR. pose proof (idx2coord_bound dim k n i ltac:(lia) Hi). lia. }
  repeat apply conj.
  - intros y. split.
    + intros Y. destruct (list_choice n dim (fun i => INR n * y i) Hn) as (c & C0); [intros i Hi; specialize (Y i Hi); nra|].
      assert (C : forall i, (i < dim)%nat -> (c i < n)%nat /\ INR (c i) <= INR n * y i <= INR (c i) + 1).
      { intros i Hi. destruct (C0 i Hi) as (C1 & C2 & _). split; assumption. }
      assert (K : (dsum dim n c < n ^ dim)%nat) by (apply dsum_bound; intros i Hi; apply C, Hi).
      exists (dsum dim n c), (fun i => INR n * y i - INR (c i)). split; [assumption|]. split.
      * intros i Hi. specialize (C i Hi). lra.
      * intros i Hi. rewrite E, he_global by assumption. rewrite idx2coord_dsum by (try assumption; intros j Hj; apply C, Hj). field. lra.
    + intros (k & x & Hk & X & A) i Hi. rewrite A, E, he_global by assumption. specialize (X i Hi). specialize (B k i Hi).
      pose proof (pos_INR (idx2coord dim k n i)). split.
      * apply Rmult_le_pos; [lra|]. apply Rlt_le, Rinv_0_lt_compat. assumption.
      * apply Rmult_le_reg_r with (INR n); [assumption|]. unfold Rdiv. rewrite Rmult_assoc, Rinv_l by lra. lra.
  - intros k k' x x' Hk Hk' X X' A. rewrite <- (dsum_idx2coord dim n k), <- (dsum_idx2coord dim n k') by lia. apply dsum_ext. intros i Hi.
    specialize (A i Hi). rewrite !E, !he_global in A by assumption. specialize (X i Hi). specialize (X' i Hi).
    unfold Rdiv in A. apply Rmult_eq_reg_r in A; [|apply Rinv_neq_0_compat; lra].
    destruct (Nat.lt_trichotomy (idx2coord dim k n i) (idx2coord dim k' n i)) as [L|[L|L]]; [|assumption|];
      apply Nat.le_succ_l, le_INR in L; rewrite S_INR in L; lra.
  - intros k Hk. rewrite E by assumption.
    unfold he_geometry, hAt. cbn [hi_index hi_n]. rewrite (proj1 (C29_volume dim dim _ (wf_make2 dim _ _))). cbn [aac_make2 ac_axes ac_upper ac_lower].
    rewrite (filter_ext_in (fun i => Nat.ltb i dim) (fun _ => true)) by (intros i Hi; apply in_seq in Hi; apply Nat.ltb_lt; lia).
    assert (G : forall l, fold_right Rmult 1 (map (fun i => INR (idx2coord dim k n i + 1) / INR n - INR (idx2coord dim k n i) / INR n) (filter (fun _ => true) l)) = (/ INR n) ^ length l).
    { induction l as [|a l IH]; [reflexivity|]. cbn [filter map fold_right length pow]. rewrite IH. f_equal. rewrite plus_INR. cbn [INR]. field. lra. }
    rewrite G, seq_length. reflexivity.
  - intros k Hk i Hi. rewrite E, he_global by assumption. unfold he_coords, hi_cellCoord, hAt. cbn [hi_index hi_n]. field. lra.
Qed.
Print Assumptions C46_tiles.
Example C46_example : hc_nVertices 2 3 = 16%nat /\ map (he_vertexIndices 2 (hAt 3 5)) [0; 1; 2; 3]%nat = [6; 7; 10; 11]%nat.
Proof. vm_compute. split; reflexivity. Qed.

(** ** C47 geometry() of vertices *)
(** what it should be: a point at coords() *)
(** the digits to the base n are used instead of those to the base n+1 *)
Theorem C47_hcube_actual : forall dim n k, (0 < n)%nat -> exists g, hv_geometry dim (hAt n k) = Some g
  /\ agree dim (aac_corner 0 dim g 0) (fun d => INR ((k / n ^ d) mod n) / INR n)
  /\ agree dim (hv_coords dim (hAt n k)) (fun d => INR ((k / (n + 1) ^ d) mod (n + 1)) / INR n).
Proof.
  intros dim n k Hn. unfold hv_geometry, hAt. cbn [hi_index hi_n].
  assert (B0 : forall m, bcount m (fun _ => false) = 0%nat) by (induction m as [|m IH]; cbn [bcount]; [reflexivity|rewrite IH; reflexivity]).
  unfold aac_make3. rewrite B0. cbn [Nat.eqb]. eexists. split; [reflexivity|]. split.
  - intros d Hd. unfold aac_corner. destruct dim as [|dim]; [lia|]. cbn [Nat.eqb ac_lower]. rewrite idx2coord_spec by lia. reflexivity.
  - intros d Hd. unfold hv_coords, hi_vertexCoord. cbn [hi_index hi_n]. rewrite idx2coord_spec, Rmult_1_r by lia. reflexivity.
Qed.
Print Assumptions C47_hcube_actual.
Theorem C47_hcube_refuted : exists dim n vs k g, (0 < n)%nat /\ cubeVertices dim n vs /\ (k < hc_nVertices dim n)%nat
  /\ hv_geometry dim (vs k) = Some g /\ ~ agree dim (aac_corner 0 dim g 0) (hv_coords dim (vs k)).
Proof.
  destruct (C47_hcube_actual 1 2 2 ltac:(lia)) as (g & E & A & B).
  exists 1%nat, 2%nat, (hAt 2), 2%nat, g. split; [lia|]. split; [apply hAt_visits|]. split; [cbn; lia|]. split; [assumption|].
  intros C. specialize (C 0%nat ltac:(lia)). rewrite (A 0%nat), (B 0%nat) in C by lia.
  change ((2 / 2 ^ 0) mod 2)%nat with 0%nat in C. change ((2 / (2 + 1) ^ 0) mod (2 + 1))%nat with 2%nat in C. cbn [INR] in C. lra.
Qed.
Print Assumptions C47_hcube_refuted.
Theorem C47_simplex_refuted : exists dim n vs k c x, (0 < dim)%nat /\ (0 < n)%nat /\ simplexVertices dim n vs /\ (k < sx_nVertices dim n)%nat
  /\ sv_geometry (vs k) = [c] /\ sv_coords dim (vs k) = Some x /\ ~ agree dim c x.
Proof.
  exists 1%nat, 2%nat, (svAt 1 2), 2%nat. do 2 eexists. split; [lia|]. split; [lia|]. split; [apply svertices; lia|]. split; [cbn; lia|].
  split; [reflexivity|]. split; [apply sv_coords_eq; lia|]. intros A. specialize (A 0%nat ltac:(lia)). rewrite k2r_id in A by lia. cbn in A. lra.
Qed.
Print Assumptions C47_simplex_refuted.
Theorem C47_pyramid_refuted : exists n vs k c x, (0 < n)%nat /\ triangVertices 3 tr_pyramid n vs /\ (k < tr_nVertices 3 tr_pyramid n)%nat
  /\ tv_geometry 3 tr_pyramid (vs k) = Some [c] /\ tv_coords 3 tr_pyramid (vs k) = Some x /\ ~ agree 3 c x.
Proof.
  exists 1%nat, (tvAt 3 1), 0%nat. do 2 eexists. split; [lia|]. split; [apply tvertices; lia|]. split; [cbn; lia|].
  unfold tv_geometry, tv_coords. rewrite sv_coords_eq by lia. cbn [obind].
  destruct (permOf_spec 3 0 ltac:(cbn; lia)) as [E _]. rewrite getPermutation_zero in E.
  replace (tr_perm tr_pyramid (tv_kuhn (tvAt 3 1 0))) with 0%nat by (vm_compute; reflexivity). rewrite getPermutation_zero. cbn [obind].
  split; [reflexivity|]. split; [reflexivity|]. intros A. specialize (A 0%nat ltac:(lia)).
  cbn [tr_pyramid tr_vtransform tr_transform pyramidTransform] in A. rewrite r2k_k2r in A by apply isPerm_id.
  replace (sv_vertex (tv_backend (tvAt 3 1 0)) 0%nat) with 0%nat in A by (vm_compute; reflexivity). cbn in A. lra.
Qed.
Print Assumptions C47_pyramid_refuted.
Theorem C47_triangulations : forall dim t s x, (exists d, dim = d /\ t = tr_cube d) \/ dim = 3%nat /\ t = tr_prism ->
  tv_coords dim t s = Some x -> tv_geometry dim t s = Some [x].
Proof.
  intros dim t s x H E. assert (T : tr_vtransform t = tr_transform t) by (destruct H as [(d & _ & ->)|[_ ->]]; reflexivity).
  unfold tv_coords in E. unfold tv_geometry. destruct (sv_coords _ _); [|discriminate]. cbn [obind] in *.
  destruct (getPermutation _ _); [|discriminate]. cbn [obind] in *. rewrite T. injection E as <-. reflexivity.
Qed.
Print Assumptions C47_triangulations.
