(** Glue for the theorems about refinements: the sequence of iterator states is unique, the
    reference simplex as a convex hull, centres, lattice points. *)
From Coq Require Import PeanoNat NArith ZArith Bool List Reals Factorial Lia Lra FunctionalExtensionality.
From Verif Require Import M_Type M_RefTopo M_RefGeo M_Matrix S_Topo S_RefGeo S_Matrix S_MultiLinear P_Type P_Topo P_RefTopo P_RefTopo2 P_RSum P_RefGeo P_RefGeo2 P_RefGeo4
  P_Det P_RefDet P_RefGeo3 P_Type2 P_RefTopo3 P_MxBridge T_RefGeo M_MultiLinear M_Refine S_Refine P_Refine1 P_Refine2 P_Refine3 P_Refine4 P_Refine5 P_Refine6 P_Refine7.
Import ListNotations.
Local Open Scope R_scope.

Lemma visits_unique {S} : forall (step : S -> option S) atEnd b N st st',
  visits step atEnd b N st -> visits step atEnd b N st' -> forall k, (k <= N)%nat -> st k = st' k.
Proof.
  intros step atEnd b N st st' (A0 & A1 & _) (B0 & B1 & _) k. induction k as [|k IH]; intros H; [congruence|].
  destruct (A1 k ltac:(lia)) as [_ A]. destruct (B1 k ltac:(lia)) as [_ B].
  rewrite (IH ltac:(lia)), B in A. injection A as A. rewrite Nat.add_1_r in A. congruence.
Qed.
(** the length of the loop is determined as well *)
Lemma visits_length {S} : forall (step : S -> option S) atEnd b N N' st st',
  visits step atEnd b N st -> visits step atEnd b N' st' -> N = N'.
Proof.
  assert (W : forall (step : S -> option S) atEnd b N N' st st', visits step atEnd b N st -> visits step atEnd b N' st' -> (N < N')%nat -> False).
  { intros step atEnd b N N' st st' (A0 & A1 & A2) (B0 & B1 & B2) L.
    assert (E : forall k, (k <= N)%nat -> st k = st' k).
    { induction k as [|k IH]; intros H; [congruence|]. destruct (A1 k ltac:(lia)) as [_ A]. destruct (B1 k ltac:(lia)) as [_ B].
      rewrite (IH ltac:(lia)), B in A. injection A as A. rewrite Nat.add_1_r in A. congruence. }
    destruct (B1 N L) as [B _]. rewrite <- E, A2 in B by lia. discriminate. }
  intros step atEnd b N N' st st' A B. destruct (Nat.lt_trichotomy N N') as [L|[E|L]]; [|assumption|]; exfalso; eauto.
Qed.

Lemma insideT_sim : forall dim x a, 0 <= a -> (insideT (topo_of simplexId dim) x a <-> (forall i, (i < dim)%nat -> 0 <= x i) /\ Ssum dim x <= a).
Proof.
  induction dim as [|d IH]; intros x a Ha.
  - cbn. split; [intros _; split; [lia|assumption]|auto].
  - change (topo_of simplexId (S d)) with (Pyr (topo_of simplexId d)). cbn [insideT Ssum]. rewrite tdim_topo_of. split.
    + intros [B C]. apply IH in C; [|lra]. destruct C as [C D]. split; [|lra].
      intros i Hi. destruct (Nat.eq_dec i d) as [->|]; [lra|apply C; lia].
    + intros [B C]. assert (0 <= Ssum d x) by (rewrite Ssum_rsum; apply rsum_nonneg; intros; apply B; lia).
      pose proof (B d ltac:(lia)). split; [lra|]. apply IH; [lra|]. split; [intros; apply B; lia|lra].
Qed.
Lemma simplex_hull : forall dim x, in_hull dim (referenceCorners simplexId dim) x <-> inSimplex dim x.
Proof.
  intros dim x. rewrite corners_verts. pose proof (in_hull_insideT (topo_of simplexId dim) x) as A. rewrite tdim_topo_of in A. rewrite A.
  apply insideT_sim. lra.
Qed.

Lemma simplex_center_pos : forall dim r, re_infos simplexId dim = Some r -> exists p, re_position simplexId dim r 0 0 = Some p
  /\ forall k, (k < dim)%nat -> p k = rsum (dim + 1) (fun i => / INR (dim + 1) * sc i k).
Proof.
  intros dim r Hr. assert (V : (simplexId < bit dim)%N).
  { unfold simplexId. rewrite bit_pow. assert (2 ^ N.of_nat dim <> 0)%N by (apply N.pow_nonzero; discriminate). lia. }
  pose proof (re_infos_ok _ _ _ V Hr) as OK. set (T := topo_of simplexId dim) in *.
  destruct (whole_face T) as (W1 & W2 & W3).
  destruct (re_position_spec simplexId dim r _ OK W1) as (q & Q & QV). fold T in Q, QV.
  assert (F0 : fidx T (whole T) = O).
  { pose proof (fidx_lt _ _ W1) as L. rewrite W2, tsize_0 in L. lia. }
  rewrite W2, F0 in Q. exists q. split; [exact Q|]. intros k Hk.
  assert (TD : tdim T = dim) by apply tdim_topo_of.
  rewrite QV, W3, Emb_whole by (rewrite TD; assumption). unfold meanT.
  assert (L : length (verts T) = (dim + 1)%nat).
  { rewrite simT_verts_length; [rewrite TD; lia|]. apply (isSimplex_simT _ _); [exact V|reflexivity]. }
  rewrite L, (lsum_nth _ _ (FPt)), L. rewrite rsum_scal. unfold Rdiv. rewrite Rmult_comm. f_equal. apply rsum_ext. intros i Hi.
  assert (P := simplex_corner_pos dim r i ltac:(lia)). unfold re_position in P. rewrite Nat.eqb_refl in P.
  rewrite corners_verts in P. fold T in P. rewrite nth_error_map in P.
  rewrite (nth_error_nth' _ FPt) in P by lia. cbn [option_map] in P. injection P as P. rewrite P. reflexivity.
Qed.

(** the vertices of the simplex: grid points of the Kuhn simplex and lattice points *)
Lemma lattice_vertex : forall dim n (a : nat -> nat), (0 < dim)%nat -> (0 < n)%nat -> (fold_right Nat.add 0 (map a (seq 0 dim)) <= n)%nat ->
  exists k, (k < sx_nVertices dim n)%nat /\ exists x, sv_coords dim (svAt dim n k) = Some x /\ agree dim x (fun i => INR (a i) / INR n).
Proof.
  intros dim n a Hd Hn S. set (v := fun i => fold_right Nat.add 0%nat (map a (seq i (dim - i)))).
  assert (VS : forall i, (i < dim)%nat -> v i = (a i + v (Datatypes.S i))%nat).
  { intros i Hi. unfold v. replace (dim - i)%nat with (Datatypes.S (dim - Datatypes.S i)) by lia. reflexivity. }
  assert (D : decr dim v) by (intros i Hi; rewrite (VS i) by lia; lia).
  assert (B : (v 0 <= n)%nat) by (unfold v; rewrite Nat.sub_0_r; exact S).
  exists (pointIndex dim v). split; [unfold sx_nVertices; apply index_bound; assumption|].
  rewrite sv_coords_eq by assumption. eexists. split; [reflexivity|]. intros i Hi. rewrite k2r_id by assumption. cbn [svAt sv_vertex sv_size].
  assert (Np : INR n <> 0) by (apply not_0_INR; lia).
  pose proof (vseq_of dim v Hd D) as A. rewrite <- (A i Hi), (VS i Hi), plus_INR. destruct (Nat.ltb_spec (Datatypes.S i) dim) as [L|L].
  - rewrite <- (A (Datatypes.S i) L). field. assumption.
  - assert (v (Datatypes.S i) = 0%nat) by (unfold v; replace (dim - Datatypes.S i)%nat with 0%nat by lia; reflexivity). rewrite H. cbn [INR]. field. assumption.
Qed.
Lemma vertex_lattice : forall dim n k, (0 < dim)%nat -> (0 < n)%nat -> (k < sx_nVertices dim n)%nat ->
  exists (a : nat -> nat) x, (fold_right Nat.add 0 (map a (seq 0 dim)) <= n)%nat
    /\ sv_coords dim (svAt dim n k) = Some x /\ agree dim x (fun i => INR (a i) / INR n).
Proof.
  intros dim n k Hd Hn Hk. set (v := vseq dim k).
  exists (fun i => (v i - (if Nat.ltb (S i) dim then v (S i) else 0))%nat). rewrite sv_coords_eq by assumption. eexists.
  assert (D : decr dim v) by (apply vseq_decr; assumption).
  split; [|split; [reflexivity|]].
  - apply (vseq_bound dim n k Hd) in Hk. fold v in Hk.
    assert (G : forall m i, (i + m)%nat = dim -> (0 < m)%nat -> fold_right Nat.add 0%nat (map (fun i => (v i - (if Nat.ltb (S i) dim then v (S i) else 0))%nat) (seq i m)) = v i).
    { induction m as [|m IH]; intros i Hi Hm; [lia|]. cbn [seq map fold_right]. destruct (Nat.eq_dec m 0) as [->|].
      - cbn [seq map fold_right]. destruct (Nat.ltb_spec (S i) dim); lia.
      - rewrite IH by lia. destruct (Nat.ltb_spec (S i) dim); [|lia]. specialize (D i ltac:(assumption)). lia. }
    rewrite G by lia. exact Hk.
  - intros i Hi. rewrite k2r_id by assumption. cbn [svAt sv_vertex sv_size]. fold v.
    assert (Np : INR n <> 0) by (apply not_0_INR; lia).
    destruct (Nat.ltb_spec (S i) dim) as [L|L].
    + rewrite minus_INR by (apply D, L). field. assumption.
    + rewrite Nat.sub_0_r. field. assumption.
Qed.
Lemma vertex_inj : forall dim n k k' x x', (0 < dim)%nat -> (0 < n)%nat ->
  sv_coords dim (svAt dim n k) = Some x -> sv_coords dim (svAt dim n k') = Some x' -> agree dim x x' -> k = k'.
Proof.
  intros dim n k k' x x' Hd Hn E E' A. rewrite sv_coords_eq in E, E' by assumption. injection E as <-. injection E' as <-.
  cbn [svAt sv_vertex sv_size] in A.
  apply (affdet_agree dim (fun x => referenceToKuhn Rplus dim x idp) 1 _ _ (affdet_r2k dim idp (isPerm_id dim))) in A.
  cbv beta in A. rewrite !r2k_k2r in A by apply isPerm_id.
  assert (Np : INR n <> 0) by (apply not_0_INR; lia).
  rewrite <- (vseq_index dim k Hd), <- (vseq_index dim k' Hd). apply index_ext. intros i Hi. specialize (A i Hi). cbv beta in A.
  apply INR_eq. unfold Rdiv in A. apply Rmult_eq_reg_r in A; [assumption|]. apply Rinv_neq_0_compat. assumption.
Qed.

(** the corners of an element are vertices *)
Lemma elem_vertices : forall dim n k p, (0 < dim)%nat -> (0 < n)%nat -> (k < n ^ dim)%nat ->
  getPermutation dim (se_kuhn (elemAt dim n k)) = Some p ->
  exists vi s, se_vertexIndices dim (elemAt dim n k) = Some vi /\ isPerm (dim + 1) s
    /\ (forall i, (i <= dim)%nat -> (vi i < sx_nVertices dim n)%nat)
    /\ (forall i j, (i <= dim)%nat -> (j <= dim)%nat -> vi i = vi j -> i = j)
    /\ forall i, (i <= dim)%nat -> exists x, sv_coords dim (svAt dim n (vi (s i))) = Some x /\ agree dim (Gmap dim p (se_origin (elemAt dim n k)) n (sc i)) x.
Proof.
  intros dim n k p0 Hd Hn Hk E0. destruct (elem_spec dim n k Hd Hn Hk) as (p & q & E & P & Q & qp & pq & D & B & C & _).
  rewrite E in E0. injection E0 as <-.
  destruct (se_vertexIndices_eq dim (elemAt dim n k) p q E P Q qp pq) as (vi & EV & V). set (o := se_origin (elemAt dim n k)) in *.
  set (ku := se_kuhn (elemAt dim n k)) in *.
  assert (GP : forall i, gridPoint dim n (cornerAt q o i)) by (intros; apply corner_grid; assumption).
  assert (GD : forall i, decr dim (cornerAt q o i)) by (intros; apply (gridPoint_decr dim n), GP).
  exists vi, (vpos dim ku q). split; [assumption|]. split; [apply vpos_perm; assumption|]. repeat apply conj.
  - intros i Hi. rewrite V by assumption. unfold sx_nVertices. apply index_bound; [assumption|apply GD|]. apply (GP (flip ku dim i)). assumption.
  - intros i j Hi Hj EQ. rewrite !V in EQ by assumption. apply index_agree in EQ; [|apply GD|apply GD].
    apply (corner_inj dim p q P qp) in EQ; try (apply flip_le; assumption).
    rewrite <- (flip_flip ku dim i), <- (flip_flip ku dim j), EQ by assumption. reflexivity.
  - intros i Hi. rewrite sv_coords_eq by assumption. eexists. split; [reflexivity|]. cbn [svAt sv_vertex sv_size].
    intros j Hj. rewrite (corner_coords dim n p q o i P qp pq Q Hn Hi j Hj).
    apply (affdet_agree dim (fun x => kuhnToReference Rminus dim x idp) 1 _ _ (affdet_k2r dim idp (isPerm_id dim))); [|assumption].
    intros l Hl. pose proof (chainPos_le dim q i Q Hi). unfold vpos. rewrite V by (apply flip_le; assumption). rewrite flip_flip by assumption.
    pose proof (vseq_of dim _ Hd (GD (chainPos q i)) l Hl) as X. rewrite X. reflexivity.
Qed.
