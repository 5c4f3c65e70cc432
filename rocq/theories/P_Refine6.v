(** Vertices, vertex indices, corners and volumes of the refined simplex. *)
From Coq Require Import PeanoNat NArith ZArith Bool List Permutation Reals Factorial Lia Lra FunctionalExtensionality.
From Verif Require Import M_Type M_RefTopo M_RefGeo M_Matrix S_Topo S_RefGeo S_Matrix S_MultiLinear P_Type P_Topo P_RefTopo P_RefTopo2 P_RSum P_RefGeo P_RefGeo2 P_RefGeo4
  P_Det P_RefDet P_RefGeo3 P_Type2 P_RefTopo3 P_Matrix4 P_ML5 T_RefGeo T_Matrix M_MultiLinear M_Refine S_Refine P_Refine1 P_Refine2 P_Refine3 P_Refine4 P_Refine5.
Import ListNotations.
Local Open Scope R_scope.

(** ** the vertex iterator *)
Definition svAt (dim n k : nat) : SVert := {| sv_size := n; sv_vertex := vseq dim k |}.
Lemma svAt_begin : forall dim n, svAt dim n 0 = sx_vBegin n.
Proof.
  intros. unfold svAt, sx_vBegin, sv_make. f_equal. extensionality i. unfold vseq. cbn [Nat.iter].
  change (Nat.iter 0 (incLoop dim) (fun _ => 0%nat)) with (fun _ : nat => 0%nat). cbv beta. destruct (Nat.eqb i 0); reflexivity.
Qed.
Lemma svAt_step : forall dim n k, (0 < dim)%nat -> (k < sx_nVertices dim n)%nat -> sv_increment dim (svAt dim n k) = Some (svAt dim n (S k)).
Proof.
  intros dim n k H L. unfold sv_increment, svAt. cbn [sv_vertex sv_size]. apply vseq_bound in L; [|assumption].
  destruct (Nat.leb_spec (vseq dim k 0) n); [|lia]. rewrite vseq_S. reflexivity.
Qed.
Lemma svAt_end : forall dim n k, (0 < dim)%nat -> (sv_equals dim (svAt dim n k) (sx_vEnd n) = true <-> k = sx_nVertices dim n).
Proof.
  intros dim n k H. unfold sv_equals, svAt, sx_vEnd, sv_make. cbn [sv_size sv_vertex]. rewrite Nat.eqb_refl. cbn [andb].
  rewrite veq_agree. set (w := fun i : nat => if Nat.eqb i 0 then (n + 1)%nat else 0%nat).
  assert (D : decr dim w) by (intros j Hj; unfold w; cbn; lia).
  assert (E : pointIndex dim w = sx_nVertices dim n).
  { unfold sx_nVertices. apply index_top; auto.
    - unfold w. cbn. lia.
    - intros j H1 H2. unfold w. destruct (Nat.eqb_spec j 0); lia. }
  split.
  - intros A. apply index_ext in A. rewrite vseq_index in A by assumption. lia.
  - intros ->. rewrite <- E. intros i Hi. symmetry. apply vseq_of; assumption.
Qed.
Lemma sv_coords_eq : forall dim s, (0 < dim)%nat -> sv_coords dim s = Some (kuhnToReference Rminus dim (fun i => INR (sv_vertex s i) / INR (sv_size s)) idp).
Proof.
  intros dim s H. unfold sv_coords. rewrite getPermutation_zero. cbn [obind]. f_equal. extensionality i.
  destruct (k2r_spec Z.sub dim idp (fun i => Z.of_nat (sv_vertex s i)) (isPerm_id dim)) as (A1 & A2 & A3).
  destruct (k2r_spec Rminus dim idp (fun i => INR (sv_vertex s i) / INR (sv_size s)) (isPerm_id dim)) as (B1 & B2 & B3).
  destruct (Nat.lt_ge_cases i dim) as [L|L].
  - destruct (Nat.eq_dec (S i) dim) as [E|E].
    + assert (i = dim - 1)%nat by lia. subst i. rewrite A2, B2 by assumption. rewrite <- INR_IZR_INZ. reflexivity.
    + rewrite A1, B1 by lia. rewrite minus_IZR, <- !INR_IZR_INZ. unfold Rdiv. ring.
  - rewrite A3, B3 by assumption. rewrite <- INR_IZR_INZ. reflexivity.
Qed.
(** the coordinates are the differences of neighbouring entries *)
Lemma k2r_id : forall dim (y : Vec) i, (i < dim)%nat -> kuhnToReference Rminus dim y idp i = y i - (if Nat.ltb (S i) dim then y (S i) else 0).
Proof.
  intros dim y i Hi. destruct (k2r_spec Rminus dim idp y (isPerm_id dim)) as (B1 & B2 & _).
  destruct (Nat.ltb_spec (S i) dim); [apply B1; assumption|]. assert (i = dim - 1)%nat by lia. subst i. rewrite B2 by lia. ring.
Qed.

(** ** the corners *)
Lemma r2k_corner : forall dim p q i j, isPerm dim p -> (forall i, (i < dim)%nat -> q (p i) = i) -> (forall i, (i < dim)%nat -> p (q i) = i) ->
  isPerm dim q -> (i <= dim)%nat -> (j < dim)%nat ->
  referenceToKuhn Rplus dim (sc i) p j = if Nat.ltb (q j) (match i with O => 0 | S l => q l + 1 end) then 1 else 0.
Proof.
  intros dim p q i j Hp qp pq Hq Hi Hj. rewrite <- (pq j Hj) at 1. rewrite r2k_tail by (auto; apply Hq; assumption).
  destruct i as [|l].
  - rewrite rsum_0; [destruct (Nat.ltb_spec (q j) 0); [lia|reflexivity]|]. intros. reflexivity.
  - unfold sc. cbn [Nat.eqb]. assert (Qj := proj1 Hq j Hj). assert (Ql := proj1 Hq l ltac:(lia)).
    destruct (Nat.ltb_spec (q j) (q l + 1)) as [L|L].
    + rewrite (rsum_ext _ _ (fun m => if Nat.eqb m (q l - q j) then 1 else 0)).
      * rewrite (rsum_delta (dim - q j) (q l - q j) (fun _ => 1)) by lia. reflexivity.
      * intros m Hm. destruct (Nat.eqb_spec l (p (q j + m)%nat)) as [E|E]; destruct (Nat.eqb_spec m (q l - q j)) as [F|F]; try reflexivity.
        -- rewrite E, qp in F by lia. lia.
        -- exfalso. apply E. subst m. replace (q j + (q l - q j))%nat with (q l) by lia. symmetry. apply pq. lia.
    + apply rsum_0. intros m Hm. destruct (Nat.eqb_spec l (p (q j + m)%nat)) as [E|E]; [|reflexivity].
      rewrite E, qp in L by lia. lia.
Qed.
(** the position of geometry corner i in the chain of the element *)
Definition chainPos (q : nat -> nat) (i : nat) : nat := match i with O => 0 | S l => q l + 1 end.
Lemma corner_coords : forall dim n p q o i, isPerm dim p -> (forall i, (i < dim)%nat -> q (p i) = i) -> (forall i, (i < dim)%nat -> p (q i) = i) ->
  isPerm dim q -> (0 < n)%nat -> (i <= dim)%nat ->
  agree dim (Gmap dim p o n (sc i)) (kuhnToReference Rminus dim (fun j => INR (cornerAt q o (chainPos q i) j) / INR n) idp).
Proof.
  intros dim n p q o i Hp qp pq Hq Hn Hi. apply (affdet_agree dim (fun x => kuhnToReference Rminus dim x idp) 1); [apply affdet_k2r, isPerm_id|].
  intros j Hj. rewrite (r2k_corner dim p q i j) by assumption. unfold cornerAt, chainPos.
  rewrite plus_INR. destruct (Nat.ltb (q j) _); cbn [INR]; f_equal; ring.
Qed.

(** ** vertexIndices *)
Lemma viLoop_spec : forall dim p q o, isPerm dim p -> isPerm dim q -> (forall i, (i < dim)%nat -> q (p i) = i) -> (forall i, (i < dim)%nat -> p (q i) = i) ->
  forall n i c ind, (i + n)%nat = dim -> agree dim c (cornerAt q o i) ->
  (forall m, (m <= i)%nat -> ind m = pointIndex dim (cornerAt q o m)) ->
  forall m, (m <= dim)%nat -> viLoop dim p n i c ind m = pointIndex dim (cornerAt q o m).
Proof.
  intros dim p q o Hp Hq qp pq. induction n as [|n IH]; intros i c ind E A I m Hm.
  - cbn [viLoop]. apply I. lia.
  - cbn [viLoop]. assert (A' : agree dim (aset c (p i) (c (p i) + 1)%nat) (cornerAt q o (S i))) by (apply corner_next; auto; lia).
    apply IH; auto; [lia|]. intros m' Hm'. destruct (Nat.eq_dec m' (S i)) as [->|N].
    + rewrite Nat.add_1_r, aset_eq. apply index_ext. assumption.
    + rewrite aset_ne by lia. apply I. lia.
Qed.
Lemma reverse_spec : forall dim (ind : nat -> nat), forall c, (c <= (dim + 1) / 2)%nat -> forall i, (i <= dim)%nat ->
  fold_left (fun indices i => aset (aset indices i (indices (dim - i)%nat)) (dim - i)%nat (indices i)) (seq 0 c) ind i
  = if (i <? c)%nat || (dim - i <? c)%nat then ind (dim - i)%nat else ind i.
Proof.
  intros dim ind c. assert (D : forall a, (a <= (dim + 1) / 2 -> 2 * a <= dim + 1)%nat).
  { intros a Ha. pose proof (Nat.div_mod (dim + 1) 2 ltac:(lia)). lia. }
  induction c as [|c IH]; intros Hc i Hi; [reflexivity|]. pose proof (D _ Hc).
  rewrite seq_S, fold_left_app. cbn [fold_left Nat.add]. set (f := fold_left _ (seq 0 c) ind) in *.
  assert (IHc := IH ltac:(lia)). clear IH.
  destruct (Nat.eq_dec i (dim - c)) as [->|N1].
  - rewrite aset_eq. rewrite IHc by lia.
    destruct (Nat.ltb_spec c c); [lia|]. destruct (Nat.ltb_spec (dim - c) c); [lia|]. cbn [orb].
    replace (dim - (dim - c))%nat with c by lia.
    destruct (Nat.ltb_spec (dim - c) (S c)); destruct (Nat.ltb_spec c (S c)); cbn [orb]; try lia; reflexivity.
  - rewrite aset_ne by assumption. destruct (Nat.eq_dec i c) as [->|N2].
    + rewrite aset_eq. rewrite IHc by lia. replace (dim - (dim - c))%nat with c by lia.
      destruct (Nat.ltb_spec c c); [lia|]. destruct (Nat.ltb_spec (dim - c) c); [lia|]. cbn [orb].
      destruct (Nat.ltb_spec c (S c)); [reflexivity|lia].
    + rewrite aset_ne by assumption. rewrite IHc by assumption.
      destruct (Nat.ltb_spec i c); destruct (Nat.ltb_spec i (S c)); destruct (Nat.ltb_spec (dim - i) c); destruct (Nat.ltb_spec (dim - i) (S c)); cbn [orb]; try lia; reflexivity.
Qed.
Definition flip (kuhn dim i : nat) : nat := if Nat.eqb (kuhn mod 2) 1 then (dim - i)%nat else i.
Lemma se_vertexIndices_eq : forall dim s p q, getPermutation dim (se_kuhn s) = Some p -> isPerm dim p -> isPerm dim q ->
  (forall i, (i < dim)%nat -> q (p i) = i) -> (forall i, (i < dim)%nat -> p (q i) = i) ->
  exists vi, se_vertexIndices dim s = Some vi /\ forall m, (m <= dim)%nat -> vi m = pointIndex dim (cornerAt q (se_origin s) (flip (se_kuhn s) dim m)).
Proof.
  intros dim s p q E Hp Hq qp pq. unfold se_vertexIndices. rewrite E. cbn [obind]. eexists. split; [reflexivity|].
  assert (V : forall m, (m <= dim)%nat -> viLoop dim p dim 0 (se_origin s) (aset (fun _ => 0%nat) 0 (pointIndex dim (se_origin s))) m
    = pointIndex dim (cornerAt q (se_origin s) m)).
  { apply viLoop_spec; auto.
    - intros j Hj. unfold cornerAt. destruct (Nat.ltb_spec (q j) 0); lia.
    - intros m Hm. assert (m = 0%nat) by lia. subst m. rewrite aset_eq. apply index_ext.
      intros j Hj. unfold cornerAt. destruct (Nat.ltb_spec (q j) 0); lia. }
  intros m Hm. unfold flip. destruct (Nat.eqb (se_kuhn s mod 2) 1); [|apply V; assumption].
  rewrite (reverse_spec dim _ ((dim + 1) / 2)) by (auto; lia). rewrite !V by lia.
  destruct (Nat.ltb_spec m ((dim + 1) / 2)); [reflexivity|]. destruct (Nat.ltb_spec (dim - m) ((dim + 1) / 2)); [reflexivity|]. cbn [orb].
  pose proof (Nat.div_mod (dim + 1) 2 ltac:(lia)). pose proof (Nat.mod_upper_bound (dim + 1) 2 ltac:(lia)).
  f_equal. f_equal. lia.
Qed.
(** which entry of vertexIndices belongs to geometry corner i *)
Definition vpos (dim kuhn : nat) (q : nat -> nat) (i : nat) : nat := flip kuhn dim (chainPos q i).
Lemma flip_flip : forall kuhn dim i, (i <= dim)%nat -> flip kuhn dim (flip kuhn dim i) = i.
Proof. intros. unfold flip. destruct (Nat.eqb (kuhn mod 2) 1); lia. Qed.
Lemma flip_le : forall kuhn dim i, (i <= dim)%nat -> (flip kuhn dim i <= dim)%nat.
Proof. intros. unfold flip. destruct (Nat.eqb (kuhn mod 2) 1); lia. Qed.
Lemma chainPos_le : forall dim q i, isPerm dim q -> (i <= dim)%nat -> (chainPos q i <= dim)%nat.
Proof. intros dim q [|l] [Q _] H; cbn; [lia|]. pose proof (Q l ltac:(lia)). lia. Qed.
Lemma vpos_perm : forall dim kuhn q, isPerm dim q -> isPerm (dim + 1) (vpos dim kuhn q).
Proof.
  intros dim kuhn q Hq. split.
  - intros i Hi. unfold vpos. pose proof (flip_le kuhn dim (chainPos q i) (chainPos_le dim q i Hq ltac:(lia))). lia.
  - intros i j Hi Hj E. unfold vpos in E. apply (f_equal (flip kuhn dim)) in E.
    rewrite !flip_flip in E by (apply chainPos_le; auto; lia). destruct i as [|i], j as [|j]; cbn in E; try lia.
    f_equal. apply Hq; lia.
Qed.

(** ** simplex geometries with the corners of an affine map *)
Lemma simplex_wf : forall dim r cs, re_infos simplexId dim = Some r -> length cs = (dim + 1)%nat ->
  ml_wf dim {| ml_id := simplexId; ml_ref := r; ml_corners := cs |}.
Proof.
  intros dim r cs E L. unfold ml_wf. cbn [ml_id ml_ref ml_corners].
  assert (V : (simplexId < bit dim)%N).
  { rewrite bit_pow. unfold simplexId. assert (2 ^ N.of_nat dim <> 0)%N by (apply N.pow_nonzero; discriminate). lia. }
  split; [exact V|]. split; [assumption|]. rewrite L. rewrite <- (C16_corner_count simplexId dim), corners_verts, map_length.
  rewrite simT_verts_length; [rewrite tdim_topo_of; lia|]. apply (isSimplex_simT _ _); [exact V|reflexivity].
Qed.
Definition injective_on (dim : nat) (G : Vec -> Vec) : Prop := forall x y, agree dim (G x) (G y) -> agree dim x y.
Lemma simplex_volume : forall dim r G d tol jm jk j1 j2, affdet dim G d -> injective_on dim G -> 0 < tol < 1 / 2 -> re_infos simplexId dim = Some r ->
  mlg_volume dim dim tol jm jk j1 j2 {| ml_id := simplexId; ml_ref := r; ml_corners := map (fun i => G (sc i)) (seq 0 (dim + 1)) |}
  = Some (Rabs d * referenceVolume simplexId dim).
Proof.
  intros dim r G d tol jm jk j1 j2 HG Inj Ht E. destruct HG as (c & M & EG & D).
  set (g := {| ml_id := simplexId; ml_ref := r; ml_corners := _ |}).
  assert (wf : ml_wf dim g) by (apply simplex_wf; [assumption|rewrite map_length, seq_length; reflexivity]).
  assert (HA : corners_affine dim dim g c M).
  { intros i v p Hv Hp k Hk. cbn [ml_corners ml_id g] in Hv, Hp.
    assert (L : (i < length (map (fun i => G (sc i)) (seq 0 (dim + 1))))%nat) by (apply nth_error_Some; congruence).
    rewrite map_length, seq_length in L.
    assert (v = G (sc i)) by (rewrite <- (nth_map_seq (fun i => G (sc i)) (dim + 1) i (fun _ => 0) L); symmetry; apply nth_error_nth; exact Hv).
    subst v. rewrite EG by assumption. f_equal. apply rsum_ext. intros j Hj.
    assert (P := simplex_corner_pos dim r i ltac:(lia)). unfold re_position in P. rewrite Nat.eqb_refl in P.
    rewrite Hp in P. injection P as ->. ring. }
  assert (Hr : row_independent dim dim M).
  { intros x X i Hi. assert (A : agree dim (G x) (G (fun _ => 0))).
    { intros k Hk. rewrite !EG by assumption. f_equal. rewrite (rsum_0 dim (fun j => 0 * M j k)) by (intros; ring).
      rewrite <- (X k Hk). unfold mvec, mtr. apply rsum_ext. intros. ring. }
    exact (Inj _ _ A i Hi). }
  unfold mlg_volume. destruct (center_nice dim tol g Ht wf) as (p & EP & NP).
  rewrite EP. cbn [obind].
  destruct (affine_jt dim dim tol ltac:(lra) g wf jm jk c M p HA NP) as (J & EJ & VJ).
  unfold mlg_integrationElement. rewrite EJ. cbn [obind].
  assert (RJ : row_independent dim dim J) by (exact (rowind_meq _ _ _ _ (fun i j Hi Hj => eq_sym (VJ i j Hi Hj)) Hr)).
  destruct (C26_sqrtDetAAT dim dim J j1 j2 RJ) as (s & ES & S0 & S2). rewrite ES. cbn [obind]. f_equal. f_equal.
  rewrite det_gram, (detR_meq dim J M VJ), D in S2.
  assert (Rabs d * Rabs d = d * d) by (rewrite <- Rabs_mult; apply Rabs_pos_eq; nra).
  pose proof (Rabs_pos d). nra.
Qed.
Lemma Gmap_injective : forall dim p o n, isPerm dim p -> (0 < n)%nat -> injective_on dim (Gmap dim p o n).
Proof.
  intros dim p o n Hp Hn x y A. assert (N : INR n <> 0) by (apply not_0_INR; lia).
  apply K0_agree in A. unfold K0, Gmap in A. rewrite !r2k_k2r in A by apply isPerm_id.
  assert (B : agree dim (referenceToKuhn Rplus dim x p) (referenceToKuhn Rplus dim y p)).
  { intros j Hj. specialize (A j Hj). cbv beta in A. unfold Rdiv in A. apply Rmult_eq_reg_r in A; [lra|]. apply Rinv_neq_0_compat. assumption. }
  apply (affdet_agree dim (fun x => kuhnToReference Rminus dim x p) 1 _ _ (affdet_k2r dim p Hp)) in B.
  cbv beta in B. rewrite !k2r_r2k in B by assumption. exact B.
Qed.
