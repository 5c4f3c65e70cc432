(** * C66  Coordinates of refined elements in floating point *)
From Coq Require Import PeanoNat NArith ZArith Bool List Reals Lra Lia Factorial.
From Flocq Require Import Core IEEE754.BinarySingleNaN.
From Verif Require Import M_Type M_RefTopo M_RefGeo M_Matrix M_Affine M_Float M_Refine M_FloatRefine S_RefGeo S_Refine S_Refine2 S_Matrix
  P_RefGeo P_RefGeo3 P_RSum P_AACube P_Refine1 P_Refine2 P_Refine3 P_Refine4 P_Refine5 P_Refine6 P_Refine7 P_Refine8 P_Refine9 T_Refine
  P_Float P_Float2 P_Float3 T_Float T_Float2 P_FloatRef P_FloatRef2 P_FloatRef3.
Import ListNotations.
Local Open Scope R_scope.

(** ** the cells of the refined cube; the code computes in double and stores CoordType *)
Section Cube.
Variables (pd ed prec emax : Z).
Context (Hpd : Prec_gt_0 pd) (Hed : Prec_lt_emax pd ed) (Hp : Prec_gt_0 prec) (He : Prec_lt_emax prec emax).
Notation ud := (bpow radix2 (- pd)).
Notation u := (bpow radix2 (- prec)).
Notation vcoords := (hv_coordsF pd ed Hpd Hed prec emax Hp He).
Notation ecoords := (he_coordsF pd ed Hpd Hed prec emax Hp He).
Notation geo := (he_geometryF pd ed Hpd Hed prec emax Hp He).
Notation corner := (fac_corner prec emax).

Lemma geo_wf : forall dim s, fac_wf prec emax dim dim (geo dim s).
Proof.
  intros dim s. constructor; cbn [he_geometryF fac_make2 fc_axes fc_upper fc_lower].
  - now apply bcount_full.
  - right. intros i Hi E. apply Nat.ltb_ge in E. lia.
Qed.
Lemma geo_corner : forall dim n k j d, (d < dim)%nat ->
  corner dim dim (geo dim (hAt n k)) j d = fconv pd ed prec emax Hp He (fdiv pd ed Hpd Hed
     (ofZ pd ed Hpd Hed (Z.of_nat ((if Nat.testbit j d then 1 else 0) + idx2coord dim k n d))) (ofZ pd ed Hpd Hed (Z.of_nat n))).
Proof.
  intros dim n k j d Hd. rewrite (fcorner_spec prec emax dim dim _ (geo_wf dim (hAt n k))) by exact Hd.
  cbn [he_geometryF fac_make2 fc_axes fc_upper fc_lower hAt hi_index hi_n].
  rewrite (proj2 (Nat.ltb_lt d dim)) by exact Hd. rewrite T_Refine.bcount_full by lia.
  destruct (Nat.testbit j d); [rewrite Nat.add_comm|]; reflexivity.
Qed.

(** Corner j of a cell is, bit for bit, what coords() returns for the vertex vertexIndices()[j]:
    neighbouring cells have the same floating point corners.  (The vertex iterator multiplies with 1.0
    before it divides, the geometry does not.) *)
Theorem C66_cube_corners : forall dim n st vs, (2 <= pd)%Z -> (0 < n)%nat -> INR n <= bpow radix2 (ed - 1) ->
  cubeElements dim n st -> cubeVertices dim n vs ->
  forall k j, (k < n ^ dim)%nat -> (j < 2 ^ dim)%nat ->
  agree dim (corner dim dim (geo dim (st k)) j) (vcoords dim (vs (he_vertexIndices dim (st k) j))).
Proof.
  intros dim n st vs Hd2 Hn Nn C V k j Hk Hj.
  rewrite (hst n _ st C k) by (cbn; unfold hc_nElements; lia).
  assert (B : forall d, (d < dim)%nat -> ((if Nat.testbit j d then 1 else 0) + hi_cellCoord dim (hAt n k) d < n + 1)%nat)
    by (intros; now apply cell_vertex_bound).
  rewrite (hst n _ vs V).
  2: { rewrite he_vertexIndices_eq. apply Nat.lt_le_incl. exact (dsum_bound _ _ _ B). }
  intros d Hd. rewrite geo_corner by exact Hd. unfold hv_coordsF, hi_vertexCoord. cbn [hi_index hi_n hAt].
  rewrite he_vertexIndices_eq. cbn [hi_n hAt]. rewrite idx2coord_dsum by assumption.
  rewrite times_one; [reflexivity|assumption|].
  specialize (B d Hd). apply Rle_trans with (INR n); [apply le_INR; lia|exact Nn].
Qed.

Section Values.
Hypothesis Hd2 : (2 <= pd)%Z.
Hypothesis H2 : (2 <= prec)%Z.
Variable n : nat.
Hypothesis Hn : (0 < n)%nat.
Hypothesis Nn : INR n <= bpow radix2 pd.
Notation rnd := (round radix2 (SpecFloat.fexp prec emax) (round_mode mode_NE)).
Notation rndd := (round radix2 (SpecFloat.fexp pd ed) (round_mode mode_NE)).
Notation cv a := (fconv pd ed prec emax Hp He (fdiv pd ed Hpd Hed (ofZ pd ed Hpd Hed (Z.of_nat a)) (ofZ pd ed Hpd Hed (Z.of_nat n)))).

Lemma cv_spec : forall a, (a <= n)%nat -> fnn prec emax (cv a) (rnd (vh pd ed n a)).
Proof.
  intros a Ha. apply fconv_nn; [assumption..|now apply vh_quo|].
  pose proof (vh_range pd ed Hpd Hed Hd2 n Hn a Ha). pose proof (one_big prec emax He H2). lra.
Qed.
Lemma cv_err : forall a, (a <= n)%nat -> Rabs (rnd (vh pd ed n a) - INR a / INR n) <= ud + u.
Proof.
  intros a Ha. pose proof (vh_range pd ed Hpd Hed Hd2 n Hn a Ha) as B.
  pose proof (vh_err pd ed Hpd Hed Hd2 n Hn a Ha) as E. pose proof (rnd_err prec emax Hp He H2 (vh pd ed n a)) as F.
  rewrite (Rabs_pos_eq (vh pd ed n a)) in F by lra. specialize (F ltac:(lra)). apply Rabs_le_inv in E, F. apply Rabs_le. lra.
Qed.
Lemma cv_range : forall a, (a <= n)%nat -> 0 <= rnd (vh pd ed n a) <= 1.
Proof. intros a Ha. pose proof (vh_range pd ed Hpd Hed Hd2 n Hn a Ha). split; [apply rnd_nn|apply rnd_le1]; try assumption; lra. Qed.

(** The cells are proper boxes of floating point numbers between 0 and 1 (so the theorems C65 hold
    for them), their corners are accurate and the point coords() lies in the box. *)
Theorem C66_cube_cells : forall dim st, cubeElements dim n st ->
  forall k, (k < n ^ dim)%nat ->
  (forall j d, (d < dim)%nat ->
     let x := corner dim dim (geo dim (st k)) j d in
     is_finite x = true /\ 0 <= B2R x <= 1 /\ Rabs (B2R x - aac_corner dim dim (he_geometry dim (st k)) j d) <= ud + u)
  /\ (2 * INR n * (ud + u) < 1 -> cube_ok prec emax dim dim (geo dim (st k)))
  /\ in_box prec emax dim (geo dim (st k)) (ecoords dim (st k)).
Proof.
  intros dim st C k Hk. rewrite (hst n _ st C k) by (cbn; unfold hc_nElements; lia).
  assert (B : forall j d, (d < dim)%nat -> ((if Nat.testbit j d then 1 else 0) + idx2coord dim k n d <= n)%nat).
  { intros j d Hd. pose proof (cell_vertex_bound dim n k j d Hn Hd) as Q. unfold hi_cellCoord in Q. cbn [hAt hi_index hi_n] in Q. lia. }
  assert (I : forall d, (d < dim)%nat -> (idx2coord dim k n d + 1 <= n)%nat).
  { intros d Hd. pose proof (idx2coord_bound dim k n d ltac:(lia) Hd). lia. }
  split; [|split].
  - intros j d Hd. rewrite geo_corner by exact Hd. rewrite he_corner by exact Hd.
    destruct (cv_spec _ (B j d Hd)) as (F & _ & V). cbv zeta. rewrite V. split; [exact F|].
    split; [now apply cv_range, B|now apply cv_err, B].
  - intros Sm. assert (L : forall i, (i < dim)%nat -> fnn prec emax (fc_lower prec emax (geo dim (hAt n k)) i) (rnd (vh pd ed n (idx2coord dim k n i))))
      by (intros i Hi; apply cv_spec; pose proof (I i Hi); lia).
    assert (U : forall i, (i < dim)%nat -> fnn prec emax (fc_upper prec emax (geo dim (hAt n k)) i) (rnd (vh pd ed n (idx2coord dim k n i + 1))))
      by (intros i Hi; apply cv_spec; exact (I i Hi)).
    assert (One : 1 <= bpow radix2 (emax - 3)).
    { change 1 with (bpow radix2 0). apply bpow_le. pose proof (prec_emax prec emax He). lia. }
    constructor.
    + apply geo_wf.
    + intros i Hi. split; [apply (L i Hi)|apply (U i Hi)].
    + intros i Hi. destruct (L i Hi) as (_ & _ & ->). destruct (U i Hi) as (_ & _ & ->). pose proof (I i Hi) as Ii.
      pose proof (cv_range _ Ii). pose proof (cv_range (idx2coord dim k n i) ltac:(lia)). rewrite !Rabs_pos_eq; lra.
    + intros i Hi _. destruct (L i Hi) as (_ & _ & ->). destruct (U i Hi) as (_ & _ & ->). pose proof (I i Hi) as Ii.
      pose proof (cv_err _ Ii) as E1. pose proof (cv_err (idx2coord dim k n i) ltac:(lia)) as E2. apply Rabs_le_inv in E1, E2.
      assert (NP : 0 < INR n) by now apply lt_0_INR.
      rewrite plus_INR in E1. cbn [INR] in E1. unfold Rdiv in E1, E2. rewrite Rmult_plus_distr_r, Rmult_1_l in E1.
      assert (2 * (ud + u) < / INR n).
      { apply Rmult_lt_reg_l with (INR n); [exact NP|]. rewrite Rinv_r by lra. lra. }
      lra.
  - intros i Hi. set (a := idx2coord dim k n i). pose proof (I i Hi) as Ii. fold a in Ii.
    cbn [he_geometryF fac_make2 fc_axes fc_upper fc_lower hAt hi_index hi_n]. fold a. rewrite (proj2 (Nat.ltb_lt i dim)) by exact Hi.
    destruct (cv_spec a ltac:(lia)) as (_ & _ & V1). destruct (cv_spec (a + 1)%nat Ii) as (_ & _ & V2). rewrite V1, V2.
    assert (Na : forall b, (b <= n)%nat -> INR b <= bpow radix2 pd) by (intros b Hb; apply le_INR in Hb; lra).
    assert (Fa : forall b, (b <= n)%nat -> rndd (INR b) = INR b).
    { intros b Hb. apply rnd_id. rewrite INR_IZR_INZ. apply format_int; try assumption; [lia|]. rewrite <- INR_IZR_INZ. now apply Na. }
    assert (NP : 0 < INR n) by now apply lt_0_INR.
    pose proof (prec_big pd ed Hed) as PB. pose proof (pos_INR a) as Pa. pose proof (Na _ Ii) as Na1. rewrite plus_INR in Na1. cbn [INR] in Na1.
    assert (Half : fnn pd ed (fhalf pd ed Hpd Hed) (/ 2)).
    { pose proof (binary_normalize_correct pd ed Hpd Hed mode_NE 1 (-1) false) as CC. cbn zeta in CC.
      assert (E : F2R (Float radix2 1 (-1)) = / 2) by (unfold F2R; cbn; lra). rewrite E in CC.
      assert (F2 : rndd (/ 2) = / 2).
      { apply rnd_id. replace (/ 2) with (bpow radix2 (-1)) by reflexivity. apply format_bpow; try assumption. pose proof (prec_emax pd ed Hed). lia. }
      rewrite F2 in CC. rewrite Rlt_bool_true in CC.
      2: { rewrite Rabs_pos_eq by lra. pose proof (one_big pd ed Hed Hd2). assert (bpow radix2 (ed - 1) < bpow radix2 ed) by (apply bpow_lt; lia). lra. }
      destruct CC as (C1 & C2 & C3). split; [exact C2|split; [|exact C1]]. unfold fhalf. rewrite C3. destruct (Rcompare_spec (/ 2) 0); auto; lra. }
    assert (Num : fnn pd ed (fadd pd ed Hpd Hed (fmul pd ed Hpd Hed (ofZ pd ed Hpd Hed (Z.of_nat a)) (ofZ pd ed Hpd Hed 1)) (fhalf pd ed Hpd Hed)) (rndd (INR a + / 2))).
    { rewrite times_one by (try assumption; lra). apply add_nn; try assumption; try lra. apply ofZ_nat with (n := n); try assumption. lia. }
    assert (NB : INR a <= rndd (INR a + / 2) <= INR (a + 1)).
    { rewrite plus_INR. cbn [INR]. split.
      - rewrite <- (Fa a ltac:(lia)) at 1. apply rnd_le; [assumption|lra].
      - replace (INR a + 1) with (rndd (INR (a + 1))) by (rewrite (Fa _ Ii), plus_INR; reflexivity). rewrite plus_INR. cbn [INR]. apply rnd_le; [assumption|lra]. }
    assert (QB : INR a / INR n <= rndd (INR a + / 2) / INR n <= INR (a + 1) / INR n).
    { pose proof (Rinv_0_lt_compat _ NP). unfold Rdiv. split; apply Rmult_le_compat_r; lra. }
    pose proof (quo_range n Hn (a + 1)%nat Ii) as QR. pose proof (quo_range n Hn a ltac:(lia)) as QR0.
    pose proof (one_big pd ed Hed Hd2) as OB. pose proof (one_big prec emax He H2) as OB'.
    assert (Quo : fnn pd ed (fdiv pd ed Hpd Hed (fadd pd ed Hpd Hed (fmul pd ed Hpd Hed (ofZ pd ed Hpd Hed (Z.of_nat a)) (ofZ pd ed Hpd Hed 1)) (fhalf pd ed Hpd Hed))
              (ofZ pd ed Hpd Hed (Z.of_nat n))) (rndd (rndd (INR a + / 2) / INR n))).
    { apply div_nn; try assumption; try lra. apply ofZ_nat with (n := n); try assumption. lia. }
    assert (RQ : vh pd ed n a <= rndd (rndd (INR a + / 2) / INR n) <= vh pd ed n (a + 1)) by (split; apply rnd_le; try assumption; lra).
    pose proof (vh_range pd ed Hpd Hed Hd2 n Hn _ Ii) as VR.
    destruct (fconv_nn pd ed prec emax Hp He H2 _ _ Quo ltac:(lra)) as (F & _ & V).
    unfold he_coordsF, hi_cellCoord. cbn [hAt hi_index hi_n]. fold a. rewrite V. split; [exact F|]. split; apply rnd_le; try assumption; lra.
Qed.
End Values.
End Cube.
Print Assumptions C66_cube_corners.
Print Assumptions C66_cube_cells.

Section FP.
Variables (prec emax : Z).
Context (Hp : Prec_gt_0 prec) (He : Prec_lt_emax prec emax).
Notation float := (binary_float prec emax).
Notation u := (bpow radix2 (- prec)).
Hypothesis H2 : (2 <= prec)%Z.
Variable n : nat.
Hypothesis Hn : (0 < n)%nat.
Hypothesis Nn : INR n <= bpow radix2 prec.

(** ** the refined simplex *)
Section Simplex.
Variables (fuel dim : nat) (st : nat -> SElem) (r : RefElement).
Hypothesis Hd : (0 < dim)%nat.
Hypothesis Hf : (fact dim <= fuel)%nat.
Hypothesis ES : simplexElements fuel dim n st.
Notation exact k := (se_corners dim r (st k)).
Notation computed k := (se_cornersF prec emax Hp He dim (st k)).

(** corners are finite, lie between 0 and 1 and are accurate *)
Theorem C66_simplex_corners : forall k i c, (k < n ^ dim)%nat -> corner_at (exact k) i c ->
  exists x, corner_at (computed k) i x /\
  forall j, (j < dim)%nat -> is_finite (x j) = true /\ 0 <= B2R (x j) <= 1 /\ Rabs (B2R (x j) - c j) <= 3 * u.
Proof.
  intros k i c Hk C. rewrite (stElem fuel dim n st Hd Hn Hf ES k Hk) in *.
  destruct (se_corner_exists prec emax Hp He H2 n Hn Nn dim k r i c Hd Hk C) as (w & G & A & _ & x & X & V).
  exists x. split; [exact X|]. intros j Hj. destruct (V j Hj) as (F & _ & ->). rewrite (A j Hj).
  split; [exact F|]. split; [now apply cval_range|now apply cval_err].
Qed.

(** Elements that share a corner compute the same floating point numbers for it; corners that differ
    stay different as long as the lattice is not finer than the floating point numbers. *)
Theorem C66_simplex_conforming : forall k k' i i' c c' x x', (k < n ^ dim)%nat -> (k' < n ^ dim)%nat ->
  corner_at (exact k) i c -> corner_at (exact k') i' c' -> corner_at (computed k) i x -> corner_at (computed k') i' x' ->
  (agree dim c c' -> agree dim x x') /\ (6 * INR n * u < 1 -> agree dim x x' -> agree dim c c').
Proof.
  intros k k' i i' c c' x x' Hk Hk' C C' X X'.
  pose proof (stElem fuel dim n st Hd Hn Hf ES) as E. rewrite (E k Hk) in C, X. rewrite (E k' Hk') in C', X'.
  destruct (se_corner_exists prec emax Hp He H2 n Hn Nn dim k r i c Hd Hk C) as (w & G & A & _ & y & Y & V).
  destruct (se_corner_exists prec emax Hp He H2 n Hn Nn dim k' r i' c' Hd Hk' C') as (w' & G' & A' & _ & y' & Y' & V').
  assert (U : forall (l : option (list (nat -> float))) a b m, corner_at l m a -> corner_at l m b -> a = b).
  { intros l a b m (cs & E1 & E2) (cs' & E3 & E4). congruence. }
  rewrite (U _ _ _ _ X Y), (U _ _ _ _ X' Y'). split.
  - intros AC. assert (W : agree dim w w').
    { apply (cexact_inj n Hn). intros j Hj. rewrite <- (A j Hj), <- (A' j Hj). now apply AC. }
    intros j Hj. apply (fnn_eq prec emax _ _ (P_FloatRef.cval prec emax n dim w j)); [now apply V|].
    rewrite (cval_ext prec emax n dim w w' W j Hj). now apply V'.
  - intros Sm AX j Hj. rewrite (A j Hj), (A' j Hj).
    pose proof (cval_err prec emax Hp He H2 n Hn dim w j G Hj) as E1. pose proof (cval_err prec emax Hp He H2 n Hn dim w' j G' Hj) as E2.
    destruct (V j Hj) as (_ & _ & V1). destruct (V' j Hj) as (_ & _ & V2). rewrite <- V1 in E1. rewrite <- V2, <- (AX j Hj) in E2.
    rewrite <- !dl_exact in * by assumption. f_equal. f_equal. apply (sep n Hn).
    apply Rabs_le_inv in E1, E2. pose proof (u_pos prec).
    apply Rle_lt_trans with (INR n * (6 * u)); [|lra]. apply Rmult_le_compat_l; [apply pos_INR|]. apply Rabs_le. lra.
Qed.
End Simplex.

(** the vertices of the refined simplex are correctly rounded *)
Theorem C66_simplex_vertices : forall dim vs, (0 < dim)%nat -> simplexVertices dim n vs ->
  forall k, (k < sx_nVertices dim n)%nat -> exists x c, sv_coordsF prec emax Hp He dim (vs k) = Some x /\ sv_coords dim (vs k) = Some c /\
  forall j, (j < dim)%nat -> is_finite (x j) = true /\ B2R (x j) = round radix2 (SpecFloat.fexp prec emax) (round_mode mode_NE) (c j).
Proof.
  intros dim vs Hd V k Hk. rewrite (visits_unique _ _ _ _ _ _ V (svertices dim n Hd) k ltac:(lia)).
  assert (GP : gridPoint dim n (sv_vertex (svAt dim n k))).
  { split; [intros _; apply vseq_bound; [exact Hd|exact Hk]|]. intros a Ha. apply (vseq_decr dim _ Hd). exact Ha. }
  destruct (sv_coordsF_spec prec emax Hp He H2 n Hn Nn dim (svAt dim n k) eq_refl GP) as (x & X1 & X2).
  exists x, (kuhnToReference Rminus dim (fun i => INR (sv_vertex (svAt dim n k) i) / INR n) idp). split; [exact X1|]. split; [now apply sv_coords_eq|].
  intros j Hj. destruct (X2 j Hj) as (F & _ & ->). split; [exact F|]. unfold P_FloatRef.vh. rewrite dl_exact by assumption. f_equal. now apply cexact_k2r.
Qed.

Lemma pair_shape : forall dim t ft, FShape prec emax Hp He dim t ft -> dim = 2%nat \/ t = tr_pyramid ->
  tr_count t = 2%nat /\ (2 <= dim)%nat
    /\ (permOf dim (tr_perm t 0) 0%nat = 0%nat /\ permOf dim (tr_perm t 0) 1%nat = 1%nat
     /\ permOf dim (tr_perm t 1) 0%nat = 1%nat /\ permOf dim (tr_perm t 1) 1%nat = 0%nat
     /\ forall a, (2 <= a < dim)%nat -> permOf dim (tr_perm t 0) a = a /\ permOf dim (tr_perm t 1) a = a).
Proof.
  intros dim t ft [d D| |] T.
  - assert (d = 2%nat) as -> by (destruct T as [T|T]; [exact T|apply (f_equal tr_transform) in T; apply (f_equal (fun f => f (fun _ => 0) 0%nat)) in T; cbn in T; lra]).
    split; [reflexivity|]. split; [lia|]. repeat split; lia || reflexivity.
  - exfalso. destruct T as [T|T]; [discriminate|]. apply (f_equal tr_count) in T. cbn in T. discriminate.
  - split; [reflexivity|]. split; [lia|]. do 4 (split; [reflexivity|]). intros a Ha. assert (a = 2)%nat as -> by lia. split; reflexivity.
Qed.
(** ** the triangulations of cube, prism and pyramid *)
Section Triang.
Variables (fuel dim : nat) (t : Triang) (ft : (nat -> float) -> nat -> float) (st : nat -> TElem) (vs : nat -> TVert) (r : RefElement).
Hypothesis Sh : FShape prec emax Hp He dim t ft.
Hypothesis Hf : (fact dim <= fuel)%nat.
Hypothesis ES : triangElements fuel dim t n st.
Hypothesis VS : triangVertices dim t n vs.
Notation exact k := (te_corners dim t r (st k)).
Notation computed k := (te_cornersF prec emax Hp He dim t ft (st k)).

Lemma fsh_dim : (0 < dim)%nat. Proof. destruct Sh; lia. Qed.
Lemma fst_eq : forall k, (k < tr_nElements dim t n)%nat -> st k = teAt dim n k.
Proof. intros k Hk. apply (visits_unique _ _ _ _ _ _ ES (telements fuel dim t n fsh_dim Hn Hf)). lia. Qed.
Lemma fvs_eq : forall k, (k < tr_nVertices dim t n)%nat -> vs k = tvAt dim n k.
Proof. intros k Hk. apply (visits_unique _ _ _ _ _ _ VS (tvertices dim t n fsh_dim Hn)). lia. Qed.
Lemma te_corner_exists : forall k i c, (k < tr_nElements dim t n)%nat -> 4 * INR dim * u < 1 ->
  corner_at (te_corners dim t r (teAt dim n k)) i c ->
  let s := permOf dim (tr_perm t (k / n ^ dim)) in exists w,
  gridPoint dim n w /\ isPerm dim s /\ (k / n ^ dim < tr_count t)%nat
  /\ agree dim c (tr_transform t (referenceToKuhn Rplus dim (P_FloatRef.cexact n dim w) s))
  /\ exists y x, corner_at (te_cornersF prec emax Hp He dim t ft (teAt dim n k)) i x /\ agree dim x (ft y)
       /\ forall j, (j < dim)%nat -> fnn prec emax (y j) (referenceToKuhn (radd prec emax) dim (P_FloatRef.cval prec emax n dim w) s j)
            /\ 0 <= referenceToKuhn (radd prec emax) dim (P_FloatRef.cval prec emax n dim w) s j
            /\ Rabs (referenceToKuhn (radd prec emax) dim (P_FloatRef.cval prec emax n dim w) s j - referenceToKuhn Rplus dim (P_FloatRef.cexact n dim w) s j) <= 4 * INR dim * u.
Proof.
  intros k i c Hk Sm C s.
  assert (NP : (0 < n ^ dim)%nat) by (pose proof (Nat.pow_nonzero n dim); lia).
  assert (K2 : (k mod n ^ dim < n ^ dim)%nat) by (apply Nat.mod_upper_bound; lia).
  destruct (elem_spec dim n _ fsh_dim Hn K2) as (p & q & E & P & Q & qp & pq & _).
  exact (ex_intro _ _ (te_corner_lattice prec emax Hp He H2 n Hn Nn dim t ft k r p q i c Sh Hk Sm E P Q qp pq C)).
Qed.

Theorem C66_corners : forall k i c, (k < tr_nElements dim t n)%nat -> 4 * INR dim * u < 1 -> corner_at (exact k) i c ->
  exists x, corner_at (computed k) i x /\
  forall j, (j < dim)%nat -> is_finite (x j) = true /\ Rabs (B2R (x j) - c j) <= (4 * INR dim + 1) * u.
Proof.
  intros k i c Hk Sm C. rewrite (fst_eq k Hk) in *.
  destruct (te_corner_exists k i c Hk Sm C) as (w & G & P & _ & A & y & x & X & XY & V).
  exists x. split; [exact X|]. intros j Hj. rewrite (XY j Hj), (A j Hj).
  replace ((4 * INR dim + 1) * u) with (4 * INR dim * u + u) by ring.
  apply (ft_err prec emax Hp He H2 n Hn dim t ft Sh y (referenceToKuhn (radd prec emax) dim (P_FloatRef.cval prec emax n dim w) (permOf dim (tr_perm t (k / n ^ dim))))); [exact Sm| |exact Hj].
  intros m Hm. destruct (V m Hm) as (V1 & V2 & V3). split; [exact V1|]. split; [exact V2|]. split; [|exact V3].
  destruct (perm_onto dim _ P m Hm) as (a & Ha & <-). now apply (grid_kuhn n Hn dim w _ G P).
Qed.

(** distinct corners stay distinct; corners shared by elements of the same coarse (Kuhn) simplex agree bit for bit *)
Theorem C66_conforming : forall k k' i i' c c' x x', (k < tr_nElements dim t n)%nat -> (k' < tr_nElements dim t n)%nat -> 4 * INR dim * u < 1 ->
  corner_at (exact k) i c -> corner_at (exact k') i' c' -> corner_at (computed k) i x -> corner_at (computed k') i' x' ->
  (te_kuhn (st k) = te_kuhn (st k') -> agree dim c c' -> agree dim x x')
  /\ ((8 * INR dim + 2) * INR n * u < 1 -> agree dim x x' -> agree dim c c').
Proof.
  intros k k' i i' c c' x x' Hk Hk' Sm C C' X X'.
  destruct (C66_corners k i c Hk Sm C) as (z & Z1 & Z2). destruct (C66_corners k' i' c' Hk' Sm C') as (z' & Z1' & Z2').
  rewrite (fst_eq k Hk), (fst_eq k' Hk') in *.
  destruct (te_corner_exists k i c Hk Sm C) as (w & G & P & K & A & y & xx & Y & XY & V).
  destruct (te_corner_exists k' i' c' Hk' Sm C') as (w' & G' & P' & K' & A' & y' & xx' & Y' & XY' & V').
  assert (U : forall (l : option (list (nat -> float))) a b m, corner_at l m a -> corner_at l m b -> a = b).
  { intros l a b m (cs & E1 & E2) (cs' & E3 & E4). congruence. }
  rewrite (U _ _ _ _ X Y), (U _ _ _ _ X' Y') in *. rewrite <- (U _ _ _ _ Y Z1) in Z2. rewrite <- (U _ _ _ _ Y' Z1') in Z2'. split.
  - intros EK AC. cbn [teAt te_kuhn] in EK. rewrite <- EK in *.
    set (s := permOf dim (tr_perm t (k / n ^ dim))) in *.
    assert (W : agree dim w w').
    { apply (cexact_inj n Hn). intros j Hj. rewrite <- (k2r_r2k dim s (P_FloatRef.cexact n dim w) P), <- (k2r_r2k dim s (P_FloatRef.cexact n dim w') P).
      apply k2r_ext; [exact P| |exact Hj]. apply (tr_inj prec emax Hp He n Hn dim t ft Sh). intros m Hm. rewrite <- (A m Hm), <- (A' m Hm). now apply AC. }
    intros j Hj. rewrite (XY j Hj), (XY' j Hj). apply (ft_ext prec emax Hp He n Hn dim t ft Sh); [|exact Hj].
    intros m Hm. destruct (V m Hm) as (V1 & _). destruct (V' m Hm) as (V2 & _).
    apply (fnn_eq prec emax _ _ _ V1). rewrite (r2k_ext (radd prec emax) dim _ _ s P (cval_ext prec emax n dim w w' W) m Hm). exact V2.
  - intros Sn AX. apply (tr_sep prec emax Hp He n Hn dim t ft w w' _ _ c c' Sh G G' P P' A A').
    intros j Hj. destruct (Z2 j Hj) as (_ & E1). destruct (Z2' j Hj) as (_ & E2). rewrite <- (AX j Hj) in E2.
    apply Rabs_le_inv in E1, E2. pose proof (u_pos prec).
    apply Rle_lt_trans with (INR n * ((8 * INR dim + 2) * u)); [|lra]. apply Rmult_le_compat_l; [apply pos_INR|]. apply Rabs_le. lra.
Qed.

(** the two triangles of the square and the two tetrahedra of the pyramid: all shared corners agree bit for bit *)
Theorem C66_square_pyramid : forall k k' i i' c c' x x', dim = 2%nat \/ t = tr_pyramid -> (k < tr_nElements dim t n)%nat -> (k' < tr_nElements dim t n)%nat ->
  4 * INR dim * u < 1 -> corner_at (exact k) i c -> corner_at (exact k') i' c' -> corner_at (computed k) i x -> corner_at (computed k') i' x' ->
  agree dim c c' -> agree dim x x'.
Proof.
  assert (Main : forall k k' i i' c c' x x', (k / n ^ dim = 0)%nat -> (k' / n ^ dim = 1)%nat -> (2 <= dim)%nat ->
    (permOf dim (tr_perm t 0) 0%nat = 0%nat /\ permOf dim (tr_perm t 0) 1%nat = 1%nat
     /\ permOf dim (tr_perm t 1) 0%nat = 1%nat /\ permOf dim (tr_perm t 1) 1%nat = 0%nat
     /\ forall a, (2 <= a < dim)%nat -> permOf dim (tr_perm t 0) a = a /\ permOf dim (tr_perm t 1) a = a) ->
    (k < tr_nElements dim t n)%nat -> (k' < tr_nElements dim t n)%nat -> 4 * INR dim * u < 1 ->
    corner_at (exact k) i c -> corner_at (exact k') i' c' -> corner_at (computed k) i x -> corner_at (computed k') i' x' ->
    agree dim c c' -> agree dim x x').
  { intros k k' i i' c c' x x' K0 K1 D2 (q1 & q2 & q3 & q4 & q5) Hk Hk' Sm C C' X X' AC. rewrite (fst_eq k Hk), (fst_eq k' Hk') in *.
    destruct (te_corner_exists k i c Hk Sm C) as (w & G & P & K & A & y & xx & Y & XY & V).
    destruct (te_corner_exists k' i' c' Hk' Sm C') as (w' & G' & P' & K' & A' & y' & xx' & Y' & XY' & V').
    assert (U : forall (l : option (list (nat -> float))) a b m, corner_at l m a -> corner_at l m b -> a = b).
    { intros l a b m (cs & E1 & E2) (cs' & E3 & E4). congruence. }
    rewrite (U _ _ _ _ X Y), (U _ _ _ _ X' Y') in *. rewrite K0 in *. rewrite K1 in *.
    assert (E : agree dim (referenceToKuhn Rplus dim (P_FloatRef.cexact n dim w) (permOf dim (tr_perm t 0)))
                          (referenceToKuhn Rplus dim (P_FloatRef.cexact n dim w') (permOf dim (tr_perm t 1)))).
    { apply (tr_inj prec emax Hp He n Hn dim t ft Sh). intros m Hm. rewrite <- (A m Hm), <- (A' m Hm). now apply AC. }
    pose proof (front_conform prec emax Hp n Hn dim w w' _ _ D2 G G' P P' q1 q2 q3 q4 q5 E) as FC.
    intros j Hj. rewrite (XY j Hj), (XY' j Hj). apply (ft_ext prec emax Hp He n Hn dim t ft Sh); [|exact Hj].
    intros m Hm. destruct (V m Hm) as (V1 & _). destruct (V' m Hm) as (V2 & _).
    apply (fnn_eq prec emax _ _ _ V1). rewrite (FC m Hm). exact V2. }
  intros k k' i i' c c' x x' T Hk Hk' Sm C C' X X' AC.
  assert (NP : (0 < n ^ dim)%nat) by (pose proof (Nat.pow_nonzero n dim); lia).
  assert (K1 : (k / n ^ dim < tr_count t)%nat) by (apply Nat.div_lt_upper_bound; [lia|exact Hk]).
  assert (K2 : (k' / n ^ dim < tr_count t)%nat) by (apply Nat.div_lt_upper_bound; [lia|exact Hk']).
  assert (TC : tr_count t = 2%nat /\ (2 <= dim)%nat
    /\ (permOf dim (tr_perm t 0) 0%nat = 0%nat /\ permOf dim (tr_perm t 0) 1%nat = 1%nat
     /\ permOf dim (tr_perm t 1) 0%nat = 1%nat /\ permOf dim (tr_perm t 1) 1%nat = 0%nat
     /\ forall a, (2 <= a < dim)%nat -> permOf dim (tr_perm t 0) a = a /\ permOf dim (tr_perm t 1) a = a)).
  { exact (pair_shape dim t ft Sh T). }
  destruct TC as (TC & D2 & PP). rewrite TC in K1, K2.
  assert (EK : te_kuhn (st k) = (k / n ^ dim)%nat /\ te_kuhn (st k') = (k' / n ^ dim)%nat) by (rewrite (fst_eq k Hk), (fst_eq k' Hk'); split; reflexivity).
  destruct (k / n ^ dim)%nat as [|[|?]] eqn:Q1; [| |lia]; destruct (k' / n ^ dim)%nat as [|[|?]] eqn:Q2; try lia;
    try (refine (proj1 (C66_conforming k k' i i' c c' x x' Hk Hk' Sm C C' X X') _ AC); lia).
  - exact (Main k k' i i' c c' x x' Q1 Q2 D2 PP Hk Hk' Sm C C' X X' AC).
  - assert (AC' : agree dim c' c) by (intros j Hj; symmetry; now apply AC).
    intros j Hj. symmetry. exact (Main k' k i' i c' c x' x Q2 Q1 D2 PP Hk' Hk Sm C' C X' X AC' j Hj).
Qed.

(** the vertices: accurate, and all copies of a vertex agree bit for bit *)
Theorem C66_vertices : forall k, (k < tr_nVertices dim t n)%nat -> 2 * INR dim * u < 1 ->
  exists x c, tv_coordsF prec emax Hp He dim t ft (vs k) = Some x /\ tv_coords dim t (vs k) = Some c /\
  (forall j, (j < dim)%nat -> is_finite (x j) = true /\ Rabs (B2R (x j) - c j) <= (2 * INR dim + 1) * u) /\
  forall k' x' c', (k' < tr_nVertices dim t n)%nat -> tv_coordsF prec emax Hp He dim t ft (vs k') = Some x' -> tv_coords dim t (vs k') = Some c' ->
    agree dim c c' -> agree dim x x'.
Proof.
  assert (TV : forall k, (k < tr_nVertices dim t n)%nat -> exists c, tv_coords dim t (tvAt dim n k) = Some c).
  { intros k Hk. pose proof (nvpos dim n fsh_dim Hn) as NP.
    assert (K1 : (k / sx_nVertices dim n < tr_count t)%nat) by (apply Nat.div_lt_upper_bound; [lia|exact Hk]).
    destruct (kp_perm prec emax Hp He n Hn dim t ft _ Sh K1) as (E & _).
    unfold tv_coords, tvAt. cbn [tv_backend tv_kuhn]. rewrite sv_coords_eq by exact fsh_dim. cbn [obind]. rewrite E. eexists. reflexivity. }
  intros k Hk Sm. rewrite (fvs_eq k Hk). destruct (TV k Hk) as (c & C).
  destruct (tv_lattice prec emax Hp He H2 n Hn Nn dim t ft k c Sh Hk Sm C) as (w & G & P & A & y & x & X & XY & V).
  exists x, c. split; [exact X|]. split; [exact C|]. split.
  - intros j Hj. rewrite (XY j Hj), (A j Hj).
    replace ((2 * INR dim + 1) * u) with (2 * INR dim * u + u) by ring.
    apply (ft_err prec emax Hp He H2 n Hn dim t ft Sh y (referenceToKuhn (radd prec emax) dim (fun j => P_FloatRef.vh prec emax n (dl dim w j)) (permOf dim (tr_perm t (k / sx_nVertices dim n))))); [exact Sm| |exact Hj].
    intros m Hm. destruct (V m Hm) as (V1 & V2 & V3). split; [exact V1|]. split; [exact V2|]. split; [|exact V3].
    destruct (perm_onto dim _ P m Hm) as (a & Ha & <-). now apply (grid_kuhn n Hn dim w _ G P).
  - intros k' x' c' Hk' X' C' AC. rewrite (fvs_eq k' Hk') in *.
    destruct (tv_lattice prec emax Hp He H2 n Hn Nn dim t ft k' c' Sh Hk' Sm C') as (w' & G' & P' & A' & y' & xx & XX & XY' & V').
    assert (xx = x') by congruence. subst xx.
    assert (E : agree dim (referenceToKuhn Rplus dim (P_FloatRef.cexact n dim w) (permOf dim (tr_perm t (k / sx_nVertices dim n))))
                          (referenceToKuhn Rplus dim (P_FloatRef.cexact n dim w') (permOf dim (tr_perm t (k' / sx_nVertices dim n))))).
    { apply (tr_inj prec emax Hp He n Hn dim t ft Sh). intros m Hm. rewrite <- (A m Hm), <- (A' m Hm). now apply AC. }
    pose proof (vertex_conform prec emax Hp n Hn dim w w' _ _ G G' P P' E) as VC.
    intros j Hj. rewrite (XY j Hj), (XY' j Hj). apply (ft_ext prec emax Hp He n Hn dim t ft Sh); [|exact Hj].
    intros m Hm. destruct (V m Hm) as (V1 & _). destruct (V' m Hm) as (V2 & _).
    apply (fnn_eq prec emax _ _ _ V1). rewrite (VC m Hm). exact V2.
Qed.
End Triang.
End FP.
Print Assumptions C66_simplex_corners.
Print Assumptions C66_simplex_conforming.
Print Assumptions C66_simplex_vertices.
Print Assumptions C66_corners.
Print Assumptions C66_conforming.
Print Assumptions C66_square_pyramid.
Print Assumptions C66_vertices.

(** ** what does not hold *)
Lemma n3 : INR 3 <= bpow radix2 24.
Proof. change (bpow radix2 24) with 16777216. cbn [INR]. lra. Qed.
Definition comp (l : option (list (nat -> binary_float 24 128))) (i j : nat) : option SpecFloat.spec_float :=
  obind l (fun cs => obind (nth_error cs i) (fun x => Some (B2SF (x j)))).
Lemma comp_at : forall l i j x f, corner_at l i x -> comp l i j = Some f -> B2SF (x j) = f.
Proof. intros l i j x f (cs & -> & E) C. unfold comp in C. cbn [obind] in C. rewrite E in C. cbn [obind] in C. congruence. Qed.
Lemma u24 : 4 * INR 3 * bpow radix2 (- 24) < 1.
Proof. change (bpow radix2 (- 24)) with (/ 16777216). cbn [INR]. lra. Qed.

(** A corner of an element need not be equal to the coordinates of the vertex: fl(1 - fl(1/3)) <> fl(2/3). *)
Theorem C66_simplex_vertex_refuted : exists dim n fuel st vs r k i v c x cv xv,
  (0 < dim)%nat /\ (fact dim <= fuel)%nat /\ simplexElements fuel dim n st /\ simplexVertices dim n vs
  /\ corner_at (se_corners dim r (st k)) i c /\ sv_coords dim (vs v) = Some cv /\ agree dim c cv
  /\ corner_at (se_cornersF 24 128 p24 e128 dim (st k)) i x /\ sv_coordsF 24 128 p24 e128 dim (vs v) = Some xv /\ ~ agree dim x xv.
Proof.
  destruct (re_infos simplexId 2) as [r|] eqn:E; [|discriminate].
  exists 2%nat, 3%nat, 2%nat, (elemAt 2 3), (svAt 2 3), r, 6%nat, 1%nat, 7%nat.
  assert (P : isPerm 2 idp) by apply isPerm_id.
  assert (GI : getPermutation 2 (se_kuhn (elemAt 2 3 6)) = Some idp) by exact (C49_identity 2).
  pose proof (se_corners_eq 2 r (elemAt 2 3 6) idp GI) as C.
  destruct (se_corner_lattice 24 128 p24 e128 ltac:(lia) 3 ltac:(lia) n3 2 6 r idp idp 1 (Gmap 2 idp (se_origin (elemAt 2 3 6)) 3 (sc 1)) ltac:(lia) ltac:(cbn; lia)
    GI P P ltac:(reflexivity) ltac:(reflexivity)) as (G & A & _ & x & X & _).
  { rewrite C. apply corner_at_map. split; [lia|reflexivity]. }
  destruct (C66_simplex_vertices 24 128 p24 e128 ltac:(lia) 3 ltac:(lia) n3 2 (svAt 2 3) ltac:(lia) (svertices 2 3 ltac:(lia)) 7 ltac:(vm_compute; lia)) as (xv & cv & X1 & C1 & _).
  exists (Gmap 2 idp (se_origin (elemAt 2 3 6)) 3 (sc 1)), x, cv, xv.
  split; [lia|]. split; [cbn; lia|]. split; [apply selements; cbn; lia|]. split; [apply svertices; lia|].
  split; [rewrite C; apply corner_at_map; split; [lia|reflexivity]|]. split; [exact C1|]. split; [|split; [exact X|]]; [|split; [exact X1|]].
  - intros j Hj. rewrite (A j Hj). rewrite sv_coords_eq in C1 by lia. injection C1 as <-.
    assert (W : agree 2 (cornerAt idp (se_origin (elemAt 2 3 6)) (chainPos idp 1)) (sv_vertex (svAt 2 3 7))) by (intros [|[|m]] Hm; [reflexivity..|lia]).
    etransitivity; [|exact (cexact_k2r 3 2 (sv_vertex (svAt 2 3 7)) j Hj)]. unfold P_FloatRef.cexact. rewrite (W j Hj).
    destruct (Nat.ltb_spec (S j) 2) as [L|L]; [|reflexivity]. now rewrite (W (S j) L).
  - intros B. specialize (B 0%nat ltac:(lia)). apply (f_equal B2SF) in B.
    rewrite (comp_at _ 1 0 x _ X ltac:(vm_compute; reflexivity)) in B.
    assert (Q : option_map (fun x => B2SF (x 0%nat)) (sv_coordsF 24 128 p24 e128 2 (svAt 2 3 7)) = Some (B2SF (xv 0%nat))) by (rewrite X1; reflexivity).
    rewrite <- B in Q. vm_compute in Q. discriminate.
Qed.
Print Assumptions C66_simplex_vertex_refuted.

Lemma witness : forall t ft r k k' i i' j f f', FShape 24 128 p24 e128 3 t ft ->
  (k < tr_nElements 3 t 3)%nat -> (k' < tr_nElements 3 t 3)%nat -> (i <= 3)%nat -> (i' <= 3)%nat -> (j < 3)%nat ->
  se_kuhn (elemAt 3 3 (k mod 27)) = 0%nat -> se_kuhn (elemAt 3 3 (k' mod 27)) = 0%nat ->
  (forall m, (m < 3)%nat ->
     referenceToKuhn Nat.add 3 (dl 3 (cornerAt idp (se_origin (elemAt 3 3 (k mod 27))) (chainPos idp i))) (permOf 3 (tr_perm t (k / 27))) m
   = referenceToKuhn Nat.add 3 (dl 3 (cornerAt idp (se_origin (elemAt 3 3 (k' mod 27))) (chainPos idp i'))) (permOf 3 (tr_perm t (k' / 27))) m) ->
  comp (te_cornersF 24 128 p24 e128 3 t ft (teAt 3 3 k)) i j = Some f ->
  comp (te_cornersF 24 128 p24 e128 3 t ft (teAt 3 3 k')) i' j = Some f' -> f <> f' ->
  exists c c' x x', corner_at (te_corners 3 t r (teAt 3 3 k)) i c /\ corner_at (te_corners 3 t r (teAt 3 3 k')) i' c' /\ agree 3 c c'
  /\ corner_at (te_cornersF 24 128 p24 e128 3 t ft (teAt 3 3 k)) i x /\ corner_at (te_cornersF 24 128 p24 e128 3 t ft (teAt 3 3 k')) i' x' /\ ~ agree 3 x x'.
Proof.
  intros t ft r k k' i i' j f f' S Hk Hk' Hi Hi' Hj K K' M F F' NE.
  assert (P : isPerm 3 idp) by apply isPerm_id.
  assert (HP : forall k, (k < tr_count t)%nat -> (tr_perm t k < fact 3)%nat).
  { clear -S. intros l Hl. inversion S; subst; [exact Hl| |]; destruct l as [|[|[|l]]]; cbn in Hl |- *; lia. }
  assert (Q : forall k i, (k < tr_nElements 3 t 3)%nat -> (i <= 3)%nat -> se_kuhn (elemAt 3 3 (k mod 27)) = 0%nat ->
    exists c x, corner_at (te_corners 3 t r (teAt 3 3 k)) i c /\ corner_at (te_cornersF 24 128 p24 e128 3 t ft (teAt 3 3 k)) i x
      /\ gridPoint 3 3 (cornerAt idp (se_origin (elemAt 3 3 (k mod 27))) (chainPos idp i)) /\ isPerm 3 (permOf 3 (tr_perm t (k / 27)))
      /\ agree 3 c (tr_transform t (referenceToKuhn Rplus 3 (P_FloatRef.cexact 3 3 (cornerAt idp (se_origin (elemAt 3 3 (k mod 27))) (chainPos idp i))) (permOf 3 (tr_perm t (k / 27)))))).
  { clear - S P HP. intros k i Hk Hi K.
    assert (GI : getPermutation 3 (se_kuhn (elemAt 3 3 (k mod 27))) = Some idp) by (rewrite K; exact (C49_identity 3)).
    assert (K1 : (k / 27 < tr_count t)%nat) by (apply Nat.div_lt_upper_bound; [lia|]; unfold tr_nElements, sx_nElements in Hk; cbn [Nat.pow Nat.mul Nat.add] in Hk; lia).
    pose proof (te_corners_eq 3 t ltac:(lia) HP r (teAt 3 3 k) idp K1 GI) as C.
    set (c := Hmap 3 t (te_kuhn (teAt 3 3 k)) (Gmap 3 idp (se_origin (te_backend (teAt 3 3 k))) (se_size (te_backend (teAt 3 3 k))) (sc i))).
    assert (CA : corner_at (te_corners 3 t r (teAt 3 3 k)) i c) by (rewrite C; apply corner_at_map; split; [lia|reflexivity]).
    destruct (te_corner_lattice 24 128 p24 e128 ltac:(lia) 3 ltac:(lia) n3 3 t ft k r idp idp i c S Hk u24 GI P P ltac:(reflexivity) ltac:(reflexivity) CA)
      as (G & PS & _ & A & y & x & X & _).
    exists c, x. split; [exact CA|]. split; [exact X|]. split; [exact G|]. split; [exact PS|exact A]. }
  destruct (Q k i Hk Hi K) as (c & x & C & X & G & PS & A). destruct (Q k' i' Hk' Hi' K') as (c' & x' & C' & X' & G' & PS' & A').
  exists c, c', x, x'. split; [exact C|]. split; [exact C'|]. split; [|split; [exact X|split; [exact X'|]]].
  - intros m Hm. rewrite (A m Hm), (A' m Hm). apply (tr_ext 24 128 p24 e128 3 ltac:(lia) 3 t ft S); [|exact Hm].
    intros l Hl. rewrite <- !(chain_int 3) by (assumption || lia). now rewrite (M l Hl).
  - intros B. apply NE. rewrite <- (comp_at _ i j x f X F), <- (comp_at _ i' j x' f' X' F'). now rewrite (B j Hj).
Qed.
Lemma three_cases : forall (P : nat -> Prop), P 0%nat -> P 1%nat -> P 2%nat -> forall m, (m < 3)%nat -> P m.
Proof. intros P A B C [|[|[|m]]] H; try assumption; lia. Qed.

(** Elements of different Kuhn simplices of the three-dimensional cube and of the prism: a shared corner
    can have different floating point coordinates, in single precision already for three intervals. *)
Theorem C66_conforming_refuted :
  forall t ft, t = tr_cube 3 /\ ft = (fun p => p) \/ t = tr_prism /\ ft = fprismTransform 24 128 p24 e128 ->
  FShape 24 128 p24 e128 3 t ft /\ exists n fuel st r k k' i i' c c' x x',
  (fact 3 <= fuel)%nat /\ triangElements fuel 3 t n st /\ (k < tr_nElements 3 t n)%nat /\ (k' < tr_nElements 3 t n)%nat
  /\ corner_at (te_corners 3 t r (st k)) i c /\ corner_at (te_corners 3 t r (st k')) i' c' /\ agree 3 c c'
  /\ corner_at (te_cornersF 24 128 p24 e128 3 t ft (st k)) i x /\ corner_at (te_cornersF 24 128 p24 e128 3 t ft (st k')) i' x' /\ ~ agree 3 x x'.
Proof.
  destruct (re_infos simplexId 3) as [r|] eqn:E; [|discriminate].
  intros t ft [(-> & ->)|(-> & ->)].
  - assert (S : FShape 24 128 p24 e128 3 (tr_cube 3) (fun p => p)) by (constructor; lia). split; [exact S|].
    exists 3%nat, 6%nat, (teAt 3 3), r, (27 + 26)%nat, (135 + 11)%nat, 2%nat, 1%nat.
    destruct (witness (tr_cube 3) (fun p => p) r (27 + 26) (135 + 11) 2 1 0 _ _ S ltac:(vm_compute; lia) ltac:(vm_compute; lia) ltac:(lia) ltac:(lia) ltac:(lia) eq_refl eq_refl
      (three_cases _ eq_refl eq_refl eq_refl) ltac:(vm_compute; reflexivity) ltac:(vm_compute; reflexivity) ltac:(discriminate)) as (c & c' & x & x' & W).
    exists c, c', x, x'. split; [cbn; lia|]. split; [apply telements; cbn; lia|]. split; [vm_compute; lia|]. split; [vm_compute; lia|]. exact W.
  - assert (S : FShape 24 128 p24 e128 3 tr_prism (fprismTransform 24 128 p24 e128)) by constructor. split; [exact S|].
    exists 3%nat, 6%nat, (teAt 3 3), r, 23%nat, (27 + 20)%nat, 2%nat, 1%nat.
    destruct (witness tr_prism (fprismTransform 24 128 p24 e128) r 23 (27 + 20) 2 1 0 _ _ S ltac:(vm_compute; lia) ltac:(vm_compute; lia) ltac:(lia) ltac:(lia) ltac:(lia) eq_refl eq_refl
      (three_cases _ eq_refl eq_refl eq_refl) ltac:(vm_compute; reflexivity) ltac:(vm_compute; reflexivity) ltac:(discriminate)) as (c & c' & x & x' & W).
    exists c, c', x, x'. split; [cbn; lia|]. split; [apply telements; cbn; lia|]. split; [vm_compute; lia|]. split; [vm_compute; lia|]. exact W.
Qed.
Print Assumptions C66_conforming_refuted.

(** third of the interval in single precision: the cell between 1/3 and 2/3 has the corner of the vertex *)
Example C66_example :
  B2SF (fac_corner 24 128 1 1 (he_geometryF 24 128 p24 e128 24 128 p24 e128 1 (hAt 3 1)) 0 0%nat) = SpecFloat.S754_finite false 11184811 (-25)
  /\ B2SF (hv_coordsF 24 128 p24 e128 24 128 p24 e128 1 (hAt 3 1) 0%nat) = SpecFloat.S754_finite false 11184811 (-25)
  /\ comp (se_cornersF 24 128 p24 e128 2 (elemAt 2 3 6)) 1 0 = Some (SpecFloat.S754_finite false 11184810 (-24)).
Proof. repeat split; vm_compute; reflexivity. Qed.
