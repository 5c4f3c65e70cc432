(** * C68  The multilinear and affine mappings in IEEE arithmetic *)
From Coq Require Import PeanoNat NArith ZArith Bool List Reals Lra Lia FunctionalExtensionality.
From Flocq Require Import Core IEEE754.BinarySingleNaN.
From Verif Require Import M_Type M_RefTopo M_RefGeo M_Matrix M_MultiLinear M_Float M_FloatGlobal S_Topo S_RefGeo S_Matrix S_MultiLinear S_FloatGlobal
  P_Type P_RefTopo P_RefTopo3 P_RSum P_RefGeo P_RefGeo2 P_RefGeo3 P_RefGeo4 P_ML1 P_ML2 P_ML3 P_ML4 P_Float P_FloatNear P_FloatGlobal P_FloatGlobal2 P_FloatGlobal3 P_FloatGlobal4 P_FloatGlobal5 P_FloatGlobal6 P_FloatGlobal7
  T_RefGeo T_Float.
Import ListNotations.
Local Open Scope R_scope.

Lemma combine_app2 {A B} : forall (l1 l2 : list A) (c1 c2 : list B), length l1 = length c1 ->
  combine (l1 ++ l2) (c1 ++ c2) = combine l1 c1 ++ combine l2 c2.
Proof. induction l1; intros l2 [|c c1] c2 H; simpl in *; try discriminate; [reflexivity|]. now rewrite IHl1 by lia. Qed.

Section C68.
Variables (prec emax : Z).
Context (Hp : Prec_gt_0 prec) (He : Prec_lt_emax prec emax).
Notation float := (binary_float prec emax).
Notation FVec := (nat -> float).
Notation u := (bpow radix2 (- prec)).
Notation eta := (bpow radix2 (2 - emax - prec)).
Notation one := (ofZ prec emax Hp He 1).
Notation global := (fmlg_global prec emax Hp He).

Lemma size_lt id dim : size id dim dim = nv (lt id dim).
Proof. rewrite nv_lt, nv_size. symmetry. apply C16_corner_count. Qed.

(** The weights do not depend on the corners, there is one for each, and every coordinate of the
    result is the rounded sum in corner order. *)
Theorem C68_weights : forall id dim, exists w : FVec -> list float, forall x, length (w x) = size id dim dim /\
  forall cdim jv corners, length corners = size id dim dim ->
  exists y, global cdim id dim jv corners x = Some y /\
    forall k, (k < cdim)%nat -> weighted prec emax Hp He (combine (w x) corners) k = Some (y k).
Proof.
  intros id dim. exists (fun x => fw prec emax Hp He (lt id dim) one x one). intro x. rewrite size_lt. split; [apply fw_length|].
  intros cdim jv corners HL. rewrite (fglobal_spec prec emax Hp He) by exact HL. eexists. split; [reflexivity|].
  intros k Hk. unfold fset. rewrite (proj2 (Nat.ltb_lt k cdim) Hk). unfold weighted, fcomb.
  pose proof (fw_length prec emax Hp He (lt id dim) one x one) as L.
  destruct (combine _ corners) as [|p l] eqn:E; [|reflexivity]. exfalso.
  pose proof (combine_length (fw prec emax Hp He (lt id dim) one x one) corners) as C. rewrite E, L, HL in C. cbn in C.
  pose proof (nv_pos (lt id dim)). lia.
Qed.

(** The corners of the reference element are mapped to the stored corners without any error,
    for all topologies of all dimensions. *)
Theorem C68_corners : (6 <= prec)%Z -> forall id dim cdim jv corners i c p x, length corners = size id dim dim ->
  (forall c k, In c corners -> (k < cdim)%nat -> is_finite (c k) = true) ->
  nth_error corners i = Some c -> nth_error (referenceCorners id dim) i = Some p ->
  (forall k, (k < dim)%nat -> is_finite (x k) = true /\ B2R (x k) = p k) ->
  exists y, global cdim id dim jv corners x = Some y /\ forall k, (k < cdim)%nat -> same_value (y k) (c k).
Proof.
  intros H6 id dim cdim jv corners i c p x HL Fc Ec Ep Hx. rewrite size_lt in HL. rewrite (fglobal_spec prec emax Hp He) by exact HL.
  eexists. split; [reflexivity|]. intros k Hk. unfold fset. rewrite (proj2 (Nat.ltb_lt k cdim) Hk).
  assert (Hi : (i < nv (lt id dim))%nat) by (rewrite <- HL; apply nth_error_Some; congruence).
  pose proof (fw_length prec emax Hp He (lt id dim) one x one) as L.
  assert (W : forall j, (j < nv (lt id dim))%nat ->
    is prec emax (nth j (fw prec emax Hp He (lt id dim) one x one) (ofZ prec emax Hp He 0)) (if Nat.eqb j i then 1 else 0)).
  { pose proof (is_one prec emax Hp He ltac:(lia)) as O1. apply (fw_corner prec emax Hp He ltac:(lia) H6 (lt id dim) i one x one 1 Hi); auto.
    intros j Hj. rewrite tdim_lt in Hj. destruct (Hx j Hj) as (F & V). split; [exact F|].
    rewrite rc_lt by (rewrite <- nv_lt; exact Hi). rewrite <- rc_corner by (rewrite <- nv_lt; exact Hi).
    rewrite V, (nth_error_nth _ _ _ Ep). reflexivity. }
  set (ws := fw prec emax Hp He (lt id dim) one x one) in *.
  destruct (nth_error_split ws i (a := nth i ws (ofZ prec emax Hp He 0))) as (w1 & w2 & Ew & Lw).
  { apply nth_error_nth'. lia. }
  destruct (nth_error_split corners i (a := c)) as (c1 & c2 & Ec' & Lc); [exact Ec|].
  assert (FV : is prec emax (c k) (B2R (c k))) by (split; [apply Fc; [eapply nth_error_In; exact Ec|exact Hk]|reflexivity]).
  assert (R : is prec emax (fcomb prec emax Hp He false (combine ws corners) jv k) (B2R (c k))).
  { set (w0 := nth i ws (ofZ prec emax Hp He 0)) in *. rewrite Ew, Ec', combine_app2 by lia. cbn [combine].
    apply (fcomb_delta prec emax Hp He); [specialize (W i Hi); rewrite Nat.eqb_refl in W; exact W|exact FV|].
    intros w c' Hin. rewrite <- (combine_app2 w1 w2 c1 c2) in Hin by lia.
    assert (Hc : In c' corners).
    { apply in_combine_r in Hin. rewrite Ec'. apply in_app_or in Hin. apply in_or_app. destruct Hin; [now left|right; now right]. }
    split; [|exists (B2R (c' k)); split; [now apply Fc|reflexivity]].
    apply in_combine_l in Hin. apply in_app_or in Hin.
    destruct Hin as [Hin|Hin]; apply (In_nth _ _ (ofZ prec emax Hp He 0)) in Hin; destruct Hin as (j & Hj & <-).
    - assert (J : (j < nv (lt id dim))%nat) by lia. specialize (W j J). rewrite Ew, app_nth1 in W by lia.
      destruct (Nat.eqb_spec j i); [lia|exact W].
    - assert (Lws : length ws = (i + S (length w2))%nat) by (rewrite Ew, app_length; cbn; lia).
      assert (J : (i + S j < nv (lt id dim))%nat) by lia. specialize (W _ J). rewrite Ew, app_nth2 in W by lia.
      replace (i + S j - length w1)%nat with (S j) in W by lia. cbn [nth] in W. destruct (Nat.eqb_spec (i + S j) i); [lia|exact W]. }
  destruct R as (R1 & R2). split; [exact R1|]. split; [exact R2|]. intro NZ.
  apply B2R_inj; [| |exact R2]; apply is_finite_strict_B2R; [rewrite R2|]; exact NZ.
Qed.

(** Inside the reference element the result is within a few units in the last place of the
    largest coordinate, for topologies with at most one cone and for simplices. *)
Theorem C68_error : (7 <= prec)%Z -> forall id dim, (id < bit dim)%N -> tame id dim -> (Z.of_nat dim + 2 <= emax)%Z ->
  ((2 <= ncones (topo_of id dim))%nat -> ((prec - 5) * Z.of_nat dim + 4 <= emax)%Z) ->
  let N := INR (size id dim dim) in
  (6 * N + 28 * INR dim + 66) * u <= / 4 ->
  forall cdim jv corners x B, length corners = size id dim dim -> B <= bpow radix2 (emax - 4) ->
  (forall c k, In c corners -> (k < cdim)%nat -> is_finite (c k) = true /\ Rabs (B2R (c k)) <= B) ->
  (forall k, (k < dim)%nat -> is_finite (x k) = true) -> in_hull dim (referenceCorners id dim) (fun k => B2R (x k)) ->
  exists y, global cdim id dim jv corners x = Some y /\ forall k, (k < cdim)%nat ->
    is_finite (y k) = true /\
    Rabs (B2R (y k) - image id dim (exactly corners) (fun k => B2R (x k)) k) <= (6 * N + 28 * INR dim + 66) * u * B + 3 * N * eta.
Proof.
  intros H7 id dim Hid Ht Hd Hs N HN cdim jv corners x B HL HB Hc Fx Hin. subst N. rewrite size_lt in *.
  rewrite (fglobal_spec prec emax Hp He) by exact HL. eexists. split; [reflexivity|].
  intros k Hk. unfold fset. rewrite (proj2 (Nat.ltb_lt k cdim) Hk).
  destruct (u_small prec H7) as (U0 & U1). set (N := INR (nv (lt id dim))) in *. assert (N0 : 0 <= N) by apply pos_INR.
  assert (PNu : 0 <= N * u) by (apply Rmult_le_pos; lra). pose proof (pos_INR dim) as Pd. assert (Pdu : 0 <= INR dim * u) by (apply Rmult_le_pos; lra).
  assert (HT : insideT (topo_of id dim) (fun k => B2R (x k)) 1).
  { rewrite corners_verts in Hin. apply (in_hull_insideT (topo_of id dim)). now rewrite tdim_topo. }
  destruct (weights_err prec emax Hp He H7 id dim x Hid Ht Hd) as (Fw & D); auto; [lra|].
  pose proof (fw_length prec emax Hp He (lt id dim) one x one) as L.
  set (ws := fw prec emax Hp He (lt id dim) one x one) in *.
  pose proof (ew_length (lt id dim) 1 (fun k => B2R (x k)) 1) as Lm. set (m := ew (lt id dim) 1 (fun k => B2R (x k)) 1) in *.
  assert (M0 : forall b, In b m -> 0 <= b).
  { apply ew_nonneg; [lra|]. apply insideT_lt in HT.
    replace (fun k => 1 * B2R (x k)) with (fun k => B2R (x k)) by (apply functional_extensionality; intro; ring). exact HT. }
  assert (M1 : lsumR m = 1) by (apply ew_sum).
  assert (LC : length (combine ws corners) = nv (lt id dim)) by (rewrite combine_length; lia).
  assert (B0 : 0 <= B).
  { destruct corners as [|c cs]; [pose proof (nv_pos (lt id dim)); cbn in HL; lia|].
    destruct (Hc c k (or_introl eq_refl) Hk) as (_ & Q). eapply Rle_trans; [apply Rabs_pos|exact Q]. }
  destruct (fcomb_err prec emax Hp He H7 k B (combine ws corners) jv) as (G & E).
  - lra.
  - eapply Rle_trans; [apply wabs_dist with (m := m); [lia|exact M0]|]. lra.
  - intro Q. rewrite Q in LC. cbn in LC. pose proof (nv_pos (lt id dim)). lia.
  - rewrite LC. fold N. lra.
  - intros (w, c) Hp'. cbn [fst snd]. split; [|apply Hc; [eapply in_combine_r; exact Hp'|exact Hk]].
    rewrite Forall_forall in Fw. apply Fw. eapply in_combine_l. exact Hp'.
  - split; [exact G|]. rewrite LC in E. fold N in E.
    pose proof (wsum_esum prec emax k B ws m corners ltac:(lia) ltac:(lia) (fun c Hc' => proj2 (Hc c k Hc' Hk))) as E2.
    assert (EE : esum prec emax k m corners = image id dim (exactly corners) (fun k => B2R (x k)) k).
    { rewrite esum_rsum by lia. unfold image, exactly. rewrite Lm, nv_lt. apply rsum_ext. intros i Hi. f_equal.
      unfold m. rewrite ew_shape by (rewrite nv_lt; exact Hi). rewrite shape_lt, Rmult_1_l. f_equal.
      apply functional_extensionality. intro. ring. }
    rewrite EE in E2. assert (wdist prec emax ws m * B <= (28 * INR dim + 66) * u * B) by (apply Rmult_le_compat_r; lra).
    apply abs_le. apply abs_le in E. apply abs_le in E2. unfold P_FloatNear.eta in E. lra.
Qed.

(** Up to three dimensions these are all topologies. *)
Lemma tame_3 : forall dim id, (dim <= 3)%nat -> (id < bit dim)%N -> tame id dim.
Proof.
  intros dim id Hd Hid. unfold tame.
  assert (C : dim = 0%nat \/ dim = 1%nat \/ dim = 2%nat \/ dim = 3%nat) by lia.
  assert (K : (id = 0 \/ id = 1 \/ id = 2 \/ id = 3 \/ id = 4 \/ id = 5 \/ id = 6 \/ id = 7)%N).
  { assert (id < 8)%N; [|lia]. destruct C as [->|[->|[->| ->]]]; unfold bit in Hid; cbn in Hid; lia. }
  destruct C as [->|[->|[->| ->]]]; destruct K as [->|[->|[->|[->|[->|[->|[->| ->]]]]]]]; try (right; reflexivity); left; cbn; lia.
Qed.
Corollary C68_error_3 : (10 <= prec)%Z -> (3 * prec <= emax + 11)%Z -> forall id dim, (dim <= 3)%nat -> (id < bit dim)%N ->
  forall cdim jv corners x B, length corners = size id dim dim -> B <= bpow radix2 (emax - 4) ->
  (forall c k, In c corners -> (k < cdim)%nat -> is_finite (c k) = true /\ Rabs (B2R (c k)) <= B) ->
  (forall k, (k < dim)%nat -> is_finite (x k) = true) -> in_hull dim (referenceCorners id dim) (fun k => B2R (x k)) ->
  exists y, global cdim id dim jv corners x = Some y /\ forall k, (k < cdim)%nat ->
    is_finite (y k) = true /\
    Rabs (B2R (y k) - image id dim (exactly corners) (fun k => B2R (x k)) k) <= 198 * u * B + 24 * eta.
Proof.
  intros P10 P3 id dim Hd Hid cdim jv corners x B HL HB Hc Fx Hin.
  assert (N8 : (size id dim dim <= 8)%nat).
  { rewrite size_lt, nv_lt. apply Nat.le_trans with (2 ^ dim)%nat.
    - clear. induction dim as [|d IH]; [reflexivity|]. rewrite topo_S. cbn [Nat.pow]. pose proof (nv_pos (topo_of id d)).
      assert (1 <= 2 ^ d)%nat by (clear; induction d; cbn; lia). destruct (N.testbit id (N.of_nat d)); cbn [nv]; lia.
    - apply (Nat.pow_le_mono_r 2 dim 3); lia. }
  apply le_INR in N8. replace (INR 8) with 8 in N8 by (rewrite INR_IZR_INZ; reflexivity). pose proof (pos_INR (size id dim dim)) as N0.
  assert (D3 : INR dim <= 3) by (apply le_INR in Hd; replace (INR 3) with 3 in Hd by (rewrite INR_IZR_INZ; reflexivity); exact Hd).
  pose proof (pos_INR dim) as D0.
  assert (U : 0 < u <= / 1024).
  { split; [apply bpow_gt_0|]. change (/ 1024) with (bpow radix2 (-10)). apply bpow_le. lia. }
  assert (B0 : forall k, (k < cdim)%nat -> 0 <= B).
  { intros k Hk. destruct corners as [|c cs]; [rewrite size_lt in HL; pose proof (nv_pos (lt id dim)); cbn in HL; lia|].
    destruct (Hc c k (or_introl eq_refl) Hk) as (_ & Q). eapply Rle_trans; [apply Rabs_pos|exact Q]. }
  destruct (C68_error ltac:(lia) id dim Hid (tame_3 dim id Hd Hid) ltac:(lia) ltac:(nia)) with (cdim := cdim) (jv := jv) (corners := corners) (x := x) (B := B) as (y & E & V); auto.
  - apply Rle_trans with (198 * u); [apply Rmult_le_compat_r; lra|lra].
  - exists y. split; [exact E|]. intros k Hk. destruct (V k Hk) as (F & Q). split; [exact F|]. eapply Rle_trans; [exact Q|].
    specialize (B0 k Hk). pose proof (bpow_gt_0 radix2 (2 - emax - prec)) as T0. set (t := eta) in *. clearbody t.
    apply Rplus_le_compat; [|apply Rmult_le_compat_r; lra].
    apply Rmult_le_compat_r; [exact B0|]. apply Rmult_le_compat_r; lra.
Qed.

(** AffineGeometry constructed from corners: the error for local coordinates between -1 and 1 *)
Theorem C68_affine_error : (7 <= prec)%Z -> forall dim cdim coords junk (x : FVec) B,
  length coords = S dim -> INR dim * (4 * INR dim + 8) * u <= 1 -> (8 * INR dim + 8) * B <= bpow radix2 (emax - 1) ->
  (forall c k, In c coords -> (k < cdim)%nat -> is_finite (c k) = true /\ Rabs (B2R (c k)) <= B) ->
  (forall i, (i < dim)%nat -> is_finite (x i) = true /\ Rabs (B2R (x i)) <= 1) ->
  exists g, fag_make prec emax Hp He dim coords junk = Some g /\ forall k, (k < cdim)%nat ->
    let y := fag_global prec emax Hp He cdim dim g x k in
    let c i := nth i (exactly coords) vzero k in
    is_finite y = true /\
    Rabs (B2R y - (c 0%nat + rsum dim (fun i => (c (S i) - c 0%nat) * B2R (x i)))) <= INR dim * (4 * INR dim + 7) * u * B + 5 * INR dim * eta.
Proof. intros H7. exact (affine_err prec emax Hp He H7). Qed.

(** On simplices CachedMultiLinearGeometry takes the affine branch and computes the same bits as AffineGeometry. *)
Theorem C68_cached_simplex : (6 <= prec)%Z -> forall id dim, (id < bit dim)%N -> isSimplex (GT2 id dim) = true ->
  forall cdim jk jm jv junk coords (x : FVec), length coords = size id dim dim ->
  exists g y, fag_make prec emax Hp He dim coords junk = Some g
    /\ fcml_global prec emax Hp He cdim id dim jk jm jv coords x = Some y
    /\ forall k, (k < cdim)%nat -> y k = fag_global prec emax Hp He cdim dim g x k.
Proof.
  intros H6 id dim Hid HS cdim jk jm jv junk coords x HL. apply isSimplex_simT in HS; [|exact Hid].
  apply (fcml_simplex prec emax Hp He H6 cdim id dim HS). now rewrite HL, size_lt, (lt_chain id dim HS), nv_chain.
Qed.
End C68.
Print Assumptions C68_cached_simplex.
Print Assumptions C68_weights.
Print Assumptions C68_corners.
Print Assumptions C68_error.
Print Assumptions C68_error_3.
Print Assumptions C68_affine_error.

(** ** what does not hold, in single precision *)
Definition vec1 (m e : Z) : nat -> binary_float 24 128 := fun _ => sgl m e.
Definition zro : nat -> binary_float 24 128 := fun _ => sgl 0 0.
Lemma sgl_zero : forall (x : binary_float 24 128) s, B2SF x = SpecFloat.S754_zero s -> B2R x = 0.
Proof. intros [s'|s'| |s' m' e' p] s E; try discriminate E. reflexivity. Qed.

Lemma coord_value {A} : forall (f : A -> binary_float 24 128) o m e, option_map (fun y => B2SF (f y)) o = Some (SpecFloat.S754_finite false m e) ->
  option_map (fun y => B2R (f y)) o = Some (IZR (Z.pos m) * bpow radix2 e).
Proof. intros f [y|] m e E; [|discriminate]. cbn [option_map] in *. f_equal. apply sgl_value. congruence. Qed.
Lemma coord_zero {A} : forall (f : A -> binary_float 24 128) o s, option_map (fun y => B2SF (f y)) o = Some (SpecFloat.S754_zero s) ->
  option_map (fun y => B2R (f y)) o = Some 0.
Proof. intros f [y|] s E; [|discriminate]. cbn [option_map] in *. f_equal. apply (sgl_zero _ s). congruence. Qed.

(** AffineGeometry and CachedMultiLinearGeometry do not return their corners: the line from 1 to 2^-30
    ends at 0.  MultiLinearGeometry with the same corners does not have this error. *)
Theorem C68_affine_corner_refuted :
  exists (coords : list (nat -> binary_float 24 128)) (x c : nat -> binary_float 24 128),
    (forall c k, In c coords -> is_finite (c k) = true) /\ length coords = 2%nat /\ nth_error coords 1 = Some c
    /\ B2R (c 0%nat) = bpow radix2 (-30) /\ B2R (x 0%nat) = 1
    /\ option_map (fun g => B2R (fag_global 24 128 p24 e128 1 1 g x 0%nat)) (fag_make 24 128 p24 e128 1 coords (fun _ => zro)) = Some 0
    /\ option_map (fun y => B2R (y 0%nat)) (fcml_global 24 128 p24 e128 1 0 1 (fun _ => zro) (fun _ => zro) zro coords x) = Some 0
    /\ option_map (fun y => B2R (y 0%nat)) (fmlg_global 24 128 p24 e128 1 0 1 zro coords x) = Some (bpow radix2 (-30)).
Proof.
  exists [vec1 1 0; vec1 1 (-30)], (vec1 1 0), (vec1 1 (-30)).
  split; [intros c k [<-|[<-|[]]]; reflexivity|]. split; [reflexivity|]. split; [reflexivity|].
  split. { rewrite (sgl_value _ 8388608 (-53)) by reflexivity. cbn. lra. }
  split. { rewrite (sgl_value _ 8388608 (-23)) by reflexivity. cbn. lra. }
  split; [apply (coord_zero (fun g => fag_global 24 128 p24 e128 1 1 g (vec1 1 0) 0%nat) _ false); vm_compute; reflexivity|].
  split; [apply (coord_zero (fun y => y 0%nat) _ false); vm_compute; reflexivity|].
  rewrite (coord_value (fun y => y 0%nat) _ 8388608 (-53)) by (vm_compute; reflexivity). f_equal. cbn. lra.
Qed.
Print Assumptions C68_affine_corner_refuted.

(** The tolerance of the affinity test is absolute.  A quadrilateral of size 2^-11 that is folded
    onto a triangle passes the test; CachedMultiLinearGeometry maps the last reference corner to
    (2^-11, 2^-11) while the stored corner is the origin. *)
Definition pt2 (a b : binary_float 24 128) : nat -> binary_float 24 128 := fun k => match k with O => a | _ => b end.
Definition folded : list (nat -> binary_float 24 128) :=
  [pt2 (sgl 0 0) (sgl 0 0); pt2 (sgl 1 (-11)) (sgl 0 0); pt2 (sgl 0 0) (sgl 1 (-11)); pt2 (sgl 0 0) (sgl 0 0)].
Theorem C68_cached_quad_refuted :
  exists (coords : list (nat -> binary_float 24 128)) (x c : nat -> binary_float 24 128),
    (forall c k, In c coords -> is_finite (c k) = true) /\ length coords = size 3 2 2 /\ nth_error coords 3 = Some c
    /\ B2R (c 0%nat) = 0 /\ B2R (x 0%nat) = 1 /\ B2R (x 1%nat) = 1
    /\ option_map (fun y => B2R (y 0%nat)) (fcml_global 24 128 p24 e128 2 3 2 (fun _ => zro) (fun _ => zro) zro coords x) = Some (bpow radix2 (-11))
    /\ option_map (fun y => B2R (y 0%nat)) (fmlg_global 24 128 p24 e128 2 3 2 zro coords x) = Some 0.
Proof.
  exists folded, (vec1 1 0), (pt2 (sgl 0 0) (sgl 0 0)).
  split; [intros c [|k] [<-|[<-|[<-|[<-|[]]]]]; reflexivity|]. split; [reflexivity|]. split; [reflexivity|].
  assert (O1 : B2R (sgl 1 0) = 1) by (rewrite (sgl_value _ 8388608 (-23)) by reflexivity; cbn; lra).
  split; [reflexivity|]. split; [exact O1|]. split; [exact O1|].
  split.
  - rewrite (coord_value (fun y => y 0%nat) _ 8388608 (-34)) by (vm_compute; reflexivity). f_equal. cbn. lra.
  - apply (coord_zero (fun y => y 0%nat) _ false); vm_compute; reflexivity.
Qed.
Print Assumptions C68_cached_quad_refuted.

(** The rounded weights need not sum to one: a line with both ends at 3 has the point 3 + 2^-22, so
    images of points of the reference element can leave the convex hull of the corners. *)
Theorem C68_hull_refuted :
  exists (coords : list (nat -> binary_float 24 128)) (x : nat -> binary_float 24 128),
    length coords = 2%nat /\ (forall c, In c coords -> is_finite (c 0%nat) = true /\ B2R (c 0%nat) = 3) /\ 0 <= B2R (x 0%nat) <= 1
    /\ option_map (fun y => B2R (y 0%nat)) (fmlg_global 24 128 p24 e128 1 0 1 zro coords x) = Some (3 + bpow radix2 (-22)).
Proof.
  exists [vec1 3 0; vec1 3 0], (vec1 13421773 (-29)).
  split; [reflexivity|]. split.
  { assert (V : is_finite (sgl 3 0) = true /\ B2R (sgl 3 0) = 3) by (split; [reflexivity|rewrite (sgl_value _ 12582912 (-22)) by reflexivity; cbn; lra]).
    intros c [<-|[<-|[]]]; exact V. }
  split. { rewrite (sgl_value _ 13421773 (-29)) by reflexivity. cbn. lra. }
  rewrite (coord_value (fun y => y 0%nat) _ 12582913 (-22)) by (vm_compute; reflexivity). f_equal. cbn. lra.
Qed.
Print Assumptions C68_hull_refuted.

(** a pyramid in single precision: the apex, and the centre of the base *)
Definition pyr5 : list (nat -> binary_float 24 128) :=
  [vec3 (sgl 0 0) (sgl 0 0) (sgl 0 0); vec3 (sgl 1 0) (sgl 0 0) (sgl 0 0); vec3 (sgl 0 0) (sgl 1 0) (sgl 0 0); vec3 (sgl 1 0) (sgl 1 0) (sgl 1 0);
   vec3 (sgl 13421773 (-27)) (sgl 13421773 (-26)) (sgl 5 0)].
Example C68_example :
  option_map (fun y => (B2SF (y 0%nat), B2SF (y 1%nat), B2SF (y 2%nat))) (fmlg_global 24 128 p24 e128 3 3 3 zro pyr5 (vec3 (sgl 0 0) (sgl 0 0) (sgl 1 0)))
    = Some (SpecFloat.S754_finite false 13421773 (-27), SpecFloat.S754_finite false 13421773 (-26), SpecFloat.S754_finite false 10485760 (-21))
  /\ option_map (fun y => B2SF (y 2%nat)) (fmlg_global 24 128 p24 e128 3 3 3 zro pyr5 (vec3 (sgl 1 (-1)) (sgl 1 (-1)) (sgl 0 0)))
    = Some (SpecFloat.S754_finite false 8388608 (-25)).
Proof. split; vm_compute; reflexivity. Qed.
