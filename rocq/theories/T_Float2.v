(** * C65  AxisAlignedCubeGeometry in floating point *)
From Coq Require Import PeanoNat NArith ZArith Bool List Reals Lra Lia.
From Flocq Require Import Core Sterbenz IEEE754.BinarySingleNaN.
From Verif Require Import M_Type M_RefTopo M_RefGeo M_Matrix M_Affine M_Float S_Topo S_RefGeo P_Type P_Type2 P_Topo P_RefTopo
  P_RefTopo2 P_RefTopo3 P_RefGeo P_RefGeo2 P_RefGeo3 P_RefGeo4 P_Matrix P_AACube T_RefGeo P_Float P_Float2 P_Float3 T_Float.
Import ListNotations.
Local Open Scope R_scope.

(** the unit cube in the reference element of the cube *)
Lemma cube_hull : forall id dim (x : nat -> R), (id < 2 ^ N.of_nat dim)%N -> (dim < 256)%nat ->
  isCube (GT2 id dim) = true -> (forall j, (j < dim)%nat -> 0 <= x j <= 1) ->
  in_hull dim (referenceCorners id dim) x.
Proof.
  intros id dim x Hid Hd Hc Hx. rewrite <- bit_pow in Hid. apply isCube_cubT in Hc; [|assumption..].
  rewrite corners_verts. rewrite <- (tdim_topo_of id dim) at 1. apply in_hull_insideT.
  rewrite <- (tdim_topo_of id dim) in Hx. revert Hx Hc. generalize (topo_of id dim) as T.
  induction T as [|b IH|b IH]; intros Hx Hc; cbn [insideT cubT tdim] in *; [exact I| |].
  - split; [apply Hx; lia|]. apply IH; [|exact Hc]. intros j Hj. apply Hx. lia.
  - split; [apply Hx; lia|]. subst b. exact I.
Qed.

Section C65.
Variables (prec emax : Z).
Context (Hp : Prec_gt_0 prec) (He : Prec_lt_emax prec emax).
Hypothesis H2 : (2 <= prec)%Z.
Notation float := (binary_float prec emax).
Notation fexp := (SpecFloat.fexp prec emax).
Notation rnd := (round radix2 fexp (round_mode mode_NE)).
Notation u := (bpow radix2 (- prec)).
Notation eta := (/ 2 * bpow radix2 (3 - emax - prec)).
Notation lower := (fc_lower prec emax).
Notation upper := (fc_upper prec emax).
Notation axes := (fc_axes prec emax).
Notation global := (fac_global prec emax Hp He).
Notation local := (fac_local prec emax Hp He).
Notation corner := (fac_corner prec emax).
Notation center := (fac_center prec emax Hp He).
Notation volume := (fac_volume prec emax Hp He).

(** finite corners, three binary orders of magnitude away from overflow, of positive extent *)
Record cube_ok (dim cd : nat) (g : AACubeF prec emax) : Prop := {
  co_wf : fac_wf prec emax dim cd g;
  co_fin : forall i, (i < cd)%nat -> is_finite (lower g i) = true /\ is_finite (upper g i) = true;
  co_bnd : forall i, (i < cd)%nat -> Rabs (B2R (lower g i)) <= bpow radix2 (emax - 3)
                                  /\ Rabs (B2R (upper g i)) <= bpow radix2 (emax - 3);
  co_pos : forall i, (i < cd)%nat -> axes g i = true -> B2R (lower g i) < B2R (upper g i) }.

(** floating point vectors in the box and in the unit cube *)
Definition in_box (cd : nat) (g : AACubeF prec emax) (y : nat -> float) : Prop :=
  forall i, (i < cd)%nat -> is_finite (y i) = true /\
    if axes g i then B2R (lower g i) <= B2R (y i) <= B2R (upper g i) else B2R (y i) = B2R (lower g i).
Definition in_unit (dim : nat) (x : nat -> float) : Prop :=
  forall j, (j < dim)%nat -> is_finite (x j) = true /\ 0 <= B2R (x j) <= 1.
(** the number of axes before direction i *)
Definition rank (g : AACubeF prec emax) (i : nat) : nat := length (filter (axes g) (seq 0 i)).
Lemma rank_bcount : forall g i, rank g i = bcount i (axes g).
Proof.
  intros g i. unfold rank. induction i; [reflexivity|]. rewrite seq_S, filter_app, app_length, IHi. cbn.
  destruct (axes g i); cbn; lia.
Qed.

(** the constructors *)
Theorem C65_constructors :
  forall dim cd (lo up : nat -> float),
  fac_wf prec emax cd cd (fac_make2 prec emax cd lo up)
  /\ forall ax g, fac_make3 prec emax dim cd lo up ax = Some g ->
     fac_wf prec emax dim cd g /\ lower g = lo /\ axes g = ax
     /\ forall i, (i < cd)%nat -> upper g i = if ax i then up i else lo i.
Proof.
  intros dim cd lo up.
  assert (B : forall n, (n <= cd)%nat -> bcount n (fun i => Nat.ltb i cd) = n).
  { induction n; intros H; [reflexivity|]. cbn [bcount]. rewrite IHn by lia.
    rewrite (proj2 (Nat.ltb_lt n cd)) by lia. lia. }
  split.
  - split; [now apply B|]. right. intros i Hi E. cbn [fac_make2 fc_axes] in E.
    rewrite (proj2 (Nat.ltb_lt i cd) Hi) in E. discriminate E.
  - intros ax g E. unfold fac_make3 in E. destruct (Nat.eqb_spec (bcount cd ax) dim); [|discriminate E].
    injection E as <-. cbn [fc_lower fc_upper fc_axes].
    assert (U : forall n v i, forN n (fun i u => if ax i then u else fupd prec emax u i (lo i)) v i
              = if Nat.ltb i n then (if ax i then v i else lo i) else v i).
    { clear. induction n; intros v i; [reflexivity|]. cbn [forN]. destruct (Nat.eq_dec i n) as [->|N].
      - rewrite (proj2 (Nat.ltb_lt n (S n))) by lia. destruct (ax n) eqn:A; [|apply fupd_eq].
        now rewrite IHn, Nat.ltb_irrefl.
      - destruct (ax n); [|rewrite fupd_ne by exact N]; rewrite IHn;
          destruct (Nat.ltb_spec i n), (Nat.ltb_spec i (S n)); try lia; reflexivity. }
    repeat split; cbn [fc_lower fc_upper fc_axes].
    + assumption.
    + right. intros i Hi A. rewrite U, A. now rewrite (proj2 (Nat.ltb_lt i cd)).
    + intros i Hi. rewrite U. now rewrite (proj2 (Nat.ltb_lt i cd)).
Qed.

Section G.
Variables (dim cd : nat) (g : AACubeF prec emax).
Hypothesis OK : cube_ok dim cd g.

Ltac ax i Hi A :=
  destruct (co_fin _ _ _ OK i Hi) as (Fl & Fr); destruct (co_bnd _ _ _ OK i Hi) as (Bl & Br);
  pose proof (co_pos _ _ _ OK i Hi A) as LT; pose proof (Rlt_le _ _ LT) as LE.
Lemma rank_lt : forall i, (i < cd)%nat -> axes g i = true -> (bcount i (axes g) < dim)%nat.
Proof. intros i Hi A. exact (fwf_rank prec emax dim cd g (co_wf _ _ _ OK) i Hi A). Qed.
Lemma rank_surj : forall j, (j < dim)%nat -> exists i, (i < cd)%nat /\ axes g i = true /\ bcount i (axes g) = j.
Proof. intros j Hj. apply bcount_surj. now rewrite (fw_count _ _ _ _ _ (co_wf _ _ _ OK)). Qed.

(** local maps every floating point vector of the box into the unit cube, without any error *)
Theorem C65_local_unit : forall y, in_box cd g y -> in_unit dim (local dim cd g y).
Proof.
  intros y Hy j Hj. destruct (rank_surj j Hj) as (i & Hi & A & <-). ax i Hi A.
  destruct (Hy i Hi) as (Fy & By). rewrite A in By.
  rewrite (flocal_spec prec emax Hp He dim cd g (co_wf _ _ _ OK) y i Hi A). split.
  - apply loc_ok; try assumption; apply By.
  - apply loc_range; try assumption; apply By.
Qed.

(** hence the reference element accepts it *)
Theorem C65_local_inside : forall y id, in_box cd g y ->
  (7 <= prec)%Z -> (dim <= 127)%nat -> (id < 2 ^ N.of_nat dim)%N -> isCube (GT2 id dim) = true ->
  re_checkInside prec emax Hp He id dim (local dim cd g y) = true.
Proof.
  intros y id Hy H7 Hd Hid Hc. apply C64_accepts; [exact H7|exact Hd| |].
  - intros k Hk. apply (C65_local_unit y Hy k Hk).
  - apply cube_hull; [exact Hid|lia|exact Hc|]. intros j Hj. apply (C65_local_unit y Hy j Hj).
Qed.

(** local of a corner is exactly the corner of the unit cube *)
Theorem C65_local_corner : forall k j, (j < dim)%nat ->
  B2R (local dim cd g (corner dim cd g k) j) = if Nat.testbit k j then 1 else 0.
Proof.
  intros k j Hj. destruct (rank_surj j Hj) as (i & Hi & A & E). ax i Hi A. rewrite <- E.
  rewrite (flocal_spec prec emax Hp He dim cd g (co_wf _ _ _ OK) _ i Hi A).
  rewrite (fcorner_spec prec emax dim cd g (co_wf _ _ _ OK) k i Hi), A.
  destruct (Nat.testbit k (bcount i (axes g))); [now apply loc_r|now apply loc_l].
Qed.

Theorem C65_local_monotone : forall y z, in_box cd g y -> in_box cd g z ->
  (forall i, (i < cd)%nat -> B2R (y i) <= B2R (z i)) ->
  forall j, (j < dim)%nat -> B2R (local dim cd g y j) <= B2R (local dim cd g z j).
Proof.
  intros y z Hy Hz YZ j Hj. destruct (rank_surj j Hj) as (i & Hi & A & <-). ax i Hi A.
  destruct (Hy i Hi) as (Fy & By), (Hz i Hi) as (Fz & Bz). rewrite A in By, Bz.
  rewrite !(flocal_spec prec emax Hp He dim cd g (co_wf _ _ _ OK) _ i Hi A).
  apply loc_mono; try assumption; [apply By|now apply YZ|apply Bz].
Qed.

(** global: finite, monotone, exact at the lower corner *)
Theorem C65_global_monotone : forall x y, in_unit dim x -> in_unit dim y ->
  (forall j, (j < dim)%nat -> B2R (x j) <= B2R (y j)) ->
  forall i, (i < cd)%nat -> is_finite (global dim cd g x i) = true
    /\ B2R (lower g i) <= B2R (global dim cd g x i) <= B2R (global dim cd g y i).
Proof.
  intros x y Hx Hy XY i Hi.
  rewrite !(fglobal_spec prec emax Hp He dim cd g (co_wf _ _ _ OK) _ i Hi).
  destruct (axes g i) eqn:A; [|split; [apply (co_fin _ _ _ OK i Hi)|lra]].
  ax i Hi A. pose proof (rank_lt i Hi A) as R. destruct (Hx _ R) as (Fx & X0 & X1), (Hy _ R) as (Fy & Y0 & Y1).
  split; [now apply glob_ok|]. split.
  - now apply glob_ge.
  - apply glob_mono; try assumption. now apply XY.
Qed.

(** global of a corner of the unit cube *)
Theorem C65_global_corner : forall k x, 
  (forall j, (j < dim)%nat -> is_finite (x j) = true /\ B2R (x j) = if Nat.testbit k j then 1 else 0) ->
  forall i, (i < cd)%nat ->
  B2R (global dim cd g x i)
  = if axes g i && Nat.testbit k (rank g i)
    then rnd (B2R (lower g i) + rnd (B2R (upper g i) - B2R (lower g i)))
    else B2R (lower g i).
Proof.
  intros k x Hx i Hi. rewrite (fglobal_spec prec emax Hp He dim cd g (co_wf _ _ _ OK) _ i Hi).
  destruct (axes g i) eqn:A; [|reflexivity]. cbn [andb]. ax i Hi A. rewrite rank_bcount.
  destruct (Hx _ (rank_lt i Hi A)) as (Fx & X).
  destruct (Nat.testbit k (bcount i (axes g))); [now apply glob_1|]. now apply (glob_0 prec emax Hp He H2 _ (upper g i)).
Qed.

(** if the extents are floating point numbers then the corners are exact, and the unit cube is
    mapped into the box *)
Theorem C65_global_exact :
  (forall i, (i < cd)%nat -> axes g i = true ->
     generic_format radix2 fexp (B2R (upper g i) - B2R (lower g i))) ->
  (forall k x, (forall j, (j < dim)%nat -> is_finite (x j) = true /\ B2R (x j) = if Nat.testbit k j then 1 else 0) ->
     forall i, (i < cd)%nat -> B2R (global dim cd g x i) = B2R (corner dim cd g k i))
  /\ forall x, in_unit dim x -> in_box cd g (global dim cd g x).
Proof.
  intros HF. split.
  - intros k x Hx i Hi. rewrite (C65_global_corner k x Hx i Hi).
    rewrite (fcorner_spec prec emax dim cd g (co_wf _ _ _ OK) k i Hi), rank_bcount.
    destruct (axes g i) eqn:A; [|reflexivity]. cbn [andb].
    destruct (Nat.testbit k (bcount i (axes g))); [|reflexivity].
    rewrite (rnd_id prec emax _ (HF i Hi A)).
    replace (B2R (lower g i) + (B2R (upper g i) - B2R (lower g i))) with (B2R (upper g i)) by ring.
    apply (rnd_id prec emax), fmt.
  - intros x Hx i Hi. rewrite (fglobal_spec prec emax Hp He dim cd g (co_wf _ _ _ OK) _ i Hi).
    destruct (axes g i) eqn:A; [|split; [apply (co_fin _ _ _ OK i Hi)|reflexivity]].
    ax i Hi A. destruct (Hx _ (rank_lt i Hi A)) as (Fx & X0 & X1).
    split; [now apply glob_ok|]. destruct (ofZ_1 prec emax Hp He H2) as (O1 & O2). split.
    + now apply glob_ge.
    + rewrite <- (glob_1_exact prec emax Hp He H2 _ _ Fl Fr Bl Br LE _ (HF i Hi A) O2 O1).
      apply glob_mono; try assumption; rewrite O1; lra.
Qed.

(** the extents are floating point numbers if a coordinate of the lower corner is zero or the two
    coordinates are within a factor of two *)
Theorem C65_extent_exact : forall i, (i < cd)%nat ->
  B2R (lower g i) = 0 \/ B2R (lower g i) / 2 <= B2R (upper g i) <= 2 * B2R (lower g i) ->
  generic_format radix2 fexp (B2R (upper g i) - B2R (lower g i)).
Proof.
  intros i Hi [Z|S].
  - rewrite Z, Rminus_0_r. apply fmt.
  - apply sterbenz; [apply fexp_correct; exact Hp|intros a b H; unfold SpecFloat.fexp; lia|apply fmt|apply fmt|exact S].
Qed.

(** the error of global *)
Theorem C65_global_error : forall x, in_unit dim x -> forall i, (i < cd)%nat -> axes g i = true ->
  let w := B2R (upper g i) - B2R (lower g i) in
  let G := B2R (lower g i) + B2R (x (rank g i)) * w in
  Rabs (B2R (global dim cd g x i) - G) <= u * Rabs G + (1 + u) * (((1 + u) ^ 2 - 1) * w + eta).
Proof.
  intros x Hx i Hi A. cbv zeta. rewrite (fglobal_spec prec emax Hp He dim cd g (co_wf _ _ _ OK) _ i Hi), A, rank_bcount.
  ax i Hi A. destruct (Hx _ (rank_lt i Hi A)) as (Fx & X0 & X1). now apply glob_error.
Qed.

(** global after local: backward stable, whatever the ratio of position and extent *)
Theorem C65_round_trip : forall y, in_box cd g y -> forall i, (i < cd)%nat ->
  let w := B2R (upper g i) - B2R (lower g i) in
  let z := B2R (global dim cd g (local dim cd g y) i) in
  if axes g i
  then Rabs (z - B2R (y i))
       <= u * Rabs (B2R (y i)) + (1 + u) * (((1 + u) ^ 3 - 1) * w + (1 + u) * ((1 + u) * eta * w) + eta)
  else z = B2R (y i).
Proof.
  intros y Hy i Hi. cbv zeta. rewrite (fglobal_spec prec emax Hp He dim cd g (co_wf _ _ _ OK) _ i Hi).
  destruct (Hy i Hi) as (Fy & By). destruct (axes g i) eqn:A; [|now rewrite By].
  ax i Hi A. rewrite (flocal_spec prec emax Hp He dim cd g (co_wf _ _ _ OK) _ i Hi A).
  apply loc_glob; try assumption; apply By.
Qed.

(** the centre lies in the box *)
Theorem C65_center : in_box cd g (center dim cd g).
Proof.
  intros i Hi. destruct (co_fin _ _ _ OK i Hi) as (Fl & Fr). destruct (co_bnd _ _ _ OK i Hi) as (Bl & Br).
  destruct (Nat.eq_dec dim 0) as [Z|N].
  - unfold fac_center. rewrite (proj2 (Nat.eqb_eq dim 0) Z).
    assert (A : axes g i = false).
    { apply (bcount_zero (axes g) cd); [|exact Hi]. rewrite (fw_count _ _ _ _ _ (co_wf _ _ _ OK)). exact Z. }
    rewrite A. now split.
  - rewrite (fcenter_spec prec emax Hp He dim cd g i Hi N).
    destruct (axes g i) eqn:A.
    + pose proof (Rlt_le _ _ (co_pos _ _ _ OK i Hi A)). apply mid_in; assumption.
    + destruct (fw_flat _ _ _ _ _ (co_wf _ _ _ OK)) as [D|D]; [contradiction|].
      rewrite (D i Hi A). destruct (mid_in prec emax Hp He H2 (lower g i) (lower g i) Fl Fl Bl Bl (Rle_refl _)) as (M1 & M2).
      split; [exact M1|lra].
Qed.

(** the volume has a relative error below [2 dim] units of rounding as long as the partial
    products stay away from underflow and overflow *)
Theorem C65_volume :
  let P := fun n => fold_right Rmult 1 (map (fun i => B2R (upper g i) - B2R (lower g i)) (filter (axes g) (seq 0 n))) in
  (forall n, (n <= cd)%nat -> bpow radix2 (3 - emax) <= P n <= bpow radix2 (emax - 2)) ->
  (1 + u) ^ (2 * dim) <= 2 -> / 2 <= (1 - u) ^ (2 * dim) ->
  is_finite (volume dim cd g) = true
  /\ exists F, B2R (volume dim cd g) = P cd * F /\ (1 - u) ^ (2 * dim) <= F <= (1 + u) ^ (2 * dim).
Proof.
  intros P HP A1 A2.
  assert (E : forall n, P n = xprod prec emax g n).
  { intros n. unfold P, xprod. induction n; [reflexivity|]. cbn [forN]. rewrite <- IHn.
    rewrite seq_S, filter_app, map_app. cbn [plus filter].
    destruct (axes g n); cbn [map app]; [|now rewrite app_nil_r].
    clear. generalize (map (fun i => B2R (upper g i) - B2R (lower g i)) (filter (axes g) (seq 0 n))) as L.
    induction L as [|a L IH]; cbn; [ring|]. rewrite IH. ring. }
  rewrite (fvolume_spec prec emax Hp He dim cd g (co_wf _ _ _ OK)).
  rewrite E.
  destruct (vol_gen prec emax Hp He dim cd g (co_wf _ _ _ OK) H2) with (n := cd) as (V1 & F & V2 & V3); try lia.
  - intros i Hi _. apply (co_fin _ _ _ OK i Hi).
  - intros i Hi _. apply (co_bnd _ _ _ OK i Hi).
  - apply (co_pos _ _ _ OK).
  - intros n Hn. rewrite <- E. now apply HP.
  - now split.
  - split; [exact V1|]. exists F. rewrite (fw_count _ _ _ _ _ (co_wf _ _ _ OK)) in V3. now split.
Qed.
End G.
End C65.
Print Assumptions C65_constructors.
Print Assumptions C65_local_unit.
Print Assumptions C65_local_inside.
Print Assumptions C65_local_corner.
Print Assumptions C65_local_monotone.
Print Assumptions C65_global_monotone.
Print Assumptions C65_global_corner.
Print Assumptions C65_global_exact.
Print Assumptions C65_extent_exact.
Print Assumptions C65_global_error.
Print Assumptions C65_round_trip.
Print Assumptions C65_center.
Print Assumptions C65_volume.

(** ** float: the unit interval can be mapped out of the box *)
Notation cube1 lo up := (fac_make2 24 128 1 (fun _ => lo) (fun _ => up)).
Definition max_float : binary_float 24 128 := sgl (2^24 - 1) 104.

Lemma cube1_ok : forall lo up : binary_float 24 128, is_finite lo = true -> is_finite up = true ->
  Rabs (B2R lo) <= bpow radix2 (128 - 3) -> Rabs (B2R up) <= bpow radix2 (128 - 3) -> B2R lo < B2R up ->
  cube_ok 24 128 1 1 (cube1 lo up).
Proof.
  intros lo up Fl Fu Bl Bu L. split; [exact (proj1 (C65_constructors 24 128 1 1 _ _))| | |].
  - intros i Hi. now split.
  - intros i Hi. now split.
  - intros i Hi _. exact L.
Qed.
Lemma sgl_neg : forall (x : binary_float 24 128) m e,
  B2SF x = SpecFloat.S754_finite true m e -> B2R x = IZR (Z.neg m) * bpow radix2 e.
Proof. intros [s|s| |s m' e' p] m e E; try discriminate E. now injection E as -> -> ->. Qed.
Lemma bpow_small : forall e, (e <= 125)%Z -> bpow radix2 e <= bpow radix2 (128 - 3).
Proof. intros e H. apply bpow_le. lia. Qed.

(** the interval from -16777215 to 1/2: global(1) is 1, beyond the upper corner *)
Theorem C65_global_outside_refuted :
  exists (g : AACubeF 24 128) (x : nat -> binary_float 24 128),
    cube_ok 24 128 1 1 g /\ in_unit 24 128 1 x /\ B2R (x O) = 1
    /\ B2R (fac_corner 24 128 1 1 g 1 O) = / 2
    /\ B2R (fac_global 24 128 p24 e128 1 1 g x O) = 1.
Proof.
  assert (V1 : B2R (sgl (-16777215) 0) = -16777215).
  { rewrite (sgl_neg _ 16777215 0) by reflexivity. cbn. ring. }
  assert (V2 : B2R (sgl 1 (-1)) = / 2).
  { rewrite (sgl_value _ 8388608 (-24)) by reflexivity. rewrite bpow_24. lra. }
  assert (V3 : B2R (sgl 1 0) = 1).
  { rewrite (sgl_value _ 8388608 (-23)) by reflexivity. change (bpow radix2 (-23)) with (/ 8388608). lra. }
  assert (M : 16777216 <= bpow radix2 (128 - 3)).
  { change 16777216 with (bpow radix2 24). apply bpow_le. lia. }
  exists (cube1 (sgl (-16777215) 0) (sgl 1 (-1))), (fun _ => sgl 1 0).
  split; [apply cube1_ok; try reflexivity|].
  - rewrite V1. apply Rabs_le. lra.
  - rewrite V2. apply Rabs_le. lra.
  - rewrite V1, V2. lra.
  - split; [intros j Hj; split; [reflexivity|rewrite V3; lra]|].
    split; [exact V3|]. split; [exact V2|].
    rewrite (sgl_value _ 8388608 (-23)) by (vm_compute; reflexivity). change (bpow radix2 (-23)) with (/ 8388608). lra.
Qed.
Print Assumptions C65_global_outside_refuted.

(** a square of edge length 2^-100 has volume zero *)
Theorem C65_volume_underflow_refuted :
  exists g : AACubeF 24 128, cube_ok 24 128 2 2 g /\ B2R (fac_volume 24 128 p24 e128 2 2 g) = 0.
Proof.
  assert (V : B2R (sgl 1 (-100)) = bpow radix2 (-100)).
  { rewrite (sgl_value _ 8388608 (-123)) by reflexivity. change 8388608 with (bpow radix2 23). now rewrite <- bpow_plus. }
  exists (fac_make2 24 128 2 (fun _ => sgl 0 0) (fun _ => sgl 1 (-100))). split; [split|].
  - exact (proj1 (C65_constructors 24 128 2 2 _ _)).
  - intros i Hi. now split.
  - intros i Hi. cbn [fac_make2 fc_lower fc_upper]. rewrite V. change (B2R (sgl 0 0)) with 0. rewrite Rabs_R0. split; [apply bpow_ge_0|].
    rewrite Rabs_pos_eq by apply bpow_ge_0. apply bpow_le. lia.
  - intros i Hi _. cbn [fac_make2 fc_lower fc_upper]. rewrite V. change (B2R (sgl 0 0)) with 0. apply bpow_gt_0.
  - assert (E : B2SF (fac_volume 24 128 p24 e128 2 2 (fac_make2 24 128 2 (fun _ => sgl 0 0) (fun _ => sgl 1 (-100))))
      = SpecFloat.S754_zero false) by (vm_compute; reflexivity).
    destruct (fac_volume _ _ _ _ _ _ _); try discriminate E. reflexivity.
Qed.
Print Assumptions C65_volume_underflow_refuted.

(** the centre of a cube of large finite coordinates is an infinity *)
Theorem C65_center_overflow_refuted :
  exists g : AACubeF 24 128, (forall i, is_finite (fc_lower 24 128 g i) = true /\ is_finite (fc_upper 24 128 g i) = true)
    /\ fac_wf 24 128 1 1 g /\ fac_center 24 128 p24 e128 1 1 g O = B754_infinity false.
Proof.
  exists (cube1 (sgl 1 127) max_float). split; [intros i; split; reflexivity|]. split; [exact (proj1 (C65_constructors 24 128 1 1 _ _))|].
  apply B2SF_inf. vm_compute. reflexivity.
Qed.
Print Assumptions C65_center_overflow_refuted.

(** the interval from 1 to 3 in float: its third is rounded, the corners are exact *)
Example C65_example :
  let g := cube1 (sgl 1 0) (sgl 3 0) in
  B2SF (fac_global 24 128 p24 e128 1 1 g (fun _ => sgl 1 0) O) = B2SF (sgl 3 0)
  /\ B2SF (fac_global 24 128 p24 e128 1 1 g (fun _ => sgl 11184811 (-25)) O) = B2SF (sgl 13981014 (-23))
  /\ B2SF (fac_local 24 128 p24 e128 1 1 g (fun _ => sgl 2 0) O) = B2SF (sgl 1 (-1))
  /\ B2SF (fac_center 24 128 p24 e128 1 1 g O) = B2SF (sgl 2 0)
  /\ B2SF (fac_volume 24 128 p24 e128 1 1 g) = B2SF (sgl 2 0).
Proof. vm_compute. repeat split. Qed.
