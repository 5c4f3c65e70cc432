(** The barycentre of the reference element in floating point arithmetic. *)
From Coq Require Import PeanoNat NArith ZArith Bool List Reals Lra Lia.
From Flocq Require Import Core IEEE754.BinarySingleNaN.
From Verif Require Import M_Type M_RefTopo M_RefGeo M_Matrix M_Float M_FloatGlobal M_FloatLocal S_Topo S_RefGeo
  P_RefTopo P_RefGeo P_RefGeo2 P_RefGeo3 P_RefGeo4 P_Float P_Float2 P_FloatRef.
Import ListNotations.
Local Open Scope R_scope.

Section FC.
Variables (prec emax : Z).
Context (Hp : Prec_gt_0 prec) (He : Prec_lt_emax prec emax).
Hypothesis H2 : (2 <= prec)%Z.
Notation float := (binary_float prec emax).
Notation FVec := (nat -> float).
Notation fexp := (SpecFloat.fexp prec emax).
Notation rnd := (round radix2 fexp (round_mode mode_NE)).
Notation u := (bpow radix2 (- prec)).
Notation add := (fadd prec emax Hp He).
Notation mul := (fmul prec emax Hp He).
Notation div := (fdiv prec emax Hp He).
Notation one := (ofZ prec emax Hp He 1).
Notation zero := (ofZ prec emax Hp He 0).
Notation fnn := (fnn prec emax).

Lemma one_prec : 1 <= bpow radix2 prec.
Proof. change 1 with (bpow radix2 0). apply bpow_le. lia. Qed.
Lemma one_nn : fnn one 1.
Proof. apply (ofZ_nn prec emax Hp He H2 1); [lia|exact one_prec]. Qed.
Lemma zero_nn : fnn zero 0.
Proof. apply (ofZ_nn prec emax Hp He H2 0); [lia|]. pose proof one_prec. lra. Qed.

Lemma fcorners_spec : forall dim id, Forall2 (fun c p => forall k, fnn (c k) (p k)) (fcorners prec emax Hp He id dim) (referenceCorners id dim).
Proof.
  assert (U : forall (c : FVec) (p : Vec) d, (forall k, fnn (c k) (p k)) -> forall k, fnn (fupd prec emax c d one k) (upd p d 1 k)).
  { intros c p d H k. unfold fupd, upd. destruct (Nat.eqb k d); [apply one_nn|apply H]. }
  induction dim; intro id.
  - constructor; [|constructor]. intro k. apply zero_nn.
  - cbn [fcorners referenceCorners]. cbv zeta. specialize (IHdim (baseTopologyId id (S dim) 1)). destruct (isPrism _ _ _).
    + apply Forall2_app; [assumption|]. induction IHdim as [|c p fl pl H _ IH]; [constructor|]. cbn [map]. constructor; [now apply U|exact IH].
    + apply Forall2_app; [assumption|]. constructor; [|constructor]. apply U. intro k. apply zero_nn.
Qed.
Lemma corners_01 id dim c k : In c (referenceCorners id dim) -> c k = 0 \/ c k = 1.
Proof.
  rewrite corners_verts. intros H. apply in_map_iff in H. destruct H as (v & <- & Hv). apply vertex_01, in_verts, Hv.
Qed.

Lemma Ssum_ext n f g : (forall j, (j < n)%nat -> f j = g j) -> Ssum n f = Ssum n g.
Proof. induction n; intro H; [reflexivity|]. cbn [Ssum]. rewrite IHn, H by (intros; try apply H; lia). reflexivity. Qed.
Lemma count_spec k : forall (pl : list Vec) (fl : list FVec), Forall2 (fun c p => forall k, fnn (c k) (p k)) fl pl ->
  (forall c, In c pl -> c k = 0 \/ c k = 1) -> INR (length pl) <= bpow radix2 prec ->
  exists m, (0 <= m <= Z.of_nat (length pl))%Z /\ Ssum (length pl) (fun j => nth j pl vzero k) = IZR m /\
    fnn (fold_left (fun s c => add s (c k)) fl zero) (IZR m).
Proof.
  induction pl as [|p pl IH] using rev_ind; intros fl F B N.
  - inversion F. exists 0%Z. cbn. split; [lia|]. split; [reflexivity|]. apply zero_nn.
  - apply Forall2_app_inv_r in F. destruct F as (fl' & l2 & F & F2 & ->). inversion F2 as [|c ? ? ? Hc F3]; subst. inversion F3; subst.
    rewrite app_length in *. cbn [length] in *. rewrite Nat.add_1_r in *. rewrite S_INR in N.
    destruct (IH fl' F) as (m & M & S & V); [intros; apply B, in_or_app; auto|lra|].
    rewrite fold_left_app. cbn [fold_left Ssum]. rewrite nth_middle.
    rewrite (Ssum_ext _ _ (fun j => nth j pl vzero k)) by (intros j Hj; now rewrite app_nth1).
    rewrite S. specialize (Hc k).
    assert (M' : IZR m <= INR (length pl)) by (rewrite INR_IZR_INZ; apply IZR_le; lia).
    assert (M0 : 0 <= IZR m) by (apply IZR_le; lia).
    assert (Q : exists q, (q = 0 \/ q = 1)%Z /\ p k = IZR q) by (destruct (B p) as [->| ->]; [apply in_or_app; right; now left|exists 0%Z|exists 1%Z]; auto).
    destruct Q as (q & Hq & Eq). rewrite Eq in *. exists (m + q)%Z. split; [destruct Hq; subst; lia|]. rewrite plus_IZR. split; [reflexivity|].
    assert (0 <= IZR q <= 1) by (destruct Hq; subst; lra).
    assert (L : IZR m + IZR q <= bpow radix2 prec) by lra.
    pose proof (prec_big prec emax He).
    pose proof (add_nn prec emax Hp He H2 _ _ _ _ V Hc M0 ltac:(lra) ltac:(lra)) as A.
    rewrite (rnd_id prec emax) in A; [exact A|].
    rewrite <- plus_IZR in L |- *. apply (format_int prec emax He H2); [destruct Hq; subst; lia|exact L].
Qed.

Notation mean id dim k := (Ssum (size id dim dim) (fun j => nth j (referenceCorners id dim) vzero k) / INR (size id dim dim)).
Lemma center_spec id dim k : (0 < dim)%nat -> (prec + 2 <= emax)%Z -> INR (length (referenceCorners id dim)) <= bpow radix2 prec ->
  let n := length (referenceCorners id dim) in
  let c := Ssum n (fun j => nth j (referenceCorners id dim) vzero k) / INR n in
  exists v, fnn (fcenter prec emax Hp He id dim k) v /\ Rabs (v - c) <= 3 * u * c /\ ((exists j, n = Nat.pow 2 j) -> v = c).
Proof.
  intros Hd Hem HN n c. pose proof (fcorners_spec dim id) as F.
  destruct (count_spec k _ _ F (fun c => corners_01 id dim c k) HN) as (m & M & S & V). fold n in M, S, HN.
  assert (L : length (fcorners prec emax Hp He id dim) = n) by (unfold n; clear - F; induction F; [reflexivity|cbn [length]; now rewrite IHF]).
  unfold fcenter. destruct (Nat.eqb_spec dim 0); [lia|]. cbv zeta. rewrite L.
  assert (NP : (0 < n)%nat) by (unfold n; rewrite corners_length; apply verts_length_pos).
  assert (NR : 1 <= INR n) by (change 1 with (INR 1); apply le_INR; lia).
  pose proof (ofZ_nn prec emax Hp He H2 (Z.of_nat n) ltac:(lia) ltac:(now rewrite <- INR_IZR_INZ)) as VN. rewrite <- INR_IZR_INZ in VN.
  assert (I1 : 0 < / INR n <= 1) by (split; [apply Rinv_0_lt_compat; lra|rewrite <- Rinv_1; apply Rinv_le_contravar; lra]).
  pose proof (prec_big prec emax He) as PB. pose proof one_prec as OP.
  pose proof (div_nn prec emax Hp He H2 _ _ _ _ one_nn VN ltac:(lra) ltac:(lra) ltac:(lra)) as VI.
  replace (1 / INR n) with (/ INR n) in VI by lra.
  assert (R1 : 0 <= rnd (/ INR n) <= 1) by (split; [apply rnd_nn; [assumption..|lra]|apply rnd_le1; [assumption..|lra]]).
  assert (M' : 0 <= IZR m <= INR n) by (rewrite INR_IZR_INZ; split; apply IZR_le; lia).
  assert (P1 : IZR m * rnd (/ INR n) <= IZR m) by nra.
  pose proof (mul_nn prec emax Hp He H2 _ _ _ _ V VI ltac:(lra) ltac:(lra) ltac:(lra)) as VM.
  exists (rnd (IZR m * rnd (/ INR n))). split; [exact VM|].
  assert (Ec : c = IZR m / INR n) by (unfold c; now rewrite S).
  assert (UP : 0 < u <= / 4) by (split; [apply bpow_gt_0|]; change (/ 4) with (bpow radix2 (-2)); apply bpow_le; lia).
  assert (IN : u <= / INR n).
  { rewrite bpow_opp. apply Rinv_le_contravar; [lra|exact HN]. }
  assert (UR : u <= rnd (/ INR n)).
  { apply round_ge_generic; [typeclasses eauto..| |exact IN]. apply format_bpow; try assumption. lia. }
  split.
  - destruct (rel_normal prec emax Hp (/ INR n)) as (e & E & R).
    { rewrite Rabs_pos_eq by lra. apply Rle_trans with u; [apply bpow_le; lia|exact IN]. }
    rewrite R in *. rewrite Ec. apply Rabs_le_inv in E. destruct (Z.eq_dec m 0) as [->|Nm].
    { rewrite Rmult_0_l, round_0 by typeclasses eauto. unfold Rdiv. rewrite !Rmult_0_l, Rminus_0_r, Rabs_R0. lra. }
    assert (M1 : 1 <= IZR m) by (apply IZR_le; lia).
    destruct (rel_normal prec emax Hp (IZR m * (/ INR n * (1 + e)))) as (e' & E' & R').
    { rewrite Rabs_pos_eq by nra. apply Rle_trans with u; [apply bpow_le; lia|nra]. }
    rewrite R'. replace (IZR m * (/ INR n * (1 + e)) * (1 + e') - IZR m / INR n) with (IZR m / INR n * (e + e' + e * e')) by (unfold Rdiv; ring).
    assert (0 <= IZR m / INR n) by (unfold Rdiv; nra).
    rewrite Rabs_mult, (Rabs_pos_eq (IZR m / INR n)) by assumption. rewrite Rmult_comm. apply Rmult_le_compat_r; [assumption|].
    apply Rabs_le_inv in E'. apply Rabs_le. nra.
  - intros (j & Ej).
    assert (EI : INR n = bpow radix2 (Z.of_nat j)).
    { rewrite Ej, pow_INR. cbn [INR]. rewrite <- IZR_Zpower by lia. rewrite <- pow_IZR. reflexivity. }
    assert (Hj : (Z.of_nat j <= prec)%Z) by (apply (le_bpow radix2); now rewrite <- EI).
    assert (E1 : rnd (/ INR n) = / INR n).
    { apply rnd_id; try assumption. rewrite EI, <- bpow_opp. apply format_bpow; try assumption. lia. }
    rewrite E1, Ec. unfold Rdiv. apply rnd_id; try assumption.
    destruct (Rle_lt_or_eq_dec _ _ (proj2 M')) as [Lt|Eq].
    + rewrite EI, <- bpow_opp. apply generic_format_FLT. exists (Float radix2 m (- Z.of_nat j)).
      * reflexivity.
      * cbn. apply lt_IZR. rewrite abs_IZR, Rabs_pos_eq by tauto. replace (IZR (2 ^ prec)) with (bpow radix2 prec); [lra|]. rewrite <- IZR_Zpower by lia. reflexivity.
      * cbn. unfold SpecFloat.emin. lia.
    + rewrite Eq, Rinv_r by lra. now apply format_1.
Qed.
End FC.
