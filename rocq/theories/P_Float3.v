(** The axis-aligned cube in floating point: the components computed by the loops, and the volume. *)
From Coq Require Import PeanoNat NArith ZArith Bool List Reals Lra Lia.
From Flocq Require Import Core Relative Plus_error Sterbenz Mult_error IEEE754.BinarySingleNaN.
From Verif Require Import M_Type M_RefTopo M_RefGeo M_Matrix M_Affine M_Float P_Matrix P_AACube P_Float P_Float2.
Import ListNotations.
Local Open Scope R_scope.

Section FP.
Variables (prec emax : Z).
Context (Hp : Prec_gt_0 prec) (He : Prec_lt_emax prec emax).
Notation float := (binary_float prec emax).
Notation fexp := (SpecFloat.fexp prec emax).
Notation rnd := (round radix2 fexp (round_mode mode_NE)).
Notation u := (bpow radix2 (- prec)).
Notation add := (fadd prec emax Hp He).
Notation sub := (fsub prec emax Hp He).
Notation mul := (fmul prec emax Hp He).
Notation div := (fdiv prec emax Hp He).
Notation upd := (fupd prec emax).
Notation lower := (fc_lower prec emax).
Notation upper := (fc_upper prec emax).
Notation axes_ := (fc_axes prec emax).

Lemma fupd_eq : forall v k (x : float), upd v k x k = x.
Proof. intros. unfold fupd. now rewrite Nat.eqb_refl. Qed.
Lemma fupd_ne : forall v k j (x : float), j <> k -> upd v k x j = v j.
Proof. intros v k j x H. unfold fupd. now destruct (Nat.eqb_spec j k). Qed.

Lemma ffill_vec : forall (f : nat -> float) n v i,
  forN n (fun i r => upd r i (f i)) v i = if Nat.ltb i n then f i else v i.
Proof.
  intros f n v i. induction n; cbn [forN]; [reflexivity|]. unfold fupd at 1. rewrite IHn.
  destruct (Nat.eqb_spec i n) as [->|N].
  - now rewrite (proj2 (Nat.ltb_lt n (S n))) by lia.
  - destruct (Nat.ltb_spec i n), (Nat.ltb_spec i (S n)); try lia; reflexivity.
Qed.
Lemma fslow_vec (axes : nat -> bool) (f : nat -> nat -> float) (h : nat -> float) n v :
  let s := forN n (fun i '(lc, result) => if axes i then (S lc, upd result i (f i lc)) else (lc, upd result i (h i))) (O, v) in
  fst s = bcount n axes /\ forall i, snd s i = if Nat.ltb i n then (if axes i then f i (bcount i axes) else h i) else v i.
Proof.
  induction n; cbn [forN]; cbv zeta; [split; reflexivity|].
  cbv zeta in IHn. destruct (forN n _ (O, v)) as [lc r]. simpl in IHn. destruct IHn as [-> H].
  simpl. destruct (axes n) eqn:E; simpl; (split; [lia|]); intro i; unfold fupd;
  destruct (Nat.eqb_spec i n).
  1,3: subst; rewrite (proj2 (Nat.ltb_lt n (S n))), E by lia; reflexivity.
  all: rewrite H; destruct (Nat.ltb_spec i n), (Nat.ltb_spec i (S n)); try lia; reflexivity.
Qed.
Lemma fslow_local (axes : nat -> bool) (f : nat -> float) n v :
  let s := forN n (fun i '(lc, result) => if axes i then (S lc, upd result lc (f i)) else (lc, result)) (O, v) in
  fst s = bcount n axes /\ (forall i, (i < n)%nat -> axes i = true -> snd s (bcount i axes) = f i).
Proof.
  induction n; cbn [forN]; cbv zeta; [split; [reflexivity|intros; lia]|].
  cbv zeta in IHn. destruct (forN n _ (O, v)) as [lc r]. simpl in IHn. destruct IHn as [-> H].
  simpl. destruct (axes n) eqn:E; simpl; (split; [lia|]); intros i Hi A.
  - destruct (Nat.eq_dec i n); [subst; apply fupd_eq|]. rewrite fupd_ne; [apply H; auto; lia|].
    assert (Q := bcount_lt axes i n ltac:(lia) A). lia.
  - destruct (Nat.eq_dec i n); [congruence|]. apply H; auto; lia.
Qed.

(** what the constructors establish *)
Record fac_wf (dim cd : nat) (g : AACubeF prec emax) : Prop := {
  fw_count : bcount cd (axes_ g) = dim;
  fw_flat : dim = 0%nat \/ forall i, (i < cd)%nat -> axes_ g i = false -> upper g i = lower g i }.

Section WF.
Variables (dim cd : nat) (g : AACubeF prec emax).
Hypothesis W : fac_wf dim cd g.
Let axes := axes_ g.

Lemma fwf_rank i : (i < cd)%nat -> axes i = true -> (bcount i axes < dim)%nat.
Proof. intros Hi A. rewrite <- (fw_count _ _ _ W). now apply bcount_lt. Qed.

Lemma fglobal_spec x i : (i < cd)%nat ->
  fac_global prec emax Hp He dim cd g x i
  = if axes i then axis_global prec emax Hp He (lower g i) (upper g i) (x (bcount i axes)) else lower g i.
Proof.
  intro Hi. unfold fac_global, axis_global. destruct (Nat.eqb_spec dim cd).
  - rewrite (ffill_vec (fun i => add (lower g i) (mul (x i) (sub (upper g i) (lower g i))))), (proj2 (Nat.ltb_lt i cd)) by assumption.
    assert (F : bcount cd axes = cd) by (rewrite <- e at 2; apply (fw_count _ _ _ W)).
    rewrite (bcount_full axes cd F i Hi), (bcount_full_id axes cd F i) by lia. reflexivity.
  - destruct (Nat.eqb_spec dim 0).
    + rewrite (bcount_zero axes cd); auto. rewrite <- e. apply (fw_count _ _ _ W).
    + destruct (fslow_vec axes (fun i lc => add (lower g i) (mul (x lc) (sub (upper g i) (lower g i)))) (lower g) cd
        (fvzero prec emax)) as [_ H].
      unfold axes in *. rewrite H, (proj2 (Nat.ltb_lt i cd)) by assumption. reflexivity.
Qed.
Lemma fcorner_spec k i : (i < cd)%nat ->
  fac_corner prec emax dim cd g k i = if axes i then (if Nat.testbit k (bcount i axes) then upper g i else lower g i) else lower g i.
Proof.
  intro Hi. unfold fac_corner. destruct (Nat.eqb_spec dim cd).
  - rewrite (ffill_vec (fun i => if Nat.testbit k i then upper g i else lower g i)), (proj2 (Nat.ltb_lt i cd)) by assumption.
    assert (F : bcount cd axes = cd) by (rewrite <- e at 2; apply (fw_count _ _ _ W)).
    rewrite (bcount_full axes cd F i Hi), (bcount_full_id axes cd F i) by lia. reflexivity.
  - destruct (Nat.eqb_spec dim 0).
    + rewrite (bcount_zero axes cd); auto. rewrite <- e. apply (fw_count _ _ _ W).
    + destruct (fslow_vec axes (fun i lc => if Nat.testbit k lc then upper g i else lower g i) (lower g) cd
        (fvzero prec emax)) as [_ H].
      unfold axes in *.
      match goal with |- snd ?a i = _ => match type of H with forall _, snd ?b _ = _ => replace a with b end end.
      * rewrite H, (proj2 (Nat.ltb_lt i cd)) by assumption. reflexivity.
      * apply forN_ext. intros j [lc r] _. destruct (axes_ g j); reflexivity.
Qed.
Lemma flocal_spec y i : (i < cd)%nat -> axes i = true ->
  fac_local prec emax Hp He dim cd g y (bcount i axes) = axis_local prec emax Hp He (lower g i) (upper g i) (y i).
Proof.
  intros Hi A. assert (R := fwf_rank i Hi A). unfold fac_local, axis_local. destruct (Nat.eqb_spec dim cd).
  - assert (F : bcount cd axes = cd) by (rewrite <- e at 2; apply (fw_count _ _ _ W)).
    rewrite (bcount_full_id axes cd F i) by lia.
    rewrite (ffill_vec (fun i => div (sub (y i) (lower g i)) (sub (upper g i) (lower g i)))), (proj2 (Nat.ltb_lt i dim)) by lia. reflexivity.
  - destruct (Nat.eqb_spec dim 0); [lia|]. cbn [negb].
    destruct (fslow_local axes (fun i => div (sub (y i) (lower g i)) (sub (upper g i) (lower g i))) cd (fvzero prec emax)) as [_ H].
    now apply H.
Qed.
Lemma fcenter_spec i : (i < cd)%nat -> dim <> 0%nat ->
  fac_center prec emax Hp He dim cd g i = mul (fhalf prec emax Hp He) (add (lower g i) (upper g i)).
Proof.
  intros Hi N. unfold fac_center. destruct (Nat.eqb_spec dim 0); [contradiction|].
  now rewrite (ffill_vec (fun i => mul (fhalf prec emax Hp He) (add (lower g i) (upper g i)))), (proj2 (Nat.ltb_lt i cd)) by assumption.
Qed.
Definition fprod (n : nat) : float :=
  forN n (fun i v => if axes i then mul v (sub (upper g i) (lower g i)) else v) (ofZ prec emax Hp He 1).
Lemma fvolume_spec : fac_volume prec emax Hp He dim cd g = fprod cd.
Proof.
  unfold fac_volume, fprod. destruct (Nat.eqb_spec dim cd).
  - assert (F : bcount cd axes = cd) by (rewrite <- e at 2; apply (fw_count _ _ _ W)).
    rewrite e. apply forN_ext. intros i s Hi. now rewrite (bcount_full axes cd F i Hi).
  - destruct (Nat.eqb_spec dim 0); cbn [negb]; [|reflexivity].
    assert (Z := bcount_zero axes cd). rewrite e in *. specialize (Z (fw_count _ _ _ W)).
    clear -Z. induction cd; cbn [forN]; [reflexivity|]. rewrite Z by lia. apply IHn. intros; apply Z; lia.
Qed.

(** ** the volume *)
Hypothesis H2 : (2 <= prec)%Z.
Let width i := B2R (upper g i) - B2R (lower g i).
(** the exact volume of the first n directions *)
Definition xprod (n : nat) : R := forN n (fun i v => if axes i then v * width i else v) 1.
Hypothesis Fin : forall i, (i < cd)%nat -> axes i = true -> is_finite (lower g i) = true /\ is_finite (upper g i) = true.
Hypothesis Bnd : forall i, (i < cd)%nat -> axes i = true ->
  Rabs (B2R (lower g i)) <= bpow radix2 (emax - 3) /\ Rabs (B2R (upper g i)) <= bpow radix2 (emax - 3).
Hypothesis Pos : forall i, (i < cd)%nat -> axes i = true -> B2R (lower g i) < B2R (upper g i).
Hypothesis Rng : forall n, (n <= cd)%nat -> bpow radix2 (3 - emax) <= xprod n <= bpow radix2 (emax - 2).
Hypothesis Acc : (1 + u) ^ (2 * dim) <= 2 /\ / 2 <= (1 - u) ^ (2 * dim).

Lemma pow_anti : forall a n m, 0 < a <= 1 -> (n <= m)%nat -> a ^ m <= a ^ n.
Proof.
  intros a n m A H. induction H; [lra|]. cbn [pow]. assert (0 < a ^ m) by (apply pow_lt; lra). nra.
Qed.
Lemma vol_gen : forall n, (n <= cd)%nat ->
  is_finite (fprod n) = true /\
  exists F, B2R (fprod n) = xprod n * F /\ (1 - u) ^ (2 * bcount n axes) <= F <= (1 + u) ^ (2 * bcount n axes).
Proof.
  pose proof (u_pos prec) as U. pose proof (u_half prec H2) as U4.
  induction n as [|n IH]; intros Hn.
  { destruct (ofZ_1 prec emax Hp He H2) as (O1 & O2). split; [exact O2|]. exists 1.
    split; [unfold fprod, xprod; cbn [forN]; rewrite O1; ring|cbn; lra]. }
  destruct (IH ltac:(lia)) as (IF & F & I1 & I2). clear IH.
  assert (Bc : (bcount (S n) axes <= dim)%nat).
  { rewrite <- (fw_count _ _ _ W). apply bcount_mono. exact Hn. }
  pose proof (Rng (S n) Hn) as R. 
  unfold fprod, xprod in *. cbn [forN bcount] in *. destruct (axes n) eqn:A.
  2: { split; [exact IF|]. exists F. replace (bcount n axes + 0)%nat with (bcount n axes) by lia. auto. }
  destruct (Fin n Hn A) as (Fl & Fr). destruct (Bnd n Hn A) as (Bl & Br). pose proof (Pos n Hn A) as P.
  set (l := lower g n) in *. set (r := upper g n) in *.
  destruct (W_ok prec emax Hp He H2 l r Fl Fr Bl Br (Rlt_le _ _ P)) as (W1 & W2).
  destruct (W_rel prec emax Hp He H2 l r Fl Fr Bl Br (Rlt_le _ _ P)) as (e & E & W3).
  set (V := forN n _ (ofZ prec emax Hp He 1)) in *. set (Q := forN n _ 1) in *.
  fold (width n) in R.
  assert (Ev : B2R V * B2R (sub r l) = Q * width n * (F * (1 + e))).
  { rewrite I1, W3. unfold width. fold l r. ring. }
  pose proof (Rabs_le_inv _ _ E) as E'.
  set (k := bcount n axes) in *.
  assert (Hk : forall a, a ^ (2 * (k + 1)) = a ^ (2 * k) * a * a).
  { intros a. replace (2 * (k + 1))%nat with (S (S (2 * k))) by lia. cbn [pow]. ring. }
  assert (PF : 0 < (1 - u) ^ (2 * k)) by (apply pow_lt; lra).
  assert (B1 : (1 - u) ^ (2 * k) * (1 - u) <= F * (1 + e) <= (1 + u) ^ (2 * k) * (1 + u)).
  { split; apply Rmult_le_compat; lra. }
  assert (Lo : / 2 <= (1 - u) ^ (2 * (k + 1))).
  { eapply Rle_trans; [apply Acc|]. apply pow_anti; [lra|lia]. }
  assert (Hi : (1 + u) ^ (2 * (k + 1)) <= 2).
  { eapply Rle_trans; [|apply Acc]. apply Rle_pow; [lra|lia]. }
  rewrite Hk in Lo, Hi.
  assert (M1 : / 2 <= F * (1 + e)).
  { eapply Rle_trans; [|apply B1]. assert (0 < (1 - u) ^ (2 * k) * (1 - u)) by (apply Rmult_lt_0_compat; lra). nra. }
  assert (PU : 0 < (1 + u) ^ (2 * k)) by (apply pow_lt; lra).
  assert (M2 : F * (1 + e) <= 2).
  { eapply Rle_trans; [apply B1|]. assert (0 < (1 + u) ^ (2 * k) * (1 + u)) by (apply Rmult_lt_0_compat; lra). nra. }
  assert (E3 : bpow radix2 (3 - emax) = 2 * bpow radix2 (2 - emax)).
  { replace (3 - emax)%Z with (1 + (2 - emax))%Z by lia. now rewrite bpow_plus. }
  assert (E4 : bpow radix2 (emax - 1) = 2 * bpow radix2 (emax - 2)).
  { replace (emax - 1)%Z with (1 + (emax - 2))%Z by lia. now rewrite bpow_plus. }
  pose proof (bpow_gt_0 radix2 (2 - emax)) as P0.
  assert (PQ : 0 < Q * width n) by lra.
  assert (Pv : 0 <= B2R V * B2R (sub r l)) by (rewrite Ev; apply Rmult_le_pos; lra).
  destruct (mul_ok prec emax Hp He H2 V (sub r l) IF W2) as (M3 & M4).
  { rewrite Rabs_pos_eq by exact Pv. rewrite Ev, E4.
    apply Rle_trans with (bpow radix2 (emax - 2) * 2); [|lra]. apply Rmult_le_compat; lra. }
  split; [exact M4|].
  destruct (rel_normal prec emax Hp (B2R V * B2R (sub r l))) as (e' & E5 & N).
  { rewrite Rabs_pos_eq by exact Pv. rewrite Ev. 
    apply Rle_trans with (bpow radix2 (3 - emax) * / 2); [lra|]. 
    pose proof (bpow_gt_0 radix2 (3 - emax)). apply Rmult_le_compat; lra. }
  apply Rabs_le_inv in E5. exists (F * (1 + e) * (1 + e')).
  split; [rewrite M3, N, Ev; ring|]. rewrite !Hk.
  assert (0 < (1 - u) ^ (2 * k) * (1 - u)) by (apply Rmult_lt_0_compat; lra).
  split; apply Rmult_le_compat; lra.
Qed.
End WF.
End FP.
