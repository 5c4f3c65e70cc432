(** C68: affine() in IEEE arithmetic on corners with integer coordinates. *)
From Coq Require Import PeanoNat NArith ZArith Lia Bool List Reals Lra.
From Flocq Require Import Core IEEE754.BinarySingleNaN.
From Verif Require Import M_Type M_RefTopo M_RefGeo M_Matrix M_MultiLinear M_Float M_FloatGlobal S_Topo S_MultiLinear
  P_RefTopo P_RSum P_RefGeo2 P_ML1 P_ML2 P_ML3 P_ML4 P_Float P_FloatGlobal2.
Import ListNotations.
Local Open Scope R_scope.

Section A.
Variables (prec emax : Z).
Context (Hp : Prec_gt_0 prec) (He : Prec_lt_emax prec emax).
Hypothesis H6 : (6 <= prec)%Z.
Notation float := (binary_float prec emax).
Notation FVec := (nat -> float).
Notation FMat := (nat -> nat -> float).
Notation fexp := (SpecFloat.fexp prec emax).
Notation rnd := (round radix2 fexp (round_mode mode_NE)).
Notation u := (bpow radix2 (- prec)).
Notation add' := (fadd prec emax Hp He).
Notation sub' := (fsub prec emax Hp He).
Notation mul' := (fmul prec emax Hp He).
Notation zero := (ofZ prec emax Hp He 0).
Notation tol' := (ftol prec emax Hp He).
Notation is := (is prec emax).
Local Instance vexpA : Valid_exp fexp := fexp_correct prec emax Hp.

(** a float that is an integer below 2^m *)
Definition intB (m : Z) (a : float) (v : R) : Prop := is a v /\ exists z, v = IZR z /\ (Z.abs z < 2 ^ m)%Z.

Lemma int_format z : (Z.abs z < 2 ^ prec)%Z -> rnd (IZR z) = IZR z /\ Rabs (IZR z) < bpow radix2 emax.
Proof.
  intros H. pose proof (prec_emax prec emax He) as Q. split.
  - apply round_generic; [typeclasses eauto|]. change fexp with (FLT_exp (SpecFloat.emin prec emax) prec).
    apply generic_format_FLT. exists (Float radix2 z 0); [unfold F2R; cbn [Fnum Fexp]; cbn [bpow]; ring|exact H|].
    cbn [Fexp]. unfold SpecFloat.emin. lia.
  - rewrite <- abs_IZR. apply Rlt_trans with (IZR (2 ^ prec)); [now apply IZR_lt|].
    change 2%Z with (radix_val radix2). rewrite IZR_Zpower by lia. apply bpow_lt. lia.
Qed.
Lemma int_sub m a b v w : (0 <= m < prec)%Z -> intB m a v -> intB m b w -> intB (m + 1) (sub' a b) (v - w).
Proof.
  intros Hm ((Fa & Ea) & x & -> & Hx) ((Fb & Eb) & y & -> & Hy).
  assert (B : (Z.abs (x - y) < 2 ^ (m + 1))%Z) by (rewrite Z.pow_add_r by lia; lia).
  assert (B' : (2 ^ (m + 1) <= 2 ^ prec)%Z) by (apply Z.pow_le_mono_r; lia).
  destruct (int_format (x - y) ltac:(lia)) as (G & O). pose proof (Bminus_correct prec emax Hp He mode_NE a b Fa Fb) as C.
  rewrite Ea, Eb, <- minus_IZR, G, Rlt_bool_true in C by exact O. destruct C as (C1 & C2 & _).
  split; [split; [exact C2|]|exists (x - y)%Z; split; [apply eq_sym, minus_IZR|exact B]]. unfold fsub. now rewrite C1, minus_IZR.
Qed.

(** sums of squares of integers: zero, or at least the tolerance *)
Definition big (a : float) : Prop := a = B754_infinity false \/ (is_finite a = true /\ 32 * u <= B2R a).
Definition rel (a : float) (r : R) : Prop := (is a 0 /\ r = 0) \/ (big a /\ 1 <= r).

Lemma tol_lt1 : 32 * u <= 1.
Proof. replace 32 with (bpow radix2 5) by reflexivity. rewrite <- bpow_plus. change 1 with (bpow radix2 0). apply bpow_le. lia. Qed.
Lemma rnd_tol x : 32 * u <= x -> 32 * u <= rnd x.
Proof.
  intros H. destruct (is_tol prec emax Hp He ltac:(lia) H6) as (F & V). rewrite <- (rnd_id prec emax (32 * u)).
  - now apply round_le; [typeclasses eauto..|].
  - rewrite <- V. apply generic_format_B2R.
Qed.
Lemma sign_pos (a : float) : is_finite a = true -> 0 < B2R a -> Bsign a = false.
Proof.
  intros F P. destruct a as [s|s| |s m e He']; cbn in *; try discriminate; [lra|]. destruct s; [|reflexivity].
  exfalso. revert P. apply Rle_not_lt. apply F2R_le_0. cbn. lia.
Qed.
Lemma over_inf (a : float) s : B2SF a = binary_overflow prec emax mode_NE s -> a = B754_infinity s.
Proof. intros E. destruct a as [|s'| |]; cbn in E; try discriminate. now injection E as ->. Qed.

Lemma big_add_fin a b : is_finite a = true -> is_finite b = true -> 32 * u <= B2R a + B2R b -> 0 < B2R b -> big (add' a b).
Proof.
  intros Fa Fb S Pb. pose proof (Bplus_correct prec emax Hp He mode_NE a b Fa Fb) as C. destruct (Rlt_bool_spec (Rabs (rnd (B2R a + B2R b))) (bpow radix2 emax)).
  - destruct C as (C1 & C2 & _). right. split; [exact C2|]. unfold fadd. rewrite C1. now apply rnd_tol.
  - destruct C as (C1 & C2). left. apply over_inf. unfold fadd. rewrite C1, C2. f_equal. now apply sign_pos.
Qed.
Lemma rel_zero : rel zero 0.
Proof. left. split; [now apply is_zero|reflexivity]. Qed.
Lemma rel_add a b r s : rel a r -> rel b s -> rel (add' a b) (r + s).
Proof.
  pose proof (bpow_gt_0 radix2 (- prec)) as U. intros [((Fa & Ea) & ->)|[Ba Hr]] [((Fb & Eb) & ->)|[Bb Hs]].
  - left. split; [|ring]. apply (add_exact prec emax Hp He _ _ 0 0 zero 0); try (split; assumption); [now apply is_zero|ring].
  - right. split; [|lra]. destruct Bb as [-> |(Fb & Lb)]; [destruct a; try discriminate; left; reflexivity|].
    apply big_add_fin; auto; lra.
  - right. split; [|lra]. destruct Ba as [-> |(Fa & La)]; [destruct b; try discriminate; left; reflexivity|].
    pose proof (Bplus_correct prec emax Hp He mode_NE a b Fa Fb) as C. rewrite Eb, Rplus_0_r in C.
    rewrite rnd_id in C by apply generic_format_B2R. rewrite Rlt_bool_true in C by apply abs_B2R_lt_emax. destruct C as (C1 & C2 & _).
    right. split; [exact C2|]. unfold fadd. now rewrite C1.
  - right. split; [|lra]. destruct Ba as [-> |(Fa & La)], Bb as [-> |(Fb & Lb)]; [left; reflexivity|destruct b; try discriminate; left; reflexivity
      |destruct a; try discriminate; left; reflexivity|]. apply big_add_fin; auto; lra.
Qed.
Lemma rel_sq a v : intB prec a v -> rel (mul' a a) (v * v).
Proof.
  intros ((Fa & Ea) & z & -> & Hz). destruct (Z.eq_dec z 0) as [-> |N].
  - left. split; [|ring]. apply (mul_exact prec emax Hp He _ _ 0 0 zero 0); try (split; assumption); [now apply is_zero|ring].
  - right. assert (L : 1 <= IZR z * IZR z) by (rewrite <- mult_IZR; apply IZR_le; nia). split; [|exact L].
    pose proof (Bmult_correct prec emax Hp He mode_NE a a) as C. rewrite Ea in C.
    destruct (Rlt_bool_spec (Rabs (rnd (IZR z * IZR z))) (bpow radix2 emax)).
    + destruct C as (C1 & C2 & _). right. split; [unfold fmul; now rewrite C2, Fa|]. unfold fmul. rewrite C1. apply rnd_tol.
      pose proof tol_lt1. lra.
    + left. apply over_inf. unfold fmul. rewrite C. now rewrite xorb_nilpotent.
Qed.
Lemma rel_test a r tol : 0 < tol <= 1 -> rel a r -> Bleb tol' a = negb (Rltb r tol).
Proof.
  intros Ht [((Fa & Ea) & ->)|[[-> |(Fa & La)] Hr]]; destruct (is_tol prec emax Hp He ltac:(lia) H6) as (F & V); unfold Rltb.
  - rewrite Bleb_correct, V, Ea by assumption. pose proof (bpow_gt_0 radix2 (- prec)). rewrite Rle_bool_false by lra.
    destruct (Rlt_dec 0 tol); [reflexivity|lra].
  - destruct (Rlt_dec r tol); [lra|]. destruct tol'; try discriminate; reflexivity.
  - rewrite Bleb_correct, V by assumption. rewrite Rle_bool_true by exact La. destruct (Rlt_dec r tol); [lra|reflexivity].
Qed.

Variables (cdim : nat) (tid : N) (mydim : nat) (tol : R).
Hypothesis Ht : 0 < tol <= 1.

Lemma rel_norm2 (x : FVec) (v : Vec) : (forall k, (k < cdim)%nat -> intB prec (x k) (v k)) ->
  rel (fnorm2 prec emax Hp He cdim x) (norm2 cdim v).
Proof.
  unfold fnorm2, norm2. induction cdim as [|n IH]; intros H; cbn [forN rsum]; [apply rel_zero|].
  apply rel_add; [apply IH; auto|apply rel_sq; auto].
Qed.
Lemma rel_norm d (x : FMat) (v : Mat) : (forall i k, (i < d)%nat -> (k < cdim)%nat -> intB prec (x i k) (v i k)) ->
  rel (forN d (fun i norm => add' norm (fnorm2 prec emax Hp He cdim (x i))) zero) (forN d (fun i norm => norm + norm2 cdim (v i)) 0).
Proof.
  induction d as [|d IH]; intros H; cbn [forN]; [apply rel_zero|]. apply rel_add; [apply IH; auto|apply rel_norm2; auto].
Qed.

Notation cornerOk := (fun (c : FVec) (v : Vec) => forall k, (k < cdim)%nat -> intB (prec - 2) (c k) (v k)).

(** the tests run in step *)
Lemma affine_sim jk rk : forall dim cit rcit jt rt, Forall2 cornerOk cit rcit ->
  match fml_affine prec emax Hp He cdim tid mydim jk dim cit jt, ml_affine cdim tol tid mydim rk dim rcit rt with
  | None, None => True
  | Some (b, cit', jt'), Some (b', rcit', rt') => b = b' /\ Forall2 cornerOk cit' rcit' /\
      (b = true -> forall i k, (i < dim)%nat -> (k < cdim)%nat -> intB (prec - 1) (jt' i k) (rt' i k))
  | _, _ => False
  end.
Proof.
  induction dim as [|d IH]; intros cit rcit jt rt H.
  - destruct H as [|c v cit rcit Hc H]; [exact I|]. cbn. split; [reflexivity|]. split; [exact H|]. intros _ i k Hi. lia.
  - cbn [fml_affine ml_affine]. destruct H as [|o w cit rcit Ho H]; [exact I|].
    assert (HH : Forall2 cornerOk (o :: cit) (w :: rcit)) by (constructor; assumption).
    pose proof (IH _ _ jt rt HH) as B. destruct (fml_affine _ _ _ _ _ _ _ _ d (o :: cit) jt) as [[[b c1] m1]|], (ml_affine _ _ _ _ _ d (w :: rcit) rt) as [[[b' c2] m2]|];
      try (exfalso; exact B); [|exact I]. destruct B as (<- & HC & HM). cbn [obind]. destruct b; cbn [negb]; [|split; [reflexivity|split; [exact HC|discriminate]]].
    specialize (HM eq_refl).
    assert (L : forall (t : FVec) (r : Vec), cornerOk t r -> forall i k, (i < S d)%nat -> (k < cdim)%nat ->
      intB (prec - 1) (fmrow prec emax m1 d (fset prec emax cdim (fun k => sub' (t k) (o k)) (m1 d)) i k) (mrow m2 d (vset cdim (fun k => r k - w k) (m2 d)) i k)).
    { intros t r Hc i k Hi Hk. unfold fmrow, mrow. destruct (Nat.eqb_spec i d) as [-> |N].
      - unfold fset, vset. destruct (Nat.ltb_spec k cdim); [|lia]. replace (prec - 1)%Z with (prec - 2 + 1)%Z by lia. apply int_sub; [lia|now apply Hc|now apply Ho].
      - apply HM; lia. }
    inversion HC as [|t r c1' c2' Hc HC' E1 E2]; subst; [exact I|].
    destruct (isPrism tid mydim (mydim - S d)).
    + pose proof (IH _ _ jk rk HC) as T. destruct (fml_affine _ _ _ _ _ _ _ _ d (t :: c1') jk) as [[[b c3] m3]|], (ml_affine _ _ _ _ _ d (r :: c2') rk) as [[[b' c4] m4]|];
        try (exfalso; exact T); [|exact I]. destruct T as (<- & HC3 & HM3). cbn [obind]. destruct b; cbn [negb]; [|split; [reflexivity|split; [exact HC3|discriminate]]].
      specialize (HM3 eq_refl).
      assert (R : rel (forN d (fun i norm => add' norm (fnorm2 prec emax Hp He cdim (fun k => sub' (m3 i k) (m1 i k)))) zero)
                      (forN d (fun i norm => norm + norm2 cdim (fun k => m4 i k - m2 i k)) 0)).
      { apply (rel_norm d (fun i k => sub' (m3 i k) (m1 i k)) (fun i k => m4 i k - m2 i k)). intros i k Hi Hk.
        pose proof (int_sub (prec - 1) _ _ _ _ ltac:(lia) (HM3 i k Hi Hk) (HM i k Hi Hk)) as D. now replace (prec - 1 + 1)%Z with prec in D by lia. }
      rewrite (rel_test _ _ _ Ht R). destruct (negb _); (split; [reflexivity|split; [exact HC3|]]); [discriminate|]. intros _. now apply L.
    + split; [reflexivity|split; [exact HC'|]]. intros _. now apply L.
Qed.

(** ** corners of an exact affine image *)
(** zero or not a number: such a norm is not above the tolerance *)
Definition zn (a : float) : Prop := is_nan a = true \/ is a 0.
Lemma zn_zero : zn zero.
Proof. right. now apply is_zero. Qed.
Lemma zn_add a b : zn a -> zn b -> zn (add' a b).
Proof.
  intros [Na|Za] Hb; [left; destruct a; try discriminate; reflexivity|]. destruct Hb as [Nb|Zb].
  - left. destruct b; try discriminate. destruct a; reflexivity.
  - right. apply (add_exact prec emax Hp He _ _ 0 0 zero 0); try assumption; [now apply is_zero|ring].
Qed.
Lemma zn_sq a : zn a -> zn (mul' a a).
Proof.
  intros [Na|Za]; [left; destruct a; try discriminate; reflexivity|]. right.
  apply (mul_exact prec emax Hp He _ _ 0 0 zero 0); try assumption; [now apply is_zero|ring].
Qed.
Lemma zn_test a : zn a -> Bleb tol' a = false.
Proof.
  destruct (is_tol prec emax Hp He ltac:(lia) H6) as (F & V). intros [Na|(Fa & Ea)].
  - destruct a; try discriminate. destruct tol' as [|[]| |]; reflexivity.
  - rewrite Bleb_correct, V, Ea by assumption. pose proof (bpow_gt_0 radix2 (- prec)). apply Rle_bool_false. lra.
Qed.
(** equal differences are rounded to the same number *)
Lemma zn_diff a b c d : is_finite a = true -> is_finite b = true -> is_finite c = true -> is_finite d = true -> B2R a - B2R b = B2R c - B2R d ->
  zn (sub' (sub' a b) (sub' c d)).
Proof.
  intros Fa Fb Fc Fd E. pose proof (Bminus_correct prec emax Hp He mode_NE a b Fa Fb) as C. pose proof (Bminus_correct prec emax Hp He mode_NE c d Fc Fd) as D.
  rewrite <- E in D. change (Bminus mode_NE a b) with (sub' a b) in C. change (Bminus mode_NE c d) with (sub' c d) in D.
  set (x := rnd (B2R a - B2R b)) in *. destruct (Rlt_bool_spec (Rabs x) (bpow radix2 emax)) as [L|L].
  - destruct C as (C1 & C2 & _), D as (D1 & D2 & _). right.
    apply (sub_exact prec emax Hp He _ _ x x zero 0); [split; assumption|split; assumption|now apply is_zero|ring].
  - left. destruct C as (C1 & C2), D as (D1 & D2). apply over_inf in C1, D1. rewrite C1, D1.
    assert (S : Bsign a = Bsign c); [|rewrite S; destruct (Bsign c); reflexivity].
    assert (X : forall p q : float, is_finite p = true -> is_finite q = true -> Bsign p = negb (Bsign q) -> if Bsign p then B2R p - B2R q <= 0 else 0 <= B2R p - B2R q).
    { intros p q Fp Fq Sg.
      assert (Y : forall z : float, is_finite z = true -> if Bsign z then B2R z <= 0 else 0 <= B2R z).
      { intros z Fz. destruct z as [[]|[]| |[] m e B]; cbn in *; try discriminate; try lra; [apply F2R_le_0|apply F2R_ge_0]; cbn; lia. }
      pose proof (Y p Fp) as Yp. pose proof (Y q Fq) as Yq. destruct (Bsign p), (Bsign q); try discriminate; lra. }
    pose proof (X a b Fa Fb C2) as X1. pose proof (X c d Fc Fd D2) as X2. rewrite <- E in X2.
    destruct (Bsign a), (Bsign c); try reflexivity; exfalso;
      assert (Z : B2R a - B2R b = 0) by lra; unfold x in L; rewrite Z, round_0, Rabs_R0 in L by typeclasses eauto; pose proof (bpow_gt_0 radix2 emax); lra.
Qed.
Lemma zn_norm d (x : FMat) : (forall i k, (i < d)%nat -> (k < cdim)%nat -> zn (x i k)) ->
  zn (forN d (fun i norm => add' norm (fnorm2 prec emax Hp He cdim (x i))) zero).
Proof.
  induction d as [|d IH]; intros H; cbn [forN]; [apply zn_zero|]. apply zn_add; [apply IH; auto|]. unfold fnorm2. specialize (H d). clear IH.
  induction cdim as [|n IHn]; cbn [forN]; [apply zn_zero|]. apply zn_add; [apply IHn; auto|apply zn_sq; auto].
Qed.

Notation Tt := (lt tid).
Notation val := (fun (c : FVec) => (fun k => B2R (c k)) : Vec).
Lemma exact_affine jk (fz : FVec) : forall dim cit jt o M, (dim <= mydim)%nat -> (nv (Tt dim) <= length cit)%nat ->
  (forall i k, (i < nv (Tt dim))%nat -> (k < cdim)%nat -> is_finite (nth i cit fz k) = true) ->
  aff_image cdim tid dim (fun i => val (nth i cit fz)) o M ->
  exists jt', fml_affine prec emax Hp He cdim tid mydim jk dim cit jt = Some (true, skipn (nv (Tt dim)) cit, jt') /\
    forall j k, (j < dim)%nat -> (k < cdim)%nat -> jt' j k = sub' (nth (nv (Tt j)) cit fz k) (nth 0 cit fz k).
Proof.
  induction dim as [|d IH]; intros cit jt o M Hd Hl HF HA.
  - change (Tt 0) with Pt in *. cbn [nv] in *. destruct cit as [|c cit]; [simpl in Hl; lia|]. exists jt. split; [reflexivity|lia].
  - destruct (image_S cdim tid d _ o M HA) as [A1 A2]. cbn [fml_affine]. rewrite isPrism_level by assumption. change (N.testbit (N.lor tid 1) (N.of_nat d)) with (bitp tid d).
    assert (TS : Tt (S d) = if bitp tid d then Pri (Tt d) else Pyr (Tt d)) by reflexivity. rewrite TS in *. assert (P := nv_pos (Tt d)).
    assert (Hl' : (nv (Tt d) < length cit)%nat) by (destruct (bitp tid d); cbn [nv] in Hl; lia).
    assert (HF1 : forall i k, (i < nv (Tt d))%nat -> (k < cdim)%nat -> is_finite (nth i cit fz k) = true)
      by (intros i k Hi Hk; apply HF; [destruct (bitp tid d); cbn [nv]; lia|exact Hk]).
    destruct (IH cit jt o M ltac:(lia) ltac:(lia) HF1 A1) as (j1 & E1 & V1).
    destruct cit as [|c0 cit0] eqn:EC; [simpl in Hl'; lia|]. rewrite <- EC in *. rewrite E1. cbn [obind negb].
    rewrite (skipn_cons cit fz) by assumption.
    assert (E0 : nth 0 cit fz = c0) by (rewrite EC; reflexivity).
    assert (LAST : forall j k, (j < S d)%nat -> (k < cdim)%nat ->
      fmrow prec emax j1 d (fset prec emax cdim (fun k => sub' (nth (nv (Tt d)) cit fz k) (c0 k)) (j1 d)) j k = sub' (nth (nv (Tt j)) cit fz k) (nth 0 cit fz k)).
    { intros j k Hj Hk. unfold fmrow. destruct (Nat.eqb_spec j d) as [-> |N].
      - unfold fset. destruct (Nat.ltb_spec k cdim); [now rewrite E0|lia].
      - apply V1; lia. }
    destruct (bitp tid d) eqn:B; cbn [nv] in *.
    + rewrite <- (skipn_cons cit fz) by assumption. specialize (A2 eq_refl).
      assert (N2 : forall i, nth i (skipn (nv (Tt d)) cit) fz = nth (nv (Tt d) + i) cit fz) by (intros i; apply nth_skipn).
      destruct (IH (skipn (nv (Tt d)) cit) jk (fun k => o k + M d k) M) as (j2 & E2 & V2); [lia|rewrite skipn_length; lia| | |].
      { intros i k Hi Hk. rewrite N2. apply HF; [lia|exact Hk]. }
      { intros i k Hi Hk. rewrite N2. exact (A2 i k Hi Hk). }
      rewrite E2. cbn [obind negb]. rewrite zn_test.
      * eexists. split; [now rewrite skipn_add|exact LAST].
      * apply (zn_norm d (fun i k => sub' (j2 i k) (j1 i k))). intros i k Hi Hk. rewrite V1, V2 by assumption. rewrite !N2, Nat.add_0_r.
        assert (Mn := nv_mono tid i d Hi). apply zn_diff; try (apply HF; [lia|exact Hk]).
        pose proof (image_edge cdim tid d _ _ M i k A1 Hi Hk) as G1. pose proof (image_edge cdim tid d _ _ M i k A2 Hi Hk) as G2.
        unfold edge, shift in G1, G2. cbv beta in G1, G2. rewrite Nat.add_0_r in G2. lra.
    + eexists. split; [now rewrite Nat.add_1_r|exact LAST].
Qed.
End A.
