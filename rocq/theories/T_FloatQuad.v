(** * C67  Quadrature rules in floating point *)
From Coq Require Import PeanoNat NArith ZArith QArith Qreals Bool List Reals Lra Lia.
From Flocq Require Import Core IEEE754.BinarySingleNaN.
From Verif Require Import M_Type M_TypeIndex M_RefTopo M_RefGeo M_Matrix M_Float M_QuadFactory M_Quadrature M_FloatQuad M_Tab M_TabSimplex
  S_Topo S_RefGeo S_Quad S_QuadND S_FloatQuad P_RSum P_Topo P_Float P_FloatNear P_FloatQuad P_FloatQuad2 P_FloatQuad3 P_QuadProd P_QuadFix P_QuadFixN P_QuadFactory P_QuadAll
  M_TabLobatto P_Refine9 T_Quad T_Float.
Import ListNotations.
Local Open Scope R_scope.

Section C67.
Variables (prec emax : Z).
Context (Hp : Prec_gt_0 prec) (He : Prec_lt_emax prec emax).
Notation float := (binary_float prec emax).
Notation u := (bpow radix2 (- prec)).

(** Vectors near the reference element are accepted: the tolerance of the member function has room
    for [128 - dim] units of rounding. *)
Theorem C67_near : (7 <= prec)%Z -> forall id dim (x : nat -> float) (y delta : nat -> R),
  in_hull dim (referenceCorners id dim) y ->
  (forall k, (k < dim)%nat -> is_finite (x k) = true /\ Rabs (B2R (x k) - y k) <= delta k) ->
  INR dim * u + Ssum dim delta < 128 * u ->
  re_checkInside prec emax Hp He id dim x = true.
Proof.
  intros H7 id dim x y delta Hy Hx L. apply (near_hull prec emax Hp He ltac:(lia) H7 id dim x y delta Hy Hx). exact L.
Qed.

Section Rules.
Hypothesis H2 : (2 <= prec)%Z.
Variable K : R.
Hypothesis HK : 0 <= K.
Variable e : R.
Variable lapack : Z -> nat -> option (list (R * R)).
Hypothesis Hl : lapackOk e lapack.
Variable lit : Q -> float.
Hypothesis Hlit : litOk prec emax K lit.
Variable lapackF : Z -> nat -> option (list (float * float)).
Hypothesis HlF : lapackFOk prec emax K lapack lapackF.
Hypothesis E2 : e <= / 10.
Notation quadRule := (M_Quadrature.quadRule lapack).
Notation quadRuleF := (M_FloatQuad.quadRuleF prec emax Hp He lit lapackF).
Notation c := (2 * K + 3).

Hypothesis E8 : (8 <= emax)%Z.
Notation fits := (S_FloatQuad.fits prec emax K).
Notation werr := (S_FloatQuad.werr prec K).
Notation perr := (S_FloatQuad.perr prec K).

Lemma bpow_INR k : bpow radix2 (Z.of_nat k) = 2 ^ k.
Proof. induction k as [|k IH]; [reflexivity|]. rewrite Nat2Z.inj_succ, <- Z.add_1_r, bpow_plus, IH. cbn. ring. Qed.
Lemma pow64 d : INR (64 ^ d) = bpow radix2 (6 * Z.of_nat d).
Proof.
  rewrite pow_INR. induction d as [|d IH]; [reflexivity|]. rewrite Nat2Z.inj_succ.
  replace (6 * Z.succ (Z.of_nat d))%Z with (6 + 6 * Z.of_nat d)%Z by lia. rewrite bpow_plus, <- IH. cbn [pow].
  replace (INR 64) with 64 by (rewrite INR_IZR_INZ; reflexivity). reflexivity.
Qed.
Lemma bern m x : 0 <= x -> 2 * INR m * x <= 1 -> (1 + x) ^ m - 1 <= 2 * INR m * x.
Proof.
  intros Hx. induction m as [|m IH]; [cbn; lra|]. rewrite S_INR. intros H. pose proof (pos_INR m) as P.
  assert (L : 2 * INR m * x <= 1) by nra. specialize (IH L). cbn [pow]. nra.
Qed.
Lemma fits_eta d : fits d -> INR (64 ^ d) * P_FloatNear.eta prec emax <= u.
Proof.
  intros (F & _). rewrite pow64. unfold P_FloatNear.eta. rewrite <- bpow_plus. apply bpow_le. lia.
Qed.
Lemma e_eps1 p qt : tableErr p qt <= e -> eps1 <= e.
Proof. intros HE. eapply Rle_trans; [apply tableErr_eps1|exact HE]. Qed.

Lemma same_gen r : valid r -> tableErr (rq_p r) (rq_qt r) <= e -> fits (rq_dim r) ->
  P_FloatQuad2.sameRule prec emax K (rq_dim r) (64 ^ rq_dim r) (factors (rq_dim r)) (massBound (rq_qt r) e ^ rq_dim r) (quadRule r) (quadRuleF r).
Proof.
  intros V HE F. pose proof (valid_inRange r V) as R. unfold M_Quadrature.quadRule, M_FloatQuad.quadRuleF. rewrite R.
  pose proof (e_eps1 _ _ HE) as E1.
  pose proof (mass_le e E1 E2 (rq_qt r)) as M. pose proof (u_pos prec) as U.
  assert (C0 : 0 <= c * u) by (apply Rmult_le_pos; lra).
  apply (P_FloatQuad3.factory_same prec emax Hp He H2 K HK e E1 E2 lapack Hl lit Hlit lapackF HlF).
  - pose proof (pow64 1) as X. rewrite Nat.pow_1_r in X. rewrite X. unfold P_FloatNear.eta. rewrite <- bpow_plus. apply bpow_le. lia.
  - exact R.
  - destruct F as (F1 & F2). pose proof (bern _ _ C0 F2) as B. unfold S_FloatQuad.werr in F2.
    apply Rle_trans with (2 ^ rq_dim r * 2).
    + apply Rmult_le_compat; [apply pow_le; lra|apply pow_le; lra|apply pow_incr; lra|lra].
    + rewrite <- bpow_INR. change 2 with (bpow radix2 1). rewrite <- bpow_plus. apply bpow_le. lia.
  - now apply fits_eta.
Qed.

Lemma weightDiff_map (L : list (FQPoint prec emax * QPoint)) :
  weightDiff prec emax (map fst L) (map snd L) = lsum (fun p => Rabs (B2R (snd (fst p)) - snd (snd p))) L.
Proof. induction L as [|p L IH]; [reflexivity|]. cbn [map weightDiff]. rewrite IH, lsum_cons. reflexivity. Qed.

Lemma pairs_of r x y : valid r -> tableErr (rq_p r) (rq_qt r) <= e -> fits (rq_dim r) -> quadRule r = Some x -> quadRuleF r = Some y ->
  fr_type prec emax y = ru_type x /\ fr_order prec emax y = ru_order x /\ exists L, map fst L = fr_points prec emax y /\ map snd L = ru_points x
  /\ (forall p, In p L -> is_finite (snd (fst p)) = true /\ forall k, (k < rq_dim r)%nat ->
        is_finite (fst (fst p) k) = true /\ 0 <= B2R (fst (fst p) k) <= 1 /\ 0 <= fst (snd p) k <= 1 /\ Rabs (B2R (fst (fst p) k) - fst (snd p) k) <= perr (rq_dim r) k)
  /\ lsum (fun p => Rabs (snd (snd p))) L <= massBound (rq_qt r) e ^ rq_dim r
  /\ lsum (fun p => Rabs (B2R (snd (fst p)) - snd (snd p))) L <= massBound (rq_qt r) e ^ rq_dim r * werr (rq_dim r).
Proof.
  intros V HE F X Y. pose proof (same_gen r V HE F) as S. rewrite X, Y in S. destruct S as (T & O & L & L1 & L2 & (P & W1 & W2 & W3) & _).
  split; [exact T|]. split; [exact O|]. exists L. split; [exact L1|]. split; [exact L2|]. split; [|split; [exact W2|]].
  - intros p I. split; [now apply W1|]. intros k Hk. exact (P p I k Hk).
  - eapply Rle_trans; [exact W3|]. pose proof (u_pos prec) as U. apply Rmult_le_compat_l.
    + pose proof (mass_le e (e_eps1 _ _ HE) E2 (rq_qt r)). apply pow_le. lra.
    + apply bern; [apply Rmult_le_pos; lra|apply F].
Qed.

(** The floating point rule exists iff the exact one does and has the same type, the same order and as
    many points, in the same sequence.  The coordinates of the points are accurate and between 0 and 1,
    the weights are accurate. *)
Theorem C67_same : forall r, valid r -> tableErr (rq_p r) (rq_qt r) <= e -> fits (rq_dim r) ->
  match quadRule r, quadRuleF r with
  | None, None => True
  | Some x, Some y =>
      fr_type prec emax y = ru_type x /\ fr_order prec emax y = ru_order x
      /\ Forall2 (fun q q' => is_finite (snd q) = true /\ forall k, (k < rq_dim r)%nat ->
           is_finite (fst q k) = true /\ 0 <= B2R (fst q k) <= 1 /\ Rabs (B2R (fst q k) - fst q' k) <= perr (rq_dim r) k)
           (fr_points prec emax y) (ru_points x)
      /\ weightDiff prec emax (fr_points prec emax y) (ru_points x) <= massBound (rq_qt r) e ^ rq_dim r * werr (rq_dim r)
  | _, _ => False
  end.
Proof.
  intros r V HE F. pose proof (same_gen r V HE F) as S.
  destruct (quadRule r) as [x|] eqn:X, (quadRuleF r) as [y|] eqn:Y; try exact S. clear S.
  destruct (pairs_of r x y V HE F X Y) as (T & O & L & L1 & L2 & P & _ & W). split; [exact T|]. split; [exact O|]. rewrite <- L1, <- L2.
  split; [|rewrite weightDiff_map; exact W].
  clear -P. induction L as [|p L IH]; constructor; [|apply IH; intros; apply P; now right].
  destruct (P p (or_introl eq_refl)) as (A & B). split; [exact A|]. intros k Hk. destruct (B k Hk) as (B1 & B2 & _ & B3). auto.
Qed.

(** the test of the reference element accepts every point *)
Lemma perr_sum dim : rsum dim (perr dim) = (INR dim * K + INR (dim * (dim - 1)) / 2 * (K + 2)) * u.
Proof.
  induction dim as [|d IH]; [cbn; lra|].
  assert (G : forall n, (n <= d)%nat -> rsum n (perr (S d)) = rsum n (perr d) + INR n * ((K + 2) * u)).
  { induction n as [|n IHn]; intros Hn; [cbn; ring|]. rewrite !rsum_S, (IHn ltac:(lia)), S_INR.
    unfold S_FloatQuad.perr. replace (S d - 1 - n)%nat with (S (d - 1 - n)) by lia. rewrite S_INR. ring. }
  rewrite rsum_S, (G d (le_n d)), IH. unfold S_FloatQuad.perr. replace (S d - 1 - d)%nat with 0%nat by lia.
  replace (S d * (S d - 1))%nat with (d * (d - 1) + 2 * d)%nat by (destruct d; cbn; lia).
  rewrite plus_INR, (mult_INR 2 d), S_INR. cbn [INR]. field.
Qed.

Theorem C67_inside : (7 <= prec)%Z -> forall r y, valid r -> tableErr (rq_p r) (rq_qt r) <= e -> fits (rq_dim r) ->
  INR (rq_dim r) * (K + 1) + INR (rq_dim r * (rq_dim r - 1)) / 2 * (K + 2) < 128 ->
  quadRuleF r = Some y ->
  forall q, In q (fr_points prec emax y) -> re_checkInside prec emax Hp He (gt_id (rq_t r)) (rq_dim r) (fst q) = true.
Proof.
  intros H7 r y V HE F B Y q I. pose proof (same_gen r V HE F) as S. rewrite Y in S.
  destruct (quadRule r) as [x|] eqn:X; [|destruct S]. clear S.
  destruct (pairs_of r x y V HE F X Y) as (_ & _ & L & L1 & L2 & P & _). rewrite <- L1 in I. apply in_map_iff in I. destruct I as (p & <- & I).
  destruct (C43_all_rules lapack e r x Hl HE V X) as (_ & Hull & _).
  apply (near_hull prec emax Hp He ltac:(lia) H7 _ _ _ (fst (snd p)) (perr (rq_dim r))).
  - apply Hull. rewrite <- L2. now apply in_map.
  - intros k Hk. destruct (P p I) as (_ & Q). destruct (Q k Hk) as (Q1 & _ & _ & Q2). split; assumption.
  - rewrite perr_sum. pose proof (u_pos prec). rewrite <- Rmult_plus_distr_r. apply Rmult_lt_compat_r; [lra|]. lra.
Qed.

(** the rules integrate polynomials *)
Lemma mono_01 n ex x : (forall k, (k < n)%nat -> 0 <= x k <= 1) -> 0 <= monomial n ex x <= 1.
Proof.
  induction n as [|n IH]; intros H; cbn [monomial]; [lra|].
  specialize (IH ltac:(intros; apply H; lia)). specialize (H n ltac:(lia)).
  assert (0 <= x n ^ ex n <= 1) by (split; [apply pow_le; lra|rewrite <- (pow1 (ex n)); apply pow_incr; lra]). nra.
Qed.
Lemma pow_lip a b D m : 0 <= a <= 1 -> 0 <= b <= 1 -> Rabs (a - b) <= D -> Rabs (a ^ m - b ^ m) <= INR m * D.
Proof.
  intros Ha Hb HD. induction m as [|m IH]; [cbn; rewrite Rminus_diag_eq, Rabs_R0 by reflexivity; lra|].
  rewrite S_INR. cbn [pow]. replace (a * a ^ m - b * b ^ m) with (a * (a ^ m - b ^ m) + (a - b) * b ^ m) by ring.
  assert (0 <= b ^ m <= 1) by (split; [apply pow_le; lra|rewrite <- (pow1 m); apply pow_incr; lra]).
  eapply Rle_trans; [apply Rabs_triang|]. rewrite !Rabs_mult, (Rabs_pos_eq a), (Rabs_pos_eq (b ^ m)) by lra.
  pose proof (Rabs_pos (a - b)). pose proof (Rabs_pos (a ^ m - b ^ m)). nra.
Qed.
Lemma mono_lip n ex x y D : 0 <= D -> (forall k, (k < n)%nat -> 0 <= x k <= 1 /\ 0 <= y k <= 1 /\ Rabs (x k - y k) <= D) ->
  Rabs (monomial n ex x - monomial n ex y) <= INR (degree n ex) * D.
Proof.
  intros D0. induction n as [|n IH]; intros H; cbn [monomial degree]; [cbn; rewrite Rminus_diag_eq, Rabs_R0 by reflexivity; lra|].
  specialize (IH ltac:(intros; apply H; lia)).
  assert (A : 0 <= monomial n ex x <= 1) by (apply mono_01; intros; apply H; lia).
  destruct (H n ltac:(lia)) as (X & Y & XY). pose proof (pow_lip _ _ _ (ex n) X Y XY) as P. rewrite plus_INR.
  replace (monomial n ex x * x n ^ ex n - monomial n ex y * y n ^ ex n)
    with (monomial n ex x * (x n ^ ex n - y n ^ ex n) + (monomial n ex x - monomial n ex y) * y n ^ ex n) by ring.
  assert (0 <= y n ^ ex n <= 1) by (split; [apply pow_le; lra|rewrite <- (pow1 (ex n)); apply pow_incr; lra]).
  eapply Rle_trans; [apply Rabs_triang|]. rewrite !Rabs_mult, (Rabs_pos_eq (monomial n ex x)), (Rabs_pos_eq (y n ^ ex n)) by lra.
  pose proof (Rabs_pos (x n ^ ex n - y n ^ ex n)). pose proof (Rabs_pos (monomial n ex x - monomial n ex y)). nra.
Qed.

Lemma alg4 a b x y : a + b + (x + y) = a + x + (b + y).
Proof. ring. Qed.
Lemma quad_pairs (L : list (FQPoint prec emax * QPoint)) n ex D : 0 <= D ->
  (forall p, In p L -> forall k, (k < n)%nat -> 0 <= B2R (fst (fst p) k) <= 1 /\ 0 <= fst (snd p) k <= 1 /\ Rabs (B2R (fst (fst p) k) - fst (snd p) k) <= D) ->
  Rabs (quad (realPts prec emax (map fst L)) (monomial n ex) - quad (map snd L) (monomial n ex))
    <= lsum (fun p => Rabs (B2R (snd (fst p)) - snd (snd p))) L + lsum (fun p => Rabs (snd (snd p))) L * (INR (degree n ex) * D).
Proof.
  intros D0. induction L as [|p L IH]; intros H.
  - cbn. unfold lsum. cbn. rewrite Rminus_diag_eq, Rabs_R0 by reflexivity. lra.
  - specialize (IH ltac:(intros; apply H; [now right|assumption])). specialize (H p (or_introl eq_refl)).
    rewrite !lsum_cons. cbv beta.
    change (quad (realPts prec emax (map fst (p :: L))) (monomial n ex)) with (B2R (snd (fst p)) * monomial n ex (fun k => B2R (fst (fst p) k)) + quad (realPts prec emax (map fst L)) (monomial n ex)).
    change (quad (map snd (p :: L)) (monomial n ex)) with (snd (snd p) * monomial n ex (fst (snd p)) + quad (map snd L) (monomial n ex)).
    pose proof (mono_lip n ex _ _ D D0 H) as M. cbv beta in M.
    assert (A : 0 <= monomial n ex (fun k => B2R (fst (fst p) k)) <= 1) by (apply mono_01; intros; now apply H).
    set (m1 := monomial n ex (fun k => B2R (fst (fst p) k))) in *. set (m2 := monomial n ex (fst (snd p))) in *.
    set (q1 := quad (realPts prec emax (map fst L)) (monomial n ex)) in *. set (q2 := quad (map snd L) (monomial n ex)) in *.
    set (w1 := B2R (snd (fst p))) in *. set (w2 := snd (snd p)) in *.
    replace (w1 * m1 + q1 - (w2 * m2 + q2)) with ((w1 - w2) * m1 + w2 * (m1 - m2) + (q1 - q2)) by ring.
    eapply Rle_trans; [apply Rabs_triang|]. rewrite Rmult_plus_distr_r.
    assert (Rabs ((w1 - w2) * m1 + w2 * (m1 - m2)) <= Rabs (w1 - w2) + Rabs w2 * (INR (degree n ex) * D)).
    { eapply Rle_trans; [apply Rabs_triang|]. rewrite !Rabs_mult, (Rabs_pos_eq m1) by lra.
      apply Rplus_le_compat; [pose proof (Rabs_pos (w1 - w2)); nra|]. apply Rmult_le_compat_l; [apply Rabs_pos|exact M]. }
    eapply Rle_trans; [apply Rplus_le_compat; [exact H0|exact IH]|]. apply Req_le. exact (alg4 _ _ _ _).
Qed.

Theorem C67_exact : forall r x y, valid r -> tableErr (rq_p r) (rq_qt r) <= e -> fits (rq_dim r) -> quadRule r = Some x -> quadRuleF r = Some y ->
  let dim := rq_dim r in let alpha := weightExp (rq_qt r) in let p := Z.to_nat (fr_order prec emax y) in
  exactND alpha (topo_of (gt_id (rq_t r)) dim) p
    (errD (Cw alpha) e dim + massBound (rq_qt r) e ^ dim * (werr dim + INR p * perr dim 0)) (realPts prec emax (fr_points prec emax y)).
Proof.
  intros r x y V HE F X Y dim alpha p.
  destruct (pairs_of r x y V HE F X Y) as (_ & O & L & L1 & L2 & P & W1 & W2).
  destruct (C43_all_rules lapack e r x Hl HE V X) as (Ex & _). rewrite <- O in Ex. fold dim alpha p in Ex, P, W1, W2.
  apply momExact_exact. apply exact_momExact in Ex. intros ex De. specialize (Ex ex De). rewrite tdim_topo_of in *. rewrite <- L1. rewrite <- L2 in Ex.
  pose proof (u_pos prec) as U.
  assert (D0 : 0 <= perr dim 0) by (unfold S_FloatQuad.perr; pose proof (pos_INR (dim - 1 - 0)); apply Rmult_le_pos; [nra|lra]).
  assert (Q := quad_pairs L dim ex (perr dim 0) D0).
  assert (G : forall p, In p L -> forall k, (k < dim)%nat -> 0 <= B2R (fst (fst p) k) <= 1 /\ 0 <= fst (snd p) k <= 1 /\ Rabs (B2R (fst (fst p) k) - fst (snd p) k) <= perr dim 0).
  { intros a I k Hk. destruct (P a I) as (_ & PP). destruct (PP k Hk) as (_ & B & C & D). split; [exact B|]. split; [exact C|].
    eapply Rle_trans; [exact D|]. unfold S_FloatQuad.perr. apply Rmult_le_compat_r; [lra|].
    assert (INR (dim - 1 - k) <= INR (dim - 1 - 0)) by (apply le_INR; lia). nra. }
  specialize (Q G). apply le_INR in De.
  assert (S2 : lsum (fun p => Rabs (snd (snd p))) L * (INR (degree dim ex) * perr dim 0) <= massBound (rq_qt r) e ^ dim * (INR p * perr dim 0)).
  { apply Rmult_le_compat; [| |exact W1|now apply Rmult_le_compat_r].
    - apply lsum_nonneg. intros. apply Rabs_pos.
    - apply Rmult_le_pos; [apply pos_INR|exact D0]. }
  apply Rabs_le_inv in Q. apply Rabs_le_inv in Ex. apply Rabs_le. lra.
Qed.
End Rules.
End C67.

(** ** correctly rounded literals *)
Section Nearest.
Variables (prec emax : Z).
Context (Hp : Prec_gt_0 prec) (He : Prec_lt_emax prec emax).
Notation float := (binary_float prec emax).
Notation fexp := (SpecFloat.fexp prec emax).
Notation rnd := (round radix2 fexp (round_mode mode_NE)).

(** the conversion to the nearest number *)
Definition nearest (q : Q) : float :=
  binary_normalize prec emax Hp He mode_NE (ZnearestE (scaled_mantissa radix2 fexp (Q2R q))) (cexp radix2 fexp (Q2R q)) false.

Lemma nearest_val : (2 <= prec)%Z -> forall q, Rabs (Q2R q) <= 2 -> B2R (nearest q) = rnd (Q2R q) /\ is_finite (nearest q) = true.
Proof.
  intros H2 q Q. unfold nearest.
  pose proof (binary_normalize_correct prec emax Hp He mode_NE (ZnearestE (scaled_mantissa radix2 fexp (Q2R q))) (cexp radix2 fexp (Q2R q)) false) as C.
  cbn zeta in C. change (F2R _) with (rnd (Q2R q)) in C. rewrite round_generic in C; [|typeclasses eauto|apply generic_format_round; typeclasses eauto].
  rewrite Rlt_bool_true in C.
  - split; apply C.
  - pose proof (prec_emax prec emax He) as PE.
    apply Rle_lt_trans with 2.
    + apply abs_round_le_generic; [typeclasses eauto..| |exact Q]. change 2 with (bpow radix2 1).
      apply generic_format_bpow. unfold SpecFloat.fexp, SpecFloat.emin. lia.
    + change 2 with (bpow radix2 1). apply bpow_lt. lia.
Qed.
Theorem C67_nearest : (2 <= prec)%Z -> litOk prec emax 1 nearest.
Proof.
  intros H2 q Q. destruct (nearest_val H2 q Q) as (V & F). split; [exact F|]. rewrite V. split.
  - pose proof (rnd_rel prec emax Hp (Q2R q)) as R. rewrite Rmult_1_l. exact R.
  - intros B. split; [now apply rnd_01|]. rewrite Rmult_1_l. apply rnd_err; try assumption. apply Rabs_def1; lra.
Qed.

Lemma tableErr_small p qt : tableErr p qt <= / 10.
Proof.
  unfold tableErr. destruct small15 as (_ & S20 & _). unfold Rdiv in S20. rewrite Rmult_1_l in S20.
  destruct (_ || _); [|exact S20]. destruct (p <=? 5)%Z; [|destruct (p =? 12)%Z; [|exact S20]];
    (apply small_quot; [reflexivity|rewrite <- mult_IZR; apply IZR_le; apply Z.leb_le; reflexivity]).
Qed.
Lemma fact9 d : (d <= 9)%nat -> (factors d <= 54)%nat.
Proof. intros H. do 10 (destruct d as [|d]; [cbn; lia|]). lia. Qed.

(** With correctly rounded literals the points of every rule that needs no LAPACK are accepted up to
    dimension 9, in single and in double precision. *)
Theorem C67_accepted : (10 <= prec)%Z -> (56 <= emax)%Z -> forall r y, valid r -> (rq_dim r <= 9)%nat ->
  quadRuleF prec emax Hp He nearest (fun _ _ => None) r = Some y ->
  forall q, In q (fr_points prec emax y) -> re_checkInside prec emax Hp He (gt_id (rq_t r)) (rq_dim r) (fst q) = true.
Proof.
  intros H10 E56 r y V D Y q In0.
  assert (U : bpow radix2 (- prec) <= / 1024) by (apply Rle_trans with (bpow radix2 (-10)); [apply bpow_le; lia|cbn; lra]).
  pose proof (u_pos prec) as U0.
  refine (C67_inside prec emax Hp He _ 1 _ (tableErr (rq_p r) (rq_qt r)) (fun _ _ => None) _ nearest _ (fun _ _ => None) _ _ _ _ r y V _ _ _ Y q In0).
  - lia.
  - lra.
  - intros p a data E. discriminate.
  - apply C67_nearest. lia.
  - intros p a. exact I.
  - apply tableErr_small.
  - lia.
  - lia.
  - apply Rle_refl.
  - split; [lia|]. unfold werr. pose proof (fact9 _ D) as F. apply le_INR in F. replace (INR 54) with 54 in F by (rewrite INR_IZR_INZ; reflexivity).
    pose proof (pos_INR (factors (rq_dim r))). nra.
  - assert (F : (rq_dim r * (rq_dim r - 1) <= 72)%nat) by (destruct (rq_dim r) as [|d]; [lia|]; nia).
    apply le_INR in F. apply le_INR in D. replace (INR 72) with 72 in F by (rewrite INR_IZR_INZ; reflexivity).
    replace (INR 9) with 9 in D by (rewrite INR_IZR_INZ; reflexivity). lra.
Qed.
End Nearest.
Print Assumptions C67_near.
Print Assumptions C67_same.
Print Assumptions C67_inside.
Print Assumptions C67_exact.
Print Assumptions C67_nearest.
Print Assumptions C67_accepted.

(** ** single precision *)
Lemma nearest_sgl : forall q (x : binary_float 24 128) (k : Z) m e, Rabs (Q2R q) <= 2 -> bpow radix2 (k - 1) <= Q2R q < bpow radix2 k ->
  SpecFloat.fexp 24 128 k = e -> Rabs (Q2R q * bpow radix2 (- e) - IZR m) < / 2 ->
  (0 < m)%Z -> is_finite x = true -> B2R x = IZR m * bpow radix2 e -> nearest 24 128 p24 e128 q = x.
Proof.
  intros q x k m e Q K E M Mp F X. destruct (nearest_val 24 128 p24 e128 ltac:(lia) q Q) as (V & F').
  assert (R : round radix2 (SpecFloat.fexp 24 128) (round_mode mode_NE) (Q2R q) = IZR m * bpow radix2 e).
  { unfold round, scaled_mantissa, cexp. rewrite (mag_unique_pos radix2 _ k K), E. unfold F2R. cbn [Fnum Fexp round_mode].
    now rewrite (Znearest_imp _ _ m M). }
  assert (N : 0 < IZR m * bpow radix2 e) by (apply Rmult_lt_0_compat; [now apply IZR_lt|apply bpow_gt_0]).
  rewrite R in V. apply B2R_inj; [| |congruence].
  - destruct (nearest 24 128 p24 e128 q) as [| | |]; try discriminate F'; [|reflexivity]. cbn [B2R] in V. lra.
  - destruct x as [| | |]; try discriminate F; [|reflexivity]. cbn [B2R] in X. lra.
Qed.
Lemma nearest_1 : nearest 24 128 p24 e128 1.0 = sgl 1 0.
Proof.
  apply (nearest_sgl _ _ 1 8388608 (-23)).
  - unfold Q2R. cbn. rewrite Rabs_pos_eq; lra.
  - unfold Q2R. cbn. lra.
  - reflexivity.
  - change (- -23)%Z with 23%Z. replace (Q2R 1.0) with 1 by (unfold Q2R; cbn; lra). change (bpow radix2 23) with 8388608.
    rewrite Rmult_1_l, Rminus_diag_eq, Rabs_R0 by reflexivity. lra.
  - lia.
  - reflexivity.
  - rewrite (sgl_value _ 8388608 (-23)) by reflexivity. reflexivity.
Qed.
Lemma Q2R_between q a b c d : (0 < b)%Z -> (0 < d)%Z ->
  (a * QDen q <= Qnum q * b)%Z -> (Qnum q * d <= c * QDen q)%Z -> IZR a / IZR b <= Q2R q <= IZR c / IZR d.
Proof.
  intros Hb Hd A B. unfold Q2R, Rdiv. apply IZR_le in A, B. rewrite !mult_IZR in A, B.
  assert (0 < IZR b) by now apply IZR_lt. assert (0 < IZR d) by now apply IZR_lt. assert (0 < IZR (QDen q)) by now apply IZR_lt.
  split.
  - apply Rmult_le_reg_r with (IZR b * IZR (QDen q)); [now apply Rmult_lt_0_compat|].
    replace (IZR a * / IZR b * (IZR b * IZR (QDen q))) with (IZR a * IZR (QDen q)) by (field; lra).
    replace (IZR (Qnum q) * / IZR (QDen q) * (IZR b * IZR (QDen q))) with (IZR (Qnum q) * IZR b) by (field; lra). exact A.
  - apply Rmult_le_reg_r with (IZR d * IZR (QDen q)); [now apply Rmult_lt_0_compat|].
    replace (IZR (Qnum q) * / IZR (QDen q) * (IZR d * IZR (QDen q))) with (IZR (Qnum q) * IZR d) by (field; lra).
    replace (IZR c * / IZR d * (IZR d * IZR (QDen q))) with (IZR c * IZR (QDen q)) by (field; lra). exact B.
Qed.

(** a node of the Gauss-Lobatto rule of order 5 *)
Definition lob : Q := 0.2763932022500210303590826331268723764559381640388474275729102754589479074362195100585585591621217725.
Lemma nearest_lob : nearest 24 128 p24 e128 lob = sgl 9274217 (-25).
Proof.
  assert (B := Q2R_between lob 92742168 335544320 92742172 335544320 eq_refl eq_refl).
  specialize (B ltac:(apply Z.leb_le; reflexivity) ltac:(apply Z.leb_le; reflexivity)).
  apply (nearest_sgl _ _ (-1) 9274217 (-25)).
  - rewrite Rabs_pos_eq; lra.
  - change (bpow radix2 (-1 - 1)) with (/ 4). change (bpow radix2 (-1)) with (/ 2). lra.
  - reflexivity.
  - change (- -25)%Z with 25%Z. change (bpow radix2 25) with 33554432. apply Rabs_def1; lra.
  - lia.
  - reflexivity.
  - rewrite (sgl_value _ 9274217 (-25)) by reflexivity. reflexivity.
Qed.

Lemma lobatto_rule : forall lit, quadRuleF 24 128 p24 e128 lit (fun _ _ => None) (mkReq 2 triangle 3 4) =
  let f := map (fun xw => (fvec1 24 128 (lit (fst xw)), lit (snd xw))) in
  Some (mkFRule 24 128 triangle 3 (conicalProductF 24 128 p24 e128 1 false (f (en_data lobatto_1)) (f (en_data lobatto_2)))).
Proof. intros lit. reflexivity. Qed.

(** The value of a point need not lie in the reference element: for the Gauss-Lobatto rule of order 3 on
    the triangle the sum of the coordinates exceeds one in single precision. *)
Theorem C67_points_in_hull_refuted :
  exists r y q, valid r /\ quadRuleF 24 128 p24 e128 (nearest 24 128 p24 e128) (fun _ _ => None) r = Some y
    /\ In q (fr_points 24 128 y)
    /\ ~ in_hull (rq_dim r) (referenceCorners (gt_id (rq_t r)) (rq_dim r)) (fun k => B2R (fst q k)).
Proof.
  pose proof (lobatto_rule (nearest 24 128 p24 e128)) as Y. cbv zeta in Y.
  exists (mkReq 2 triangle 3 4). eexists. eexists. split; [|split; [exact Y|split]].
  - split; [cbn; lia|]. split; [reflexivity|]. split; [cbn; lia|]. split; [cbn; discriminate|].
    split; [cbn; unfold qtSize; lia|]. right. exists 30%Z. split; [vm_compute; reflexivity|cbn; lia].
  - cbn [fr_points]. unfold conicalProductF. apply in_flat_map.
    exists (fvec1 24 128 (nearest 24 128 p24 e128 1.0), nearest 24 128 p24 e128 (snd (nth 1 (en_data lobatto_1) (0, 0)%Q))).
    split; [cbn; right; left; reflexivity|]. apply in_map_iff.
    exists (fvec1 24 128 (nearest 24 128 p24 e128 lob), nearest 24 128 p24 e128 (snd (nth 3 (en_data lobatto_2) (0, 0)%Q))).
    split; [reflexivity|cbn; right; right; right; left; reflexivity].
  - cbn [rq_dim rq_t fst fvec1]. rewrite nearest_1, nearest_lob. intros H.
    apply (simplex_hull 2) in H. destruct H as (_ & H). cbn [Ssum Nat.eqb] in H.
    rewrite (sgl_value (fmul _ _ _ _ _ _) 12140108 (-24)) in H by (vm_compute; reflexivity).
    rewrite (sgl_value (sgl _ _) 9274217 (-25)) in H by reflexivity.
    rewrite bpow_24, bpow_25 in H. lra.
Qed.
Print Assumptions C67_points_in_hull_refuted.

(** the rule of order 2 on the pyramid in double precision: 12 points, and the weights sum to 1/3 *)
Example C67_example :
  exists y, quadRuleF 53 1024 p53 e1024 (nearest 53 1024 p53 e1024) (fun _ _ => None) (mkReq 3 pyramid 2 0) = Some y
    /\ length (fr_points 53 1024 y) = 12%nat
    /\ (forall q, In q (fr_points 53 1024 y) -> re_checkInside 53 1024 p53 e1024 (gt_id pyramid) 3 (fst q) = true)
    /\ Rabs (quad (realPts 53 1024 (fr_points 53 1024 y)) (fun _ => 1) - / 3) <= / IZR (10 ^ 13).
Proof.
  set (r := mkReq 3 pyramid 2 0).
  assert (V : valid r).
  { split; [cbn; lia|]. split; [reflexivity|]. split; [cbn; lia|]. split; [cbn; discriminate|].
    split; [cbn; unfold qtSize; lia|]. right. exists 59%Z. split; [vm_compute; reflexivity|cbn; lia]. }
  assert (Ex : option_map (fun x => (ru_order x, length (ru_points x))) (quadRule (fun _ _ => None) r) = Some (2%Z, 12%nat)) by (vm_compute; reflexivity).
  destruct (quadRule (fun _ _ => None) r) as [x|] eqn:X; [|discriminate]. injection Ex as O N.
  assert (L0 : lapackOk (tableErr 2 0) (fun _ _ => None)) by (intros p a data E; discriminate).
  assert (LF : lapackFOk 53 1024 1 (fun _ _ => None) (fun _ _ => None)) by (intros p a; exact I).
  assert (U : bpow radix2 (- (53)) = / 9007199254740992) by reflexivity.
  assert (F : fits 53 1024 1 3) by (split; [lia|]; unfold werr; rewrite U; change (factors 3) with 9%nat; replace (INR 9) with 9 by (rewrite INR_IZR_INZ; reflexivity); lra).
  pose proof (C67_same 53 1024 p53 e1024 ltac:(lia) 1 ltac:(lra) (tableErr 2 0) (fun _ _ => None) L0 (nearest 53 1024 p53 e1024)
    (C67_nearest 53 1024 p53 e1024 ltac:(lia)) (fun _ _ => None) LF (tableErr_small 2 0) ltac:(lia) r V (Rle_refl _) F) as S.
  rewrite X in S. destruct (quadRuleF _ _ _ _ _ _ r) as [y|] eqn:Y; [|destruct S]. destruct S as (_ & S2 & S3 & _).
  exists y. split; [reflexivity|]. split; [rewrite <- N; clear -S3; induction S3; cbn; congruence|]. split.
  - intros q Iq. refine (C67_accepted 53 1024 p53 e1024 _ _ r y V _ Y q Iq); cbn; lia.
  - pose proof (C67_exact 53 1024 p53 e1024 ltac:(lia) 1 ltac:(lra) (tableErr 2 0) (fun _ _ => None) L0 (nearest 53 1024 p53 e1024)
      (C67_nearest 53 1024 p53 e1024 ltac:(lia)) (fun _ _ => None) LF (tableErr_small 2 0) ltac:(lia) r x y V (Rle_refl _) F X Y) as Q.
    cbv zeta in Q. apply exact_momExact in Q. change (weightExp (rq_qt r)) with 0%nat in Q. rewrite S2, O in Q.
    change (Z.to_nat 2) with 2%nat in Q. change (rq_dim r) with 3%nat in Q. change (rq_qt r) with 0%nat in Q. rewrite Cw0 in Q.
    assert (TT : topo_of (gt_id (rq_t r)) 3 = Pyr (Pri (Pri Pt))) by reflexivity. rewrite TT in Q. specialize (Q (fun _ => 0%nat) ltac:(cbn; lia)).
    rewrite (quad_ext _ _ (fun _ => 1)) in Q by (intros z; cbn; ring).
    replace (momW 0 (Pyr (Pri (Pri Pt))) (fun _ => 0%nat)) with (/ 3) in Q by (cbn [momW tdim degree Nat.add]; rewrite !P_QuadFixN.bmom0; cbn; lra).
    eapply Rle_trans; [exact Q|].
    unfold massBound, werr, perr. change (weightExp 0) with 0%nat. rewrite Cw0, U.
    change (factors 3) with 9%nat. replace (INR 9) with 9 by (rewrite INR_IZR_INZ; reflexivity). change (3 - 1 - 0)%nat with 2%nat. change (INR 2) with 2.
    assert (T1 : 0 <= tableErr 2 0 <= / 10000000000000000).
    { unfold tableErr. cbn [Nat.eqb orb Z.leb]. change (2 <=? 5)%Z with true. cbv iota. change (10 ^ 17)%Z with 100000000000000000%Z. lra. }
    set (t := tableErr 2 0) in *. change (10 ^ 13)%Z with 10000000000000%Z.
    assert (T2 : errD 1 t 3 <= 4 * t) by (unfold errD; nra).
    assert (T3 : (1 + t + / 10) ^ 3 <= 2) by (cbn [pow]; nra).
    nra.
Qed.
