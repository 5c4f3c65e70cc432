(** C68: AffineGeometry in floating point arithmetic. *)
From Coq Require Import PeanoNat NArith ZArith Lia Bool List Reals Lra FunctionalExtensionality.
From Flocq Require Import Core Relative IEEE754.BinarySingleNaN.
From Verif Require Import M_Type M_RefTopo M_RefGeo M_Matrix M_MultiLinear M_Float M_FloatGlobal S_Topo S_RefGeo S_MultiLinear S_FloatGlobal
  P_Type P_RefTopo P_RefTopo3 P_RSum P_Matrix P_ML1 P_ML2 P_Float P_FloatNear P_FloatGlobal P_FloatGlobal2 P_FloatGlobal3.
Import ListNotations.
Local Open Scope R_scope.

Section A.
Variables (prec emax : Z).
Context (Hp : Prec_gt_0 prec) (He : Prec_lt_emax prec emax).
Hypothesis H2 : (7 <= prec)%Z.
Notation float := (binary_float prec emax).
Notation FVec := (nat -> float).
Notation FMat := (nat -> nat -> float).
Notation u := (bpow radix2 (- prec)).
Notation eta := (eta prec emax).
Notation add' := (fadd prec emax Hp He).
Notation sub' := (fsub prec emax Hp He).
Notation mul' := (fmul prec emax Hp He).

(** coordinate k of umtv *)
Lemma fumtv_at cdim rows (A : FMat) (x y : FVec) k : (k < cdim)%nat ->
  fumtv prec emax Hp He cdim rows A x y k = forN rows (fun i s => add' s (mul' (A i k) (x i))) (y k).
Proof.
  intros Hk. unfold fumtv. induction rows as [|r IH]; [reflexivity|]. cbn [forN]. rewrite <- IH.
  set (z := forN r _ y). clearbody z. clear IH.
  assert (G : forall n, (n <= cdim)%nat -> forall j, forN n (fun j y => fupd prec emax y j (add' (y j) (mul' (A r j) (x r)))) z j
    = if Nat.ltb j n then add' (z j) (mul' (A r j) (x r)) else z j).
  { induction n as [|n IHn]; intros Hn j; [reflexivity|]. cbn [forN]. unfold fupd at 1. rewrite !IHn by lia.
    rewrite Nat.ltb_irrefl. destruct (Nat.eqb_spec j n) as [->|NE].
    - now rewrite (proj2 (Nat.ltb_lt n (S n))) by lia.
    - destruct (Nat.ltb_spec j n), (Nat.ltb_spec j (S n)); try lia; reflexivity. }
  rewrite G by lia. now rewrite (proj2 (Nat.ltb_lt k cdim)) by assumption.
Qed.

(** sums of rounded products *)
Lemma fsum_err P K s (o : float) (a b : nat -> float) : 0 <= P -> 0 <= K -> K <= bpow radix2 (emax - 1) -> s = u * P + u * K + 2 * eta -> is_finite o = true ->
  forall n, (forall i, (i < n)%nat -> is_finite (a i) = true /\ is_finite (b i) = true /\ Rabs (B2R (a i) * B2R (b i)) <= P) ->
  Rabs (B2R o) + INR n * (P + s) <= K ->
  let r := forN n (fun i s => add' s (mul' (a i) (b i))) o in
  is_finite r = true /\ Rabs (B2R r - (B2R o + rsum n (fun i => B2R (a i) * B2R (b i)))) <= INR n * s
    /\ Rabs (B2R r) <= Rabs (B2R o) + INR n * (P + s).
Proof.
  intros P0 K0 KM Es Fo. destruct (u_small prec H2) as (U0 & U1). destruct (eta_small prec emax He H2) as (N0 & N1).
  assert (UP : 0 <= u * P) by (apply Rmult_le_pos; lra). assert (UK : 0 <= u * K) by (apply Rmult_le_pos; lra).
  assert (S0 : 0 <= s) by (rewrite Es; lra).
  induction n as [|n IH]; intros Hl HK; cbv zeta in *.
  - cbn [forN rsum INR]. rewrite Rplus_0_r, Rminus_diag_eq, Rabs_R0 by reflexivity. split; [exact Fo|]. split; lra.
  - rewrite S_INR in *. pose proof (pos_INR n) as Pn. assert (0 <= INR n * (P + s)) by (apply Rmult_le_pos; lra).
    assert (PK : P <= K) by (pose proof (Rabs_pos (B2R o)); lra).
    destruct IH as (F & E & M); [intros; apply Hl; lia|lra|]. cbn [forN rsum]. set (r := forN n _ o) in *.
    destruct (Hl n ltac:(lia)) as (Fa & Fb & Lp). set (p := B2R (a n) * B2R (b n)) in *.
    destruct (fmul_ok prec emax Hp He ltac:(lia) (a n) (b n) Fa Fb) as (M1 & M2); [fold p; lra|]. fold p in M1.
    pose proof (rnd_rel prec emax Hp p) as Q. rewrite <- M1 in Q. set (q := mul' (a n) (b n)) in *.
    assert (u * Rabs p <= u * P) by (apply Rmult_le_compat_l; lra).
    assert (Lq : Rabs (B2R q) <= P + (u * P + eta)) by (apply abs_le; apply abs_le in Q; apply abs_le in Lp; lra).
    assert (La : Rabs (B2R r + B2R q) <= K).
    { eapply Rle_trans; [apply Rabs_triang|]. lra. }
    destruct (fadd_ok prec emax Hp He H2 r q F M2) as (A1 & A2); [lra|].
    pose proof (rnd_rel prec emax Hp (B2R r + B2R q)) as Qa. rewrite <- A1 in Qa.
    assert (u * Rabs (B2R r + B2R q) <= u * K) by (apply Rmult_le_compat_l; lra).
    split; [exact A2|]. split.
    + apply abs_le. apply abs_le in E. apply abs_le in Q. apply abs_le in Qa. lra.
    + pose proof (Rabs_triang (B2R r) (B2R q)). pose proof (near_abs _ _ _ Qa). lra.
Qed.

(** the constructor *)
Lemma fcorner_rows_at : forall n coords o jt, (n < length coords)%nat -> exists jt', fcorner_rows prec emax Hp He n coords o jt = Some jt' /\
  forall i k c, (i < n)%nat -> nth_error coords (S i) = Some c -> jt' i k = sub' (c k) (o k).
Proof.
  induction n as [|n IH]; intros coords o jt HL; [exists jt; split; [reflexivity|lia]|].
  destruct (IH coords o jt ltac:(lia)) as (jt' & E & V). cbn [fcorner_rows]. rewrite E. cbn [obind].
  destruct (nth_error coords (S n)) as [c|] eqn:N; [|apply nth_error_None in N; lia]. cbn [obind]. eexists. split; [reflexivity|].
  intros i k c' Hi Hc. unfold fmrow. destruct (Nat.eqb_spec i n) as [->|NE]; [congruence|]. apply V; [lia|exact Hc].
Qed.

Lemma affine_err dim cdim coords junk (x : FVec) B : length coords = S dim -> INR dim * (4 * INR dim + 8) * u <= 1 ->
  (8 * INR dim + 8) * B <= bpow radix2 (emax - 1) ->
  (forall c k, In c coords -> (k < cdim)%nat -> is_finite (c k) = true /\ Rabs (B2R (c k)) <= B) ->
  (forall i, (i < dim)%nat -> is_finite (x i) = true /\ Rabs (B2R (x i)) <= 1) ->
  exists g, fag_make prec emax Hp He dim coords junk = Some g /\ forall k, (k < cdim)%nat ->
    let y := fag_global prec emax Hp He cdim dim g x k in
    let c i := nth i (exactly coords) vzero k in
    is_finite y = true /\
    Rabs (B2R y - (c 0%nat + rsum dim (fun i => (c (S i) - c 0%nat) * B2R (x i)))) <= INR dim * (4 * INR dim + 7) * u * B + 5 * INR dim * eta.
Proof.
  intros HL Hu HB Hc Hx. destruct (u_small prec H2) as (U0 & U1). destruct (eta_small prec emax He H2) as (N0 & N1).
  pose proof (prec_emax prec emax He) as PE.
  destruct coords as [|o cs]; [discriminate HL|].
  destruct (fcorner_rows_at dim (o :: cs) o junk ltac:(lia)) as (jt & EJ & V).
  assert (EG : fag_make prec emax Hp He dim (o :: cs) junk = Some {| fa_origin := o; fa_jt := jt |})
    by (unfold fag_make; cbn [nth_error obind]; rewrite EJ; reflexivity).
  eexists. split; [exact EG|].
  intros k Hk y c. subst y. unfold fag_global. cbn [fa_jt fa_origin]. rewrite fumtv_at by exact Hk.
  destruct (Hc o k (or_introl eq_refl) Hk) as (Fo & Lo).
  assert (B0 : 0 <= B) by (eapply Rle_trans; [apply Rabs_pos|exact Lo]).
  set (n := INR dim) in *. assert (n0 : 0 <= n) by apply pos_INR.
  assert (UB : 0 <= u * B) by (apply Rmult_le_pos; lra).
  set (P := 2 * B + 2 * u * B + eta). set (K := (4 * n + 2) * B + (6 * n + 1) * eta). set (s := u * P + u * K + 2 * eta).
  assert (nB : 0 <= n * B) by (apply Rmult_le_pos; lra). assert (ne : 0 <= n * eta) by (apply Rmult_le_pos; lra).
  assert (Bm : 8 * B <= bpow radix2 (emax - 1)) by lra.
  assert (big : 64 <= bpow radix2 (emax - 1)) by (change 64 with (bpow radix2 6); apply bpow_le; lia).
  assert (row : forall i, (i < dim)%nat -> is_finite (jt i k) = true /\ Rabs (B2R (jt i k) - (c (S i) - c 0%nat)) <= 2 * u * B + eta /\ Rabs (B2R (jt i k)) <= P).
  { intros i Hi. destruct (nth_error (o :: cs) (S i)) as [ci|] eqn:E; [|apply nth_error_None in E; lia].
    rewrite (V i k ci Hi E). destruct (Hc ci k (nth_error_In _ _ E) Hk) as (Fi & Li).
    assert (C : c (S i) = B2R (ci k)).
    { unfold c, exactly. rewrite (nth_indep _ vzero ((fun (c : FVec) k => B2R (c k)) o)) by (rewrite map_length; lia).
      rewrite (map_nth (fun (c : FVec) k => B2R (c k))). now rewrite (nth_error_nth _ _ _ E). }
    assert (C0 : c 0%nat = B2R (o k)) by reflexivity. rewrite C, C0.
    assert (L : Rabs (B2R (ci k) - B2R (o k)) <= 2 * B) by (apply abs_le in Lo; apply abs_le in Li; apply abs_le; lra).
    destruct (fsub_ok prec emax Hp He H2 (ci k) (o k) Fi Fo) as (S1 & S2); [lra|].
    pose proof (rnd_rel prec emax Hp (B2R (ci k) - B2R (o k))) as Q. rewrite <- S1 in Q.
    assert (u * Rabs (B2R (ci k) - B2R (o k)) <= u * (2 * B)) by (apply Rmult_le_compat_l; lra).
    split; [exact S2|]. split; [lra|]. pose proof (near_abs _ _ _ Q). unfold P. lra. }
  assert (nu : n * u <= / 8) by nra.
  assert (nnu : (n * u) * (4 * n + 2) <= 1) by nra. assert (nu0 : 0 <= n * u) by (apply Rmult_le_pos; lra).
  assert (P0 : 0 <= P) by (unfold P; lra). assert (K0 : 0 <= K) by (unfold K; nra).
  assert (nP : n * P <= n * (2 * B + / 4 * B + eta)).
  { apply Rmult_le_compat_l; [exact n0|]. unfold P. assert (2 * u * B <= / 4 * B) by (apply Rmult_le_compat_r; lra). lra. }
  assert (PB : P <= 2 * B + / 4 * B + eta).
  { unfold P. assert (2 * u * B <= / 4 * B) by (apply Rmult_le_compat_r; lra). lra. }
  assert (uK : n * u * K <= B + n * eta + / 8 * eta).
  { unfold K. replace (n * u * ((4 * n + 2) * B + (6 * n + 1) * eta)) with (((n * u) * (4 * n + 2)) * B + (n * u) * (6 * n + 1) * eta) by ring.
    assert (((n * u) * (4 * n + 2)) * B <= 1 * B) by (apply Rmult_le_compat_r; lra).
    assert ((n * u) * (6 * n + 1) * eta <= / 8 * (6 * n + 1) * eta).
    { apply Rmult_le_compat_r; [lra|]. apply Rmult_le_compat_r; lra. }
    lra. }
  assert (uP : n * u * P <= / 8 * P) by (apply Rmult_le_compat_r; lra).
  assert (HK : Rabs (B2R (o k)) + n * (P + s) <= K).
  { destruct (Nat.eq_dec dim 0) as [Z|NZ].
    - assert (Zn : n = 0) by (unfold n; now rewrite Z). replace (n * (P + s)) with 0 by (rewrite Zn; ring). unfold K. lra.
    - replace (n * (P + s)) with (n * P + (n * u * P + n * u * K + 2 * (n * eta))) by (unfold s; ring). unfold K at 2.
      assert (1 <= n) by (unfold n; change 1 with (INR 1); apply le_INR; lia). assert (B <= n * B) by nra. assert (eta <= n * eta) by nra. lra. }
  assert (KM : K <= bpow radix2 (emax - 1)).
  { unfold K. assert ((4 * n + 2) * B <= / 2 * ((8 * n + 8) * B)) by lra.
    assert (n * eta <= n * u) by (apply Rmult_le_compat_l; lra). lra. }
  destruct (fsum_err P K s (o k) (fun i => jt i k) x P0 K0 KM eq_refl Fo dim) as (G1 & G2 & _).
  - intros i Hi. destruct (row i Hi) as (R1 & _ & R3). destruct (Hx i Hi) as (X1 & X2). repeat split; auto.
    rewrite Rabs_mult. rewrite <- (Rmult_1_r P). apply Rmult_le_compat; auto using Rabs_pos.
  - exact HK.
  - split; [exact G1|].
    assert (D : Rabs (rsum dim (fun i => B2R (jt i k) * B2R (x i)) - rsum dim (fun i => (c (S i) - c 0%nat) * B2R (x i))) <= n * (2 * u * B + eta)).
    { unfold n. clear - row Hx U0 UB N0. induction dim as [|d IH]; [cbn; rewrite Rminus_0_r, Rabs_R0; lra|].
      rewrite !rsum_S, S_INR. specialize (IH (fun i Hi => Hx i ltac:(lia)) (fun i Hi => row i ltac:(lia))).
      destruct (row d ltac:(lia)) as (_ & E & _). destruct (Hx d ltac:(lia)) as (_ & X).
      assert (Rabs ((B2R (jt d k) - (c (S d) - c 0%nat)) * B2R (x d)) <= (2 * u * B + eta) * 1).
      { rewrite Rabs_mult. apply Rmult_le_compat; auto using Rabs_pos. }
      apply abs_le. apply abs_le in IH. apply abs_le in H. lra. }
    assert (C0 : c 0%nat = B2R (o k)) by reflexivity. rewrite C0 in *.
    assert (ns : n * s <= n * (4 * n + 5) * u * B + 4 * (n * eta)).
    { replace (n * s) with (n * u * P + n * u * K + 2 * (n * eta)) by (unfold s; ring). unfold P, K.
      replace (n * u * (2 * B + 2 * u * B + eta)) with (2 * (n * u * B) + (2 * u) * (n * u * B) + n * u * eta) by ring.
      replace (n * u * ((4 * n + 2) * B + (6 * n + 1) * eta)) with (n * (4 * n + 2) * u * B + (u * (6 * n + 1)) * (n * eta)) by ring.
      assert (nuB : 0 <= n * u * B) by (apply Rmult_le_pos; lra).
      assert ((2 * u) * (n * u * B) <= 1 * (n * u * B)) by (apply Rmult_le_compat_r; lra).
      assert ((u * (6 * n + 1)) * (n * eta) <= 1 * (n * eta)) by (apply Rmult_le_compat_r; lra).
      assert (n * u * eta <= 1 * (n * eta)) by (rewrite (Rmult_comm n u), Rmult_assoc; apply Rmult_le_compat_r; lra).
      lra. }
    cbv beta in G2. fold n in G2. apply abs_le. apply abs_le in G2. apply abs_le in D. lra.
Qed.
End A.

(** ** simplices: the affinity test succeeds and the rows are those of AffineGeometry *)
Lemma simT_bits id : forall n, simT (topo_of id n) -> forall d, (0 < d < n)%nat -> N.testbit id (N.of_nat d) = false.
Proof.
  induction n as [|n IH]; intros H d Hd; [lia|]. rewrite topo_S in H. destruct (N.testbit id (N.of_nat n)) eqn:E; cbn [simT] in H.
  - apply topo_Pt in H. lia.
  - destruct (Nat.eq_dec d n) as [->|NE]; [exact E|]. apply IH; [exact H|lia].
Qed.

Section S.
Variables (prec emax : Z).
Context (Hp : Prec_gt_0 prec) (He : Prec_lt_emax prec emax).
Hypothesis H6 : (6 <= prec)%Z.
Notation float := (binary_float prec emax).
Notation FVec := (nat -> float).
Notation FMat := (nat -> nat -> float).
Notation sub' := (fsub prec emax Hp He).
Variables (cdim : nat) (tid : N) (mydim : nat).
Hypothesis HS : simT (topo_of tid mydim).

Lemma tol_zero : Bleb (ftol prec emax Hp He) (ofZ prec emax Hp He 0) = false.
Proof.
  destruct (is_tol prec emax Hp He ltac:(lia) H6) as (F & V). destruct (is_zero prec emax Hp He) as (F0 & V0).
  rewrite Bleb_correct by assumption. rewrite V, V0. apply Rle_bool_false. pose proof (bpow_gt_0 radix2 (- prec)). lra.
Qed.
Lemma fml_affine_simplex jk : forall dim (o : FVec) cit jt, (dim <= mydim)%nat -> (dim <= length cit)%nat ->
  exists jt', fml_affine prec emax Hp He cdim tid mydim jk dim (o :: cit) jt = Some (true, skipn dim cit, jt') /\
    forall i k c, (i < dim)%nat -> (k < cdim)%nat -> nth_error cit i = Some c -> jt' i k = sub' (c k) (o k).
Proof.
  induction dim as [|d IH]; intros o cit jt Hd HL.
  - exists jt. split; [reflexivity|lia].
  - destruct (IH o cit jt ltac:(lia) ltac:(lia)) as (jt' & E & V). cbn [fml_affine]. rewrite E. cbn [obind negb].
    rewrite isPrism_level by assumption. rewrite N.lor_spec.
    destruct (nth_error cit d) as [top|] eqn:N; [|apply nth_error_None in N; lia].
    assert (SK : skipn d cit = top :: skipn (S d) cit).
    { clear -N. revert cit N. induction d as [|d IH]; intros [|a cit] N; try discriminate N; cbn in *; [now injection N as ->|now apply IH]. }
    rewrite SK.
    assert (R : forall jt1, (forall i k, (i < d)%nat -> jt1 i k = jt' i k) -> forall i k c, (i < S d)%nat -> (k < cdim)%nat -> nth_error cit i = Some c ->
      fmrow prec emax jt1 d (fset prec emax cdim (fun k => sub' (top k) (o k)) (jt1 d)) i k = sub' (c k) (o k)).
    { intros jt1 H1 i k c Hi Hk Hc. unfold fmrow. destruct (Nat.eqb_spec i d) as [->|NE].
      - rewrite N in Hc. injection Hc as ->. now apply (fset_in prec emax cdim).
      - rewrite H1 by lia. apply V; auto. lia. }
    destruct d as [|d].
    + cbn [N.of_nat N.testbit]. change (N.testbit 1 0) with true. rewrite orb_true_r. cbn [fml_affine obind negb forN].
      rewrite tol_zero. eexists. split; [reflexivity|]. apply R. reflexivity.
    + rewrite (simT_bits tid mydim HS) by lia.
      replace (N.testbit 1 (N.of_nat (S d))) with false by (symmetry; apply (N.bits_above_log2 1); cbn; lia).
      cbn [orb]. eexists. split; [reflexivity|]. apply R. reflexivity.
Qed.

Lemma fcml_simplex jk jm jv junk coords (x : FVec) : length coords = S mydim -> exists g y,
  fag_make prec emax Hp He mydim coords junk = Some g /\
  fcml_global prec emax Hp He cdim tid mydim jk jm jv coords x = Some y /\
  forall k, (k < cdim)%nat -> y k = fag_global prec emax Hp He cdim mydim g x k.
Proof.
  intros HL. destruct coords as [|o cs]; [discriminate HL|].
  destruct (fcorner_rows_at prec emax Hp He mydim (o :: cs) o junk ltac:(lia)) as (jt & EJ & V).
  assert (EG : fag_make prec emax Hp He mydim (o :: cs) junk = Some {| fa_origin := o; fa_jt := jt |})
    by (unfold fag_make; cbn [nth_error obind]; rewrite EJ; reflexivity).
  destruct (fml_affine_simplex jk mydim o cs jm (Nat.le_refl _) ltac:(cbn in HL; lia)) as (jt' & E & V').
  eexists _, _. split; [exact EG|]. split; [unfold fcml_global; rewrite E; reflexivity|].
  intros k Hk. unfold fag_global. cbn [fa_jt fa_origin]. rewrite !(fumtv_at prec emax Hp He) by exact Hk.
  apply forN_ext. intros i s Hi. do 2 f_equal.
  destruct (nth_error cs i) as [c|] eqn:N; [|apply nth_error_None in N; cbn in HL; lia].
  rewrite (V' i k c Hi Hk N). symmetry. apply (V i k c Hi). exact N.
Qed.
End S.
