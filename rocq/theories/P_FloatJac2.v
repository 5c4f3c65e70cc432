(** C98: the rows at a corner of the reference cube are the rounded differences of two corners. *)
From Coq Require Import PeanoNat NArith ZArith Lia Bool List Reals Lra FunctionalExtensionality.
From Flocq Require Import Core IEEE754.BinarySingleNaN.
From Verif Require Import M_Type M_RefTopo M_RefGeo M_Matrix M_MultiLinear M_Float M_FloatGlobal M_FloatLocal S_Topo S_MultiLinear
  P_Type P_RefTopo P_RSum P_RefGeo2 P_ML1 P_ML2 P_Float P_FloatNear P_FloatGlobal P_FloatGlobal2 P_FloatGlobal3 P_FloatJac.
Import ListNotations.
Local Open Scope R_scope.

Section V.
Variables (prec emax : Z).
Context (Hp : Prec_gt_0 prec) (He : Prec_lt_emax prec emax).
Hypothesis H2 : (2 <= prec)%Z.
Notation float := (binary_float prec emax).
Notation FVec := (nat -> float).
Notation fexp := (SpecFloat.fexp prec emax).
Notation rnd := (round radix2 fexp (round_mode mode_NE)).
Notation add' := (fadd prec emax Hp He).
Notation sub' := (fsub prec emax Hp He).
Notation mul' := (fmul prec emax Hp He).
Notation one := (ofZ prec emax Hp He 1).
Notation zero := (ofZ prec emax Hp He 0).
Notation fw := (fw prec emax Hp He).
Notation frow := (frow prec emax Hp He).
Notation fcomb := (fcomb prec emax Hp He).
Notation is := (is prec emax).

Definition okv (v w V : R) : Prop := Rabs (rnd (v + w)) < bpow radix2 emax /\ V = rnd (v + w).
Lemma okv_0r a v : is a v -> okv v 0 v.
Proof. intro H. destruct (is_format prec emax a v H) as (G & L). unfold okv. rewrite Rplus_0_r, rnd_id by exact G. now split. Qed.
Lemma okv_0l a v : is a v -> okv 0 v v.
Proof. intro H. destruct (is_format prec emax a v H) as (G & L). unfold okv. rewrite Rplus_0_l, rnd_id by exact G. now split. Qed.
Lemma add_okv a b v w V : is a v -> is b w -> okv v w V -> is (add' a b) V.
Proof.
  intros (Fa & Ea) (Fb & Eb) (L & ->). unfold fadd. pose proof (Bplus_correct prec emax Hp He mode_NE a b Fa Fb) as C.
  rewrite Ea, Eb, Rlt_bool_true in C by exact L. destruct C as (C1 & C2 & _). now split.
Qed.
Lemma sub_okv a b va vb : is a va -> is b vb -> is_finite (sub' a b) = true -> okv (- vb) va (B2R (sub' a b)).
Proof.
  intros (Fa & Ea) (Fb & Eb) F. unfold fsub in *. pose proof (Bminus_correct prec emax Hp He mode_NE a b Fa Fb) as C.
  rewrite Ea, Eb in C. unfold okv. replace (- vb + va) with (va - vb) by ring.
  destruct (Rlt_bool_spec (Rabs (rnd (va - vb))) (bpow radix2 emax)) as [L|L].
  - split; [exact L|]. apply C.
  - exfalso. destruct C as (C & _). clear -C F. destruct (Bminus mode_NE a b) as [s|s| |s m e p]; try discriminate F; discriminate C.
Qed.
Lemma mul_sign a c r v : r = 0 \/ r = 1 \/ r = -1 -> is a r -> is c v -> is (mul' a c) (r * v).
Proof.
  intros R A C. destruct R as [ -> | [ -> | -> ] ].
  - eapply mul_exact; [exact A|exact C|rewrite Rmult_0_l; apply (is_zero prec emax Hp He)|reflexivity].
  - eapply mul_exact; [exact A|exact C|rewrite Rmult_1_l; exact C|reflexivity].
  - eapply mul_exact with (c := Bopp c); [exact A|exact C| |reflexivity]. destruct C as (F & <-). split; [now rewrite is_finite_Bopp|]. rewrite B2R_Bopp. ring.
Qed.

(** a start: the accumulator has a value, or there is none and the first product is assigned *)
Definition start (add : bool) (y : float) (v : R) : Prop := if add then is y v else v = 0.
Lemma fw_run k : forall T i add cit x rf r v V y, cones T = 0%nat -> (i < nv T)%nat -> (nv T <= length cit)%nat ->
  (forall c, In c cit -> is_finite (c k) = true) -> is rf r -> r = 0 \/ r = 1 \/ r = -1 ->
  (forall m, (m < tdim T)%nat -> is (x m) (rc T i m)) -> start add (y k) v -> forall d, okv v (r * B2R (nth i cit d k)) V ->
  is (fcomb add (combine (fw T one x rf) cit) y k) V.
Proof.
  pose proof (is_one prec emax Hp He ltac:(lia)) as O1. pose proof (is_zero prec emax Hp He) as O0.
  induction T as [|b IH|b IH]; intros i add cit x rf r v V y C Hi Hl Fc Hrf Hr Hx Hs d Hok; cbn [cones nv] in *; [| |discriminate C].
  - assert (i = 0%nat) by lia. subst i. destruct cit as [|c cit]; [simpl in Hl; lia|]. cbn [nth] in Hok. cbn [P_FloatGlobal.fw combine].
    assert (M : is (mul' rf (c k)) (r * B2R (c k))) by (apply mul_sign; [exact Hr|exact Hrf|split; [apply Fc; now left|reflexivity]]).
    destruct add; cbn [start P_FloatGlobal.fcomb] in *; unfold P_FloatGlobal.facc; cbn [fold_left fst snd].
    + apply (add_okv _ _ v (r * B2R (c k))); assumption.
    + subst v. destruct (okv_0l _ _ M) as (_ & E). destruct Hok as (_ & ->). rewrite <- E. exact M.
  - cbn [P_FloatGlobal.fw tdim rc] in *. cbv zeta. pose proof (Hx (tdim b) (Nat.lt_succ_diag_r _)) as Xn.
    set (xn := mul' one (x (tdim b))).
    rewrite combine_app by (rewrite fw_length; lia). rewrite fcomb_app by (apply combine_fw_ne; lia). rewrite fw_length.
    set (A := fcomb add _ y k). change (is (fcomb true (combine (fw b one x (mul' rf xn)) (skipn (nv b) cit)) (fun _ => A) k) V).
    assert (Fc' : forall c, In c (skipn (nv b) cit) -> is_finite (c k) = true).
    { intros c I. apply Fc. rewrite <- (firstn_skipn (nv b) cit). apply in_or_app. now right. }
    assert (L' : (nv b <= length (skipn (nv b) cit))%nat) by (rewrite skipn_length; lia).
    destruct (Nat.ltb_spec i (nv b)) as [Li|Li].
    + rewrite rc_support in Xn by lia.
      assert (Q : is xn 0) by (eapply mul_exact; [exact O1|exact Xn|exact O0|ring]).
      assert (Qc : is (sub' one xn) 1) by (eapply sub_exact; [exact O1|exact Q|exact O1|ring]).
      assert (Q1 : is (mul' rf (sub' one xn)) r) by (eapply mul_exact; [exact Hrf|exact Qc|exact Hrf|ring]).
      assert (Q2 : is (mul' rf xn) 0) by (eapply mul_exact; [exact Hrf|exact Q|exact O0|ring]).
      assert (Hx' : forall m, (m < tdim b)%nat -> is (x m) (rc b i m)) by (intros; apply Hx; lia).
      assert (EA : is A V) by (apply (IH i add cit x _ r v V y C Li ltac:(lia) Fc Q1 Hr Hx' Hs d Hok)).
      apply (IH i true _ x _ 0 V V (fun _ => A) C Li L' Fc' Q2 (or_introl eq_refl) Hx' EA d). rewrite Rmult_0_l. apply (okv_0r A). exact EA.
    + unfold upd in Xn. rewrite Nat.eqb_refl in Xn.
      assert (Q : is xn 1) by (eapply mul_exact; [exact O1|exact Xn|exact O1|ring]).
      assert (Qc : is (sub' one xn) 0) by (eapply sub_exact; [exact O1|exact Q|exact O0|ring]).
      assert (Q1 : is (mul' rf (sub' one xn)) 0) by (eapply mul_exact; [exact Hrf|exact Qc|exact O0|ring]).
      assert (Q2 : is (mul' rf xn) r) by (eapply mul_exact; [exact Hrf|exact Q|exact Hrf|ring]).
      assert (Hx' : forall m, (m < tdim b)%nat -> is (x m) (rc b (i - nv b) m)).
      { intros m Hm. specialize (Hx m ltac:(lia)). unfold upd in Hx. rewrite (proj2 (Nat.eqb_neq m (tdim b))) in Hx by lia. exact Hx. }
      assert (EA : is A v).
      { apply (IH (i - nv b)%nat add cit x _ 0 v v y C ltac:(lia) ltac:(lia) Fc Q1 (or_introl eq_refl) Hx' Hs d). rewrite Rmult_0_l.
        destruct add; cbn [start] in Hs; [now apply (okv_0r (y k))|subst v; now apply (okv_0r zero)]. }
      apply (IH (i - nv b)%nat true _ x _ r v V (fun _ => A) C ltac:(lia) L' Fc' Q2 Hr Hx' EA d).
      rewrite nth_skipn. replace (nv b + (i - nv b))%nat with i by lia. exact Hok.
Qed.

(** an edge parallel to axis j: all coordinates but the j-th are those of both corners *)
Definition edge (T : Topo) (j lo hi : nat) (x : FVec) : Prop :=
  (lo < nv T)%nat /\ (hi < nv T)%nat /\ rc T lo j = 0 /\ rc T hi j = 1 /\
  forall m, (m < tdim T)%nat -> m <> j -> is (x m) (rc T lo m) /\ is (x m) (rc T hi m).
Lemma edge_apart b j lo hi x : j <> tdim b -> (j < S (tdim b))%nat -> edge (Pri b) j lo hi x ->
  ((lo < nv b)%nat /\ edge b j lo hi x /\ is (x (tdim b)) 0) \/
  ((nv b <= lo)%nat /\ (nv b <= hi)%nat /\ edge b j (lo - nv b) (hi - nv b) x /\ is (x (tdim b)) 1).
Proof.
  intros N Hj (H1 & H3 & R1 & R3 & Hx). cbn [nv tdim rc] in *. pose proof (Hx (tdim b) (Nat.lt_succ_diag_r _) ltac:(congruence)) as (X1 & X3).
  destruct (Nat.ltb_spec lo (nv b)) as [L1|L1]; destruct (Nat.ltb_spec hi (nv b)) as [L3|L3].
  - left. split; [exact L1|]. split; [|rewrite rc_support in X1 by lia; exact X1].
    split; [exact L1|]. split; [exact L3|]. split; [exact R1|]. split; [exact R3|]. intros m Hm Nm. apply Hx; lia.
  - exfalso. rewrite rc_support in X1 by lia. unfold upd in X3. rewrite Nat.eqb_refl in X3. destruct X1 as (_ & X1), X3 as (_ & X3). lra.
  - exfalso. rewrite rc_support in X3 by lia. unfold upd in X1. rewrite Nat.eqb_refl in X1. destruct X1 as (_ & X1), X3 as (_ & X3). lra.
  - right. split; [exact L1|]. split; [exact L3|]. unfold upd in *. rewrite Nat.eqb_refl in X1. split; [|exact X1].
    rewrite (proj2 (Nat.eqb_neq j (tdim b)) N) in R1, R3. split; [lia|]. split; [lia|]. split; [exact R1|]. split; [exact R3|].
    intros m Hm Nm. specialize (Hx m ltac:(lia) Nm). rewrite (proj2 (Nat.eqb_neq m (tdim b))) in Hx by lia. exact Hx.
Qed.
Lemma frow_ne T j x rf (cit : list FVec) : cones T = 0%nat -> (j < tdim T)%nat -> (nv T <= length cit)%nat -> combine (frow T j one x rf) cit <> [].
Proof. intros C Hj L. apply combine_ne; rewrite frow_length by assumption; [apply nv_pos|exact L]. Qed.
Lemma skip_finite k n (cit : list FVec) : (forall c, In c cit -> is_finite (c k) = true) -> forall c, In c (skipn n cit) -> is_finite (c k) = true.
Proof. intros H c I. apply H. rewrite <- (firstn_skipn n cit). apply in_or_app. now right. Qed.
Lemma base_edge b lo hi x : edge (Pri b) (tdim b) lo hi x ->
  (lo < nv b)%nat /\ (nv b <= hi)%nat /\ (hi - nv b < nv b)%nat /\ forall m, (m < tdim b)%nat -> is (x m) (rc b lo m) /\ is (x m) (rc b (hi - nv b) m).
Proof.
  intros (H1 & H3 & R1 & R3 & Hx). cbn [nv tdim rc] in *.
  destruct (Nat.ltb_spec lo (nv b)) as [L1|L1]; [|unfold upd in R1; rewrite Nat.eqb_refl in R1; lra].
  destruct (Nat.ltb_spec hi (nv b)) as [L3|L3]; [rewrite rc_support in R3 by lia; lra|].
  split; [exact L1|]. split; [exact L3|]. split; [lia|]. intros m Hm. specialize (Hx m ltac:(lia) ltac:(lia)). unfold upd in Hx.
  rewrite (proj2 (Nat.eqb_neq m (tdim b))) in Hx by lia. exact Hx.
Qed.
Lemma neg_zero rf : is rf 0 -> is (Bopp rf) 0.
Proof. intros (F & E). split; [now rewrite is_finite_Bopp|]. rewrite B2R_Bopp, E. ring. Qed.

Lemma frow_zero k : forall T j lo hi add cit x rf v y, cones T = 0%nat -> (j < tdim T)%nat -> (nv T <= length cit)%nat ->
  (forall c, In c cit -> is_finite (c k) = true) -> is rf 0 -> edge T j lo hi x -> start add (y k) v ->
  is (fcomb add (combine (frow T j one x rf) cit) y k) v.
Proof.
  pose proof (is_one prec emax Hp He ltac:(lia)) as O1. pose proof (is_zero prec emax Hp He) as O0.
  induction T as [|b IH|b IH]; intros j lo hi add cit x rf v y C Hj Hl Fc Hrf E Hs; cbn [cones nv tdim] in *; [lia| |discriminate C].
  pose proof (skip_finite k (nv b) cit Fc) as Fc'. assert (L' : (nv b <= length (skipn (nv b) cit))%nat) by (rewrite skipn_length; lia).
  cbn [P_FloatJac.frow]. cbv zeta. assert (Ev : okv v (0 * 0) v).
  { rewrite Rmult_0_l. destruct add; cbn [start] in Hs; [now apply (okv_0r (y k))|subst v; now apply (okv_0r zero)]. }
  destruct (Nat.eqb_spec j (tdim b)) as [Ej|Nj].
  - subst j. destruct (base_edge b lo hi x E) as (L1 & L3 & L4 & Hx).
    rewrite combine_app by (rewrite fw_length; lia). rewrite fcomb_app by (apply combine_fw_ne; lia). rewrite fw_length.
    set (A := fcomb add _ y k). change (is (fcomb true (combine (fw b one x rf) (skipn (nv b) cit)) (fun _ => A) k) v).
    assert (EA : is A v).
    { apply (fw_run k b lo add cit x (Bopp rf) 0 v v y C L1 ltac:(lia) Fc (neg_zero rf Hrf) (or_introl eq_refl)) with (d := fun _ => zero); [intros m Hm; apply Hx; exact Hm|exact Hs|].
      rewrite Rmult_0_l in *. exact Ev. }
    apply (fw_run k b lo true (skipn (nv b) cit) x rf 0 v v (fun _ => A) C L1 L' Fc' Hrf (or_introl eq_refl)) with (d := fun _ => zero); [intros m Hm; apply Hx; exact Hm|exact EA|].
    rewrite Rmult_0_l in *. exact Ev.
  - assert (FL : forall r, length (frow b j one x r) = nv b) by (intro r; apply frow_length; [exact C|lia]).
    rewrite combine_app by (rewrite FL; lia). rewrite fcomb_app by (apply frow_ne; [exact C|lia|lia]). rewrite FL.
    set (xn := mul' one (x (tdim b))). set (A := fcomb add _ y k).
    change (is (fcomb true (combine (frow b j one x (mul' rf xn)) (skipn (nv b) cit)) (fun _ => A) k) v).
    assert (Z : exists lo' hi' t, edge b j lo' hi' x /\ is (x (tdim b)) t /\ (t = 0 \/ t = 1)).
    { destruct (edge_apart b j lo hi x Nj ltac:(lia) E) as [(_ & E' & X)|(_ & _ & E' & X)]; eauto 8. }
    destruct Z as (lo' & hi' & t & E' & X & Ht).
    assert (Q : is xn t) by (eapply mul_exact; [exact O1|exact X|exact X|ring]).
    assert (Qc : is (sub' one xn) (1 - t)) by (destruct Ht as [ -> | -> ]; (eapply sub_exact; [exact O1|exact Q| |reflexivity]); [rewrite Rminus_0_r; exact O1|rewrite Rminus_diag_eq by reflexivity; exact O0]).
    assert (Q1 : is (mul' rf (sub' one xn)) 0) by (eapply mul_exact; [exact Hrf|exact Qc|exact O0|ring]).
    assert (Q2 : is (mul' rf xn) 0) by (eapply mul_exact; [exact Hrf|exact Q|exact O0|ring]).
    assert (EA : is A v) by (apply (IH j lo' hi' add cit x _ v y C ltac:(lia) ltac:(lia) Fc Q1 E' Hs)).
    apply (IH j lo' hi' true _ x _ v (fun _ => A) C ltac:(lia) L' Fc' Q2 E' EA).
Qed.
Lemma frow_one k : forall T j lo hi add cit x rf y, cones T = 0%nat -> (j < tdim T)%nat -> (nv T <= length cit)%nat ->
  (forall c, In c cit -> is_finite (c k) = true) -> is rf 1 -> edge T j lo hi x -> start add (y k) 0 ->
  forall d, let D := sub' (nth hi cit d k) (nth lo cit d k) in is_finite D = true ->
  is (fcomb add (combine (frow T j one x rf) cit) y k) (B2R D).
Proof.
  pose proof (is_one prec emax Hp He ltac:(lia)) as O1. pose proof (is_zero prec emax Hp He) as O0.
  induction T as [|b IH|b IH]; intros j lo hi add cit x rf y C Hj Hl Fc Hrf E Hs d D FD; cbn [cones nv tdim] in *; [lia| |discriminate C].
  pose proof (skip_finite k (nv b) cit Fc) as Fc'. assert (L' : (nv b <= length (skipn (nv b) cit))%nat) by (rewrite skipn_length; lia).
  cbn [P_FloatJac.frow]. cbv zeta.
  destruct (Nat.eqb_spec j (tdim b)) as [Ej|Nj].
  - subst j. destruct (base_edge b lo hi x E) as (L1 & L3 & L4 & Hx).
    rewrite combine_app by (rewrite fw_length; lia). rewrite fcomb_app by (apply combine_fw_ne; lia). rewrite fw_length.
    set (A := fcomb add _ y k). change (is (fcomb true (combine (fw b one x rf) (skipn (nv b) cit)) (fun _ => A) k) (B2R D)).
    assert (F1 : is_finite (nth lo cit d k) = true) by (apply Fc, nth_In; lia).
    assert (F3 : is_finite (nth hi cit d k) = true) by (apply Fc, nth_In; lia).
    assert (NR : is (Bopp rf) (-1)) by (destruct Hrf as (F & V); split; [now rewrite is_finite_Bopp|rewrite B2R_Bopp, V; ring]).
    assert (EA : is A (- B2R (nth lo cit d k))).
    { apply (fw_run k b lo add cit x (Bopp rf) (-1) 0 _ y C L1 ltac:(lia) Fc NR (or_intror (or_intror eq_refl))) with (d := d); [intros m Hm; apply Hx; exact Hm|exact Hs|].
      replace (-1 * B2R (nth lo cit d k)) with (- B2R (nth lo cit d k)) by ring. apply (okv_0l (Bopp (nth lo cit d k))).
      split; [now rewrite is_finite_Bopp|apply B2R_Bopp]. }
    apply (fw_run k b (hi - nv b) true (skipn (nv b) cit) x rf 1 (- B2R (nth lo cit d k)) _ (fun _ => A) C L4 L' Fc' Hrf (or_intror (or_introl eq_refl))) with (d := d); [intros m Hm; apply Hx; exact Hm|exact EA|].
    rewrite nth_skipn, Rmult_1_l. replace (nv b + (hi - nv b))%nat with hi by lia.
    apply sub_okv; [now split|now split|exact FD].
  - assert (FL : forall r, length (frow b j one x r) = nv b) by (intro r; apply frow_length; [exact C|lia]).
    rewrite combine_app by (rewrite FL; lia). rewrite fcomb_app by (apply frow_ne; [exact C|lia|lia]). rewrite FL.
    set (xn := mul' one (x (tdim b))). set (A := fcomb add _ y k).
    change (is (fcomb true (combine (frow b j one x (mul' rf xn)) (skipn (nv b) cit)) (fun _ => A) k) (B2R D)).
    destruct (edge_apart b j lo hi x Nj ltac:(lia) E) as [(L1 & E' & X)|(L1 & L3 & E' & X)].
    + assert (Q : is xn 0) by (eapply mul_exact; [exact O1|exact X|exact X|ring]).
      assert (Qc : is (sub' one xn) 1) by (eapply sub_exact; [exact O1|exact Q|exact O1|ring]).
      assert (Q1 : is (mul' rf (sub' one xn)) 1) by (eapply mul_exact; [exact Hrf|exact Qc|exact O1|ring]).
      assert (Q2 : is (mul' rf xn) 0) by (eapply mul_exact; [exact Hrf|exact Q|exact O0|ring]).
      assert (EA : is A (B2R D)) by (apply (IH j lo hi add cit x _ y C ltac:(lia) ltac:(lia) Fc Q1 E' Hs d FD)).
      apply (frow_zero k b j lo hi true _ x _ _ (fun _ => A) C ltac:(lia) L' Fc' Q2 E' EA).
    + assert (Q : is xn 1) by (eapply mul_exact; [exact O1|exact X|exact X|ring]).
      assert (Qc : is (sub' one xn) 0) by (eapply sub_exact; [exact O1|exact Q|exact O0|ring]).
      assert (Q1 : is (mul' rf (sub' one xn)) 0) by (eapply mul_exact; [exact Hrf|exact Qc|exact O0|ring]).
      assert (Q2 : is (mul' rf xn) 1) by (eapply mul_exact; [exact Hrf|exact Q|exact O1|ring]).
      assert (EA : is A 0) by (apply (frow_zero k b j _ _ add cit x _ 0 y C ltac:(lia) ltac:(lia) Fc Q1 E' Hs)).
      pose proof (IH j _ _ true (skipn (nv b) cit) x _ (fun _ => A) C ltac:(lia) L' Fc' Q2 E' EA d) as R. cbv zeta in R. rewrite !nth_skipn in R.
      replace (nv b + (lo - nv b))%nat with lo in R by lia. replace (nv b + (hi - nv b))%nat with hi in R by lia. apply R. exact FD.
Qed.
End V.
