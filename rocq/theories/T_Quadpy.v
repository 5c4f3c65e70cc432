(** C78, continued: python/dune/geometry/quadpy.py. *)
From Coq Require Import NArith ZArith PeanoNat Bool List Lia Reals Lra String.
From Verif Require Import M_Type M_TypeIndex M_RefTopo M_RefGeo M_PyRules M_PyClass
  P_Topo P_Type P_Type2 P_RefGeo3 P_PyRules P_PyClass T_TypeString.
Import ListNotations.
Local Open Scope string_scope.
Local Open Scope list_scope.

(** ** The shapes *)
Lemma domain_same s t : gt_none t = false -> gt_eqb s t = true -> quadpyDomain s = quadpyDomain t.
Proof.
  intros Nt E. destruct (eqb_cases s t Nt E) as (Ns & D & S).
  assert (L : N.lor (gt_id s) 1 = N.lor (gt_id t) 1).
  { apply N.bits_inj. intros n. rewrite !N.lor_spec. destruct (N.eq_dec n 0) as [->|Hn]; [now rewrite !orb_true_r|].
    f_equal. replace n with (N.pred n + 1)%N by lia. rewrite <- !N.shiftr_spec by lia. now rewrite S. }
  unfold quadpyDomain, isLine, isTriangle, isQuadrilateral, isTetrahedron, isHexahedron, isPyramidT, isPrismT, named.
  now rewrite Ns, Nt, D, L.
Qed.

(** rules exist exactly for lines, triangles, quadrilaterals, tetrahedra and hexahedra; all
    other types raise ValueError.  The test for a line accepts none(1). *)
Theorem C78_quadpy_shapes : forall t, wf t ->
  match quadpyDomain t with
  | QRet (d, _) =>
      (gt_dim t = 1%nat /\ d = QLine)
      \/ (gt_none t = false /\ ((gt_dim t = 2%nat /\ isSimplex t = true /\ d = QTriangle) \/ (gt_dim t = 2%nat /\ isCube t = true /\ d = QQuadrilateral)
          \/ (gt_dim t = 3%nat /\ isSimplex t = true /\ d = QTetrahedron) \/ (gt_dim t = 3%nat /\ isCube t = true /\ d = QHexahedron)))
  | QRaise e => e = QValueError /\ gt_dim t <> 1%nat
      /\ (gt_none t = true \/ gt_dim t = 0%nat \/ (3 < gt_dim t)%nat \/ (gt_dim t = 3%nat /\ isSimplex t = false /\ isCube t = false))
  end.
Proof.
  intros [dim b id] [W1 W2]. cbn [gt_dim gt_id] in *.
  unfold quadpyDomain, isLine, isTriangle, isQuadrilateral, isTetrahedron, isHexahedron, isPyramidT, isPrismT, isSimplex, isCube, named.
  cbn [gt_dim gt_none gt_id]. destruct dim as [|[|[|[|dim]]]].
  - cbn [Nat.eqb]. rewrite !andb_false_r. cbn. intuition lia.
  - cbn. left. auto.
  - destruct b; [cbn; intuition congruence|]. assert (X : (id = 0 \/ id = 1 \/ id = 2 \/ id = 3)%N) by (unfold bit in W2; cbn in W2; lia).
    destruct X as [->|[->|[->| ->]]]; cbn; right; intuition congruence.
  - destruct b; [cbn; intuition congruence|].
    assert (X : (id = 0 \/ id = 1 \/ id = 2 \/ id = 3 \/ id = 4 \/ id = 5 \/ id = 6 \/ id = 7)%N) by (unfold bit in W2; cbn in W2; lia).
    destruct X as [->|[->|[->|[->|[->|[->|[->| ->]]]]]]]; cbn; first [right; intuition congruence|intuition congruence].
  - cbn [Nat.eqb]. rewrite !andb_false_r. cbn [andb]. intuition lia.
Qed.
Theorem C78_quadpy_none_refuted : exists t d v, gt_none t = true /\ quadpyDomain t = QRet (d, v).
Proof. exists (mkGT 1 true 0). do 2 eexists. split; reflexivity. Qed.

(** the vertices handed to quadpy are the corners of the reference element in its numbering,
    and the boxes are the reference cubes *)
Theorem C78_quadpy_vertices : forall t d v, wf t -> gt_none t = false -> quadpyDomain t = QRet (d, v) ->
  match v with
  | VPoints l => l = map (fun c => map c (seq 0 (gt_dim t))) (referenceCorners (gt_id t) (gt_dim t))
  | VBox l => List.length l = gt_dim t /\ forall (x : Vec) tol,
      checkInside (gt_id t) (gt_dim t) x tol 1 = true <-> forall k, (k < gt_dim t)%nat -> (fst (nth k l (0, 0)) - tol < x k < snd (nth k l (0, 0)) + tol)%R
  end.
Proof.
  intros [dim b id] d v [W1 W2] Nb. cbn [gt_dim gt_id gt_none] in *. subst b.
  unfold quadpyDomain, isLine, isTriangle, isQuadrilateral, isTetrahedron, isHexahedron, isPyramidT, isPrismT, named.
  cbn [gt_dim gt_none gt_id].
  assert (C2 : forall id, (id = 2 \/ id = 3)%N -> forall (x : Vec) tol,
    checkInside id 2 x tol 1 = true <-> forall k, (k < 2)%nat -> (fst (nth k [(0, 1); (0, 1)]%R (0, 0)%R) - tol < x k < snd (nth k [(0, 1); (0, 1)]%R (0, 0)%R) + tol)%R).
  { intros i Hi x tol. assert (E : checkInside i 2 x tol 1 = checkInside 3 2 x tol 1) by (destruct Hi as [->| ->]; reflexivity).
    rewrite E. cbn. unfold Rltb. split.
    - intros H. repeat (match type of H with context [Rlt_dec ?a ?b] => destruct (Rlt_dec a b) end; cbn in H; try discriminate). intros [|[|k]] Hk; cbn; try lra; lia.
    - intros H. pose proof (H 0%nat ltac:(lia)) as H0. pose proof (H 1%nat ltac:(lia)) as H1. cbn in H0, H1.
      repeat (match goal with |- context [Rlt_dec ?a ?b] => destruct (Rlt_dec a b) end; [|exfalso; lra]; cbn). reflexivity. }
  assert (C3 : forall id, (id = 6 \/ id = 7)%N -> forall (x : Vec) tol,
    checkInside id 3 x tol 1 = true <-> forall k, (k < 3)%nat -> (fst (nth k [(0, 1); (0, 1); (0, 1)]%R (0, 0)%R) - tol < x k < snd (nth k [(0, 1); (0, 1); (0, 1)]%R (0, 0)%R) + tol)%R).
  { intros i Hi x tol. assert (E : checkInside i 3 x tol 1 = checkInside 7 3 x tol 1) by (destruct Hi as [->| ->]; reflexivity).
    rewrite E. cbn. unfold Rltb. split.
    - intros H. repeat (match type of H with context [Rlt_dec ?a ?b] => destruct (Rlt_dec a b) end; cbn in H; try discriminate). intros [|[|[|k]]] Hk; cbn; try lra; lia.
    - intros H. pose proof (H 0%nat ltac:(lia)) as H0. pose proof (H 1%nat ltac:(lia)) as H1. pose proof (H 2%nat ltac:(lia)) as H2. cbn in H0, H1, H2.
      repeat (match goal with |- context [Rlt_dec ?a ?b] => destruct (Rlt_dec a b) end; [|exfalso; lra]; cbn). reflexivity. }
  destruct dim as [|[|[|[|dim]]]].
  - cbn [Nat.eqb]. rewrite !andb_false_r. discriminate.
  - cbn [Nat.eqb]. intros H. injection H as <- <-. assert (X : (id = 0 \/ id = 1)%N) by (unfold bit in W2; cbn in W2; lia).
    destruct X as [->| ->]; reflexivity.
  - assert (X : (id = 0 \/ id = 1 \/ id = 2 \/ id = 3)%N) by (unfold bit in W2; cbn in W2; lia).
    destruct X as [->|[->|[->| ->]]]; cbn [Nat.eqb negb andb N.lor N.eqb Pos.lor Pos.eqb]; intros H; injection H as <- <-; try reflexivity;
      (split; [reflexivity|apply C2; auto]).
  - assert (X : (id = 0 \/ id = 1 \/ id = 2 \/ id = 3 \/ id = 4 \/ id = 5 \/ id = 6 \/ id = 7)%N) by (unfold bit in W2; cbn in W2; lia).
    destruct X as [->|[->|[->|[->|[->|[->|[->| ->]]]]]]]; cbn [Nat.eqb negb andb N.lor N.eqb Pos.lor Pos.eqb]; intros H; try discriminate H;
      injection H as <- <-; try reflexivity; (split; [reflexivity|apply C3; auto]).
  - cbn [Nat.eqb]. rewrite !andb_false_r. discriminate.
Qed.

(** ** The cache *)
Section Cache.
Context {Scheme : Type} (scheme : Domain -> string -> option Scheme) (degree : Scheme -> Z).
Variable hpair : Z -> Z -> Z.
Variable hdesc : Desc -> Z.
Variable objHash : nat -> Z.
Notation rule := (qrule scheme hpair hdesc objHash).
Notation run := (qrun scheme hpair hdesc objHash).
Notation kh := (qkey_hash hpair hdesc objHash).

Lemma desc_eqb_eq a b : desc_eqb a b = true <-> a = b.
Proof.
  destruct a as [o m], b as [o' m']. unfold desc_eqb. cbn [ds_order ds_method]. rewrite andb_true_iff.
  assert (A : optZ_eqb o o' = true <-> o = o') by (destruct o, o'; cbn; rewrite ?Z.eqb_eq; split; congruence).
  assert (B : optS_eqb m m' = true <-> m = m') by (destruct m, m'; cbn; rewrite ?String.eqb_eq; split; congruence).
  rewrite A, B. split; [intros [-> ->]; reflexivity|intros H; injection H; auto].
Qed.

Definition QInv (s : @QState Scheme) : Prop :=
  (forall k v, In (k, v) (qs_cache s) -> (fst v < qs_next s)%nat /\ exists t d dv, k = (KType t, d) /\ quadpyDomain t = QRet dv /\ newQuad scheme dv d = QRet (snd v))
  /\ NoDup (map (fun e => fst (snd e)) (qs_cache s)).
Lemma nodup_snoc {A B} (f : A -> B) l x : NoDup (map f l) -> ~ In (f x) (map f l) -> NoDup (map f (l ++ [x])).
Proof.
  intros H N. rewrite map_app. cbn. apply NoDup_Add with (a := f x) (l := map f l); [rewrite <- (app_nil_r (map f l)) at 1; apply Add_app|]. now split.
Qed.
Lemma qstep_inv s g d : QInv s -> QInv (fst (rule s g d)) /\ exists e, qs_cache (fst (rule s g d)) = qs_cache s ++ e.
Proof.
  intros [I1 I2]. unfold qrule. cbn [fst]. destruct (dget _ _ (qs_cache s) _) as [[i q]|] eqn:G; [cbn [fst]; split; [split; assumption|exists []; now rewrite app_nil_r]|].
  assert (K : QInv s /\ exists e, qs_cache s = qs_cache s ++ e) by (split; [split; assumption|exists []; now rewrite app_nil_r]).
  destruct (attr_type g) as [t|n|n] eqn:A; try exact K. destruct (quadpyDomain t) as [dv|e] eqn:D; [|exact K].
  destruct (_ && _)%bool; [exact K|]. destruct (newQuad scheme dv d) as [q|e] eqn:Q; [|exact K].
  cbn [fst qs_cache]. rewrite (dset_miss _ _ _ _ _ G). split; [|now eexists]. split; cbn [qs_cache qs_next].
  - intros k v I. apply in_app_or in I. destruct I as [I|[I|[]]].
    + destruct (I1 _ _ I) as [L E]. split; [lia|exact E].
    + injection I as <- <-. cbn [fst snd]. split; [lia|]. exists t, d, dv. auto.
  - apply nodup_snoc; [exact I2|]. cbn [fst snd].
    intros I. apply in_map_iff in I. destruct I as ([k v] & E & I). destruct (I1 _ _ I) as [L _]. cbn in E. lia.
Qed.
Lemma qrun_inv l : forall s, QInv s -> QInv (run l s) /\ exists e, qs_cache (run l s) = qs_cache s ++ e.
Proof.
  induction l as [|[g d] l IH]; intros s I; [split; [exact I|exists []; now rewrite app_nil_r]|].
  cbn [qrun fold_left fst snd]. destruct (qstep_inv s g d I) as [I1 (e & E)]. destruct (IH _ I1) as [I2 (e' & E')].
  unfold qrun in I2, E'. split; [exact I2|]. exists (e ++ e'). now rewrite E', E, app_assoc.
Qed.
Lemma qinit_inv : QInv qs_init.
Proof. split; [intros k v []|constructor]. Qed.
Lemma qkey_refl t d : same_key kh qkey_eqb (KType t, d) (KType t, d) = true.
Proof. unfold same_key, qkey_eqb. cbn [fst snd key_eqb]. now rewrite Z.eqb_refl, gt_eqb_refl, (proj2 (desc_eqb_eq d d) eq_refl). Qed.
Lemma qkey_same t t2 d : gt_none t = false -> gt_eqb t t2 = true ->
  forall k', same_key kh qkey_eqb k' (KType t, d) = same_key kh qkey_eqb k' (KType t2, d).
Proof.
  intros Nt E [k' d']. unfold same_key, qkey_hash, qkey_eqb. cbn [fst snd key_hash].
  rewrite <- (C61_hash t t2 Nt E). f_equal. f_equal.
  destruct k' as [s|n|n]; cbn [key_eqb]; try reflexivity. apply eq_iff_eq_true. split; intros H.
  - eapply gt_eqb_trans; [exact H|exact E].
  - eapply gt_eqb_trans; [exact H|now apply gt_eqb_sym].
Qed.
Lemma qafter s g t d s1 i q : attr_type g = KType t -> rule s g d = (s1, QRet (RQuad i q)) ->
  dget kh qkey_eqb (qs_cache s1) (KType t, d) = Some (i, q).
Proof.
  intros A. unfold qrule. cbn [fst]. rewrite A. destruct (dget _ _ (qs_cache s) _) as [[i' q']|] eqn:G; [intros X; injection X as <- <- <-; exact G|].
  destruct (quadpyDomain t) as [dv|e]; [|discriminate]. destruct (_ && _)%bool; [discriminate|].
  destruct (newQuad scheme dv d) as [q'|e]; [|discriminate]. intros X. injection X as <- <- <-. cbn [qs_cache].
  rewrite (dset_miss _ _ _ _ _ G). apply dget_new; [exact G|apply qkey_refl].
Qed.

(** An object once returned is returned for ever for equal types and the same description, and
    two calls that return the same object had equal types and the same description. *)
Theorem C78_quadpy_same_object : forall l g t d s1 i q l' g' t',
  attr_type g = KType t -> gt_none t = false -> rule (run l qs_init) g d = (s1, QRet (RQuad i q)) ->
  attr_type g' = KType t' -> gt_eqb t t' = true ->
  rule (run l' s1) g' d = (run l' s1, QRet (RQuad i q)).
Proof.
  intros l g t d s1 i q l' g' t' A Nt R A' E. pose proof (qafter _ _ _ _ _ _ _ A R) as D.
  destruct (qrun_inv l _ qinit_inv) as [I0 _]. destruct (qstep_inv _ g d I0) as [I1 _]. rewrite R in I1. cbn [fst] in I1.
  destruct (qrun_inv l' _ I1) as [_ (e & X)]. apply (dget_app _ _ _ e) in D. rewrite <- X in D.
  rewrite (dget_ext _ _ _ _ (KType t', d)) in D by (now apply qkey_same).
  unfold qrule. cbv zeta. cbn [fst]. rewrite A'. unfold QKey in *. rewrite D. reflexivity.
Qed.
Theorem C78_quadpy_different_objects : forall l g t d s1 i q l' g' t' d' s2 q',
  attr_type g = KType t -> rule (run l qs_init) g d = (s1, QRet (RQuad i q)) ->
  attr_type g' = KType t' -> rule (run l' s1) g' d' = (s2, QRet (RQuad i q')) ->
  gt_eqb t t' = true /\ d = d' /\ q = q'.
Proof.
  intros l g t d s1 i q l' g' t' d' s2 q' A R A' R'.
  destruct (qrun_inv l _ qinit_inv) as [I0 _]. destruct (qstep_inv _ g d I0) as [I1 _]. rewrite R in I1. cbn [fst] in I1.
  destruct (qrun_inv l' _ I1) as [I2 (e & X)]. destruct (qstep_inv _ g' d' I2) as [I3 (e' & X')]. rewrite R' in I3, X'. cbn [fst] in I3, X'.
  pose proof (qafter _ _ _ _ _ _ _ A R) as D. pose proof (qafter _ _ _ _ _ _ _ A' R') as D'.
  apply (dget_app _ _ _ e) in D. rewrite <- X in D. apply (dget_app _ _ _ e') in D. rewrite <- X' in D.
  apply dget_in in D, D'. destruct D as (k1 & A1 & B1), D' as (k2 & A2 & B2).
  assert (K : (k1, (i, q)) = (k2, (i, q'))).
  { destruct I3 as [_ ND]. revert A1 A2 ND. generalize (qs_cache s2). intros c. induction c as [|x c IH]; [intros []|].
    cbn [map]. intros A1 A2 ND. inversion_clear ND as [|? ? N1 N2].
    destruct A1 as [->|A1], A2 as [A2|A2]; [congruence| | |now apply IH].
    - elim N1. apply in_map_iff. exists (k2, (i, q')). cbn [fst snd]. auto.
    - elim N1. apply in_map_iff. exists (k1, (i, q)). subst x. cbn [fst snd]. auto. }
  injection K as -> <-. destruct I3 as [J _]. destruct (J _ _ A2) as (_ & u & du & dv & -> & _).
  unfold same_key, qkey_eqb in B1, B2. cbn [fst snd key_eqb] in B1, B2.
  apply andb_prop in B1, B2. destruct B1 as [_ B1], B2 as [_ B2]. apply andb_prop in B1, B2. destruct B1 as [B1 C1], B2 as [B2 C2].
  apply desc_eqb_eq in C1, C2. split; [eapply gt_eqb_trans; [apply gt_eqb_sym; exact B1|exact B2]|]. split; congruence.
Qed.

(** What a call returns in any history: that of a call with an empty cache.  The scheme is
    quadpy's scheme of the name in the description for the shape of the type; the order in the
    description has no influence on it. *)
Theorem C78_quadpy_value : forall l g t d s1 i q, attr_type g = KType t -> gt_none t = false ->
  rule (run l qs_init) g d = (s1, QRet (RQuad i q)) ->
  exists m v, ds_method d = Some m /\ quadpyDomain t = QRet (qp_dom q, v) /\ qp_verts q = v
    /\ scheme (qp_dom q) m = Some (qp_scheme q) /\ qp_method q = m.
Proof.
  intros l g t d s1 i q A Nt R. destruct (qrun_inv l _ qinit_inv) as [I0 _]. destruct (qstep_inv _ g d I0) as [I1 _]. rewrite R in I1. cbn [fst] in I1.
  pose proof (qafter _ _ _ _ _ _ _ A R) as D. apply dget_in in D. destruct D as (k & K & E).
  destruct I1 as [J _]. destruct (J _ _ K) as (_ & u & du & dv & -> & Q1 & Q2). cbn [snd] in Q2.
  unfold same_key, qkey_eqb in E. cbn [fst snd key_eqb] in E. apply andb_prop in E. destruct E as [_ E]. apply andb_prop in E. destruct E as [E F].
  apply desc_eqb_eq in F. subst du. rewrite (domain_same u t Nt E) in Q1.
  unfold newQuad in Q2. destruct (ds_method d) as [m|]; [|discriminate]. destruct (scheme (fst dv) m) as [sc|] eqn:S; [|discriminate].
  injection Q2 as <-. cbn [qp_dom qp_verts qp_scheme qp_method]. exists m, (snd dv). destruct dv. cbn [fst snd] in *. auto.
Qed.
Theorem C78_quadpy_order_ignored : forall l l' g t d s1 i q g' t' d' s2 i' q',
  attr_type g = KType t -> gt_none t = false -> attr_type g' = KType t' -> gt_eqb t t' = true -> ds_method d = ds_method d' ->
  rule (run l qs_init) g d = (s1, QRet (RQuad i q)) -> rule (run l' qs_init) g' d' = (s2, QRet (RQuad i' q')) ->
  qp_scheme q = qp_scheme q' /\ qp_verts q = qp_verts q' /\ qp_degree degree q = qp_degree degree q'.
Proof.
  intros l l' g t d s1 i q g' t' d' s2 i' q' A Nt A' E M R R'.
  assert (Nt' : gt_none t' = false) by (destruct (eqb_cases t' t Nt (gt_eqb_sym _ _ E)); assumption).
  destruct (C78_quadpy_value _ _ _ _ _ _ _ A Nt R) as (m & v & M1 & D1 & V1 & S1 & _).
  destruct (C78_quadpy_value _ _ _ _ _ _ _ A' Nt' R') as (m' & v' & M2 & D2 & V2 & S2 & _).
  rewrite (domain_same t t' Nt' E), D2 in D1. injection D1 as D1 D3. assert (m = m') by congruence. subst m'. rewrite D1 in S2.
  assert (X : qp_scheme q = qp_scheme q') by congruence. split; [exact X|]. split; [congruence|]. unfold qp_degree. now rewrite X.
Qed.
(** ... so the order of the rule need not be the order asked for *)
Theorem C78_quadpy_order_refuted : forall m sc, scheme QTriangle m = Some sc ->
  exists p s1 i q, rule qs_init (OType (mkGT 2 false 0)) (mkDesc (Some p) (Some m)) = (s1, QRet (RQuad i q)) /\ (qp_degree degree q < p)%Z.
Proof.
  intros m sc H. exists (Z.max 1 (degree sc + 1)). do 3 eexists. unfold qrule. cbn [attr_type fst qs_cache dget find qs_init option_map ds_method ds_order].
  change (quadpyDomain (mkGT 2 false 0)) with (QRet (QTriangle, VPoints [[0; 0]; [1; 0]; [0; 1]]%R)). cbv iota beta.
  assert (O : order_true (Some (Z.max 1 (degree sc + 1))) = true) by (unfold order_true; destruct (Z.eqb_spec (Z.max 1 (degree sc + 1)) 0); [lia|reflexivity]).
  rewrite O, andb_false_r. unfold newQuad. cbn [ds_method ds_order fst snd]. rewrite H. split; [reflexivity|]. unfold qp_degree. cbn. lia.
Qed.

(** rules(methods): an entity gets what its type gets, except that an AttributeError from
    within rule, e.g. of a method that does not exist, becomes a KeyError *)
Theorem C78_quadpy_rules : forall methods s t, (forall t', methods (OEntity t') = None) ->
  let byType := qrules scheme hpair hdesc objHash methods s (OType t) in
  qrules scheme hpair hdesc objHash methods s (OEntity t)
  = match byType with (s', QRaise QAttributeError) => (s', QRaise QKeyError) | r => r end.
Proof.
  intros methods s t H byType. subst byType. unfold qrules. rewrite H. destruct (methods (OType t)) as [d|]; [|reflexivity].
  destruct (rule s (OType t) d) as [s' [r|[]]]; reflexivity.
Qed.
Theorem C78_quadpy_masked_refuted : forall m, scheme QTriangle m = None -> m <> "" ->
  exists methods t, let s := qs_init in
    snd (qrules scheme hpair hdesc objHash methods s (OType t)) = QRaise QAttributeError
    /\ snd (qrules scheme hpair hdesc objHash methods s (OEntity t)) = QRaise QKeyError.
Proof.
  intros m H Nm. exists (fun o => match o with OType _ => Some (mkDesc None (Some m)) | _ => None end), (mkGT 2 false 0). cbv zeta.
  assert (R : rule qs_init (OType (mkGT 2 false 0)) (mkDesc None (Some m)) = (qs_init, QRaise QAttributeError)).
  { unfold qrule. cbn [attr_type fst qs_cache dget find qs_init option_map ds_method ds_order].
    change (quadpyDomain (mkGT 2 false 0)) with (QRet (QTriangle, VPoints [[0; 0]; [1; 0]; [0; 1]]%R)). cbv iota beta.
    assert (M : method_true (Some m) = true) by (unfold method_true; destruct (String.eqb_spec m ""); [contradiction|reflexivity]).
    rewrite M. cbn [negb andb]. unfold newQuad. cbn [ds_method fst]. rewrite H. reflexivity. }
  unfold qrules. rewrite R. split; reflexivity.
Qed.
(** Without an order (None or 0) and a method (None or the empty name) rule returns the module
    of quadpy, in any history, and only then. *)
Lemma qrun_asked l : forall k v, In (k, v) (qs_cache (run l qs_init)) -> method_true (ds_method (snd k)) || order_true (ds_order (snd k)) = true.
Proof.
  assert (G : forall l s, (forall k v, In (k, v) (qs_cache s) -> method_true (ds_method (snd k)) || order_true (ds_order (snd k)) = true) ->
    forall k v, In (k, v) (qs_cache (run l s)) -> method_true (ds_method (snd k)) || order_true (ds_order (snd k)) = true).
  { clear l. induction l as [|[g d] l IH]; intros s H; [exact H|]. cbn [qrun fold_left fst snd]. apply IH. clear IH.
    unfold qrule. cbn [fst]. destruct (dget _ _ (qs_cache s) _) as [[i q]|] eqn:E; [exact H|].
    destruct (attr_type g) as [t|n|n]; try exact H. destruct (quadpyDomain t) as [dv|e]; [|exact H].
    destruct (method_true (ds_method d)) eqn:Mt; destruct (order_true (ds_order d)) eqn:Ot; cbn [negb andb]; try exact H;
      (destruct (newQuad scheme dv d) as [q|e]; [|exact H]; cbn [fst qs_cache]; rewrite (dset_miss _ _ _ _ _ E); intros k v I; apply in_app_or in I;
       destruct I as [I|[I|[]]]; [now apply (H k v)|injection I as <- <-; cbn [snd]; rewrite Mt, Ot; reflexivity]). }
  apply G. intros k v [].
Qed.
Lemma nothing_asked d : method_true (ds_method d) || order_true (ds_order d) = false <-> (ds_order d = None \/ ds_order d = Some 0%Z) /\ (ds_method d = None \/ ds_method d = Some "").
Proof.
  destruct d as [[z|] [m|]]; cbn [ds_order ds_method method_true order_true]; rewrite orb_false_iff, ?negb_false_iff, ?Z.eqb_eq, ?String.eqb_eq; intuition congruence.
Qed.
Lemma qmiss l t d : gt_none t = false -> dget kh qkey_eqb (qs_cache (run l qs_init)) (KType t, d) <> None ->
  method_true (ds_method d) || order_true (ds_order d) = true /\ exists dv, quadpyDomain t = QRet dv.
Proof.
  intros Nt H. destruct (dget _ _ _ _) as [v|] eqn:E; [|now elim H]. apply dget_in in E. destruct E as (k & K & E).
  pose proof (qrun_asked l _ _ K) as M. destruct (qrun_inv l _ qinit_inv) as [[J _] _]. destruct (J _ _ K) as (_ & u & du & dv & -> & Q1 & _).
  unfold same_key, qkey_eqb in E. cbn [fst snd key_eqb] in E. apply andb_prop in E. destruct E as [_ E]. apply andb_prop in E. destruct E as [E F].
  apply desc_eqb_eq in F. subst du. rewrite (domain_same u t Nt E) in Q1. split; [exact M|now exists dv].
Qed.
Theorem C78_quadpy_module : forall l g t d, attr_type g = KType t -> gt_none t = false ->
  (exists s D, rule (run l qs_init) g d = (s, QRet (RModule D)))
  <-> (exists dv, quadpyDomain t = QRet dv) /\ (ds_order d = None \/ ds_order d = Some 0%Z) /\ (ds_method d = None \/ ds_method d = Some "").
Proof.
  intros l g t d A Nt. rewrite <- nothing_asked. pose proof (qmiss l t d Nt) as Q. unfold qrule. cbv zeta. cbn [fst]. rewrite A. 
  match goal with |- context [dget ?a1 ?b1 ?c1 ?k1] => change (dget kh qkey_eqb (qs_cache (run l qs_init)) (KType t, d)) with (dget a1 b1 c1 k1) in Q; destruct (dget a1 b1 c1 k1) as [[i q]|] eqn:G end.
  - destruct (Q ltac:(discriminate)) as [M _]. rewrite M. split; [intros (s & D & X); discriminate|intros [_ X]; discriminate].
  - destruct (quadpyDomain t) as [dv|e]; [|split; [intros (s & D & X); discriminate|intros [(dv & X) _]; discriminate]].
    rewrite <- negb_orb. destruct (method_true (ds_method d) || order_true (ds_order d)); cbn [negb].
    + split; [|intros [_ X]; discriminate]. destruct (newQuad scheme dv d); intros (s & D & X); discriminate.
    + split; [intros _; split; [now exists dv|reflexivity]|]. intros _. now exists (run l qs_init), (fst dv).
Qed.
(** An order without a method is a TypeError; what is neither a type nor has one is an
    AttributeError; an unsupported shape is a ValueError *)
Theorem C78_quadpy_errors : forall l g d,
  match attr_type g with
  | KType t => gt_none t = false ->
      ((forall dv, quadpyDomain t <> QRet dv) -> rule (run l qs_init) g d = (run l qs_init, QRaise QValueError)) /\
      ((exists dv, quadpyDomain t = QRet dv) -> ds_method d = None -> ds_order d <> None -> ds_order d <> Some 0%Z ->
         rule (run l qs_init) g d = (run l qs_init, QRaise QTypeError))
  | _ => rule (run l qs_init) g d = (run l qs_init, QRaise QAttributeError)
  end.
Proof.
  intros l g d. destruct (attr_type g) as [t|n|n] eqn:A.
  2,3: unfold qrule; cbv zeta; cbn [fst]; rewrite A; match goal with |- context [dget ?a1 ?b1 ?c1 ?k1] => destruct (dget a1 b1 c1 k1) as [[i q]|] eqn:G end; [exfalso|reflexivity];
    apply dget_in in G; destruct G as (k & K & E); destruct (qrun_inv l _ qinit_inv) as [[J _] _]; destruct (J _ _ K) as (_ & u & du & dv & -> & _);
    unfold same_key, qkey_eqb in E; cbn [fst snd key_eqb] in E; rewrite andb_false_r in E; discriminate.
  intro Nt. pose proof (qmiss l t d Nt) as Q. destruct (qrun_inv l _ qinit_inv) as [[J _] _].
  assert (V : forall e, quadpyDomain t = QRaise e -> e = QValueError) by (unfold quadpyDomain; intros e; destruct (isLine t); [discriminate|]; destruct (isTriangle t); [discriminate|]; destruct (isQuadrilateral t); [discriminate|]; destruct (isTetrahedron t); [discriminate|]; destruct (isHexahedron t); [discriminate|]; destruct (isPyramidT t); [congruence|]; destruct (isPrismT t); congruence).
  split; [intros H|intros (dv & H) Hm Ho Hz]; unfold qrule; cbv zeta; cbn [fst]; rewrite A; match goal with |- context [dget ?a1 ?b1 ?c1 ?k1] => change (dget kh qkey_eqb (qs_cache (run l qs_init)) (KType t, d)) with (dget a1 b1 c1 k1) in Q; destruct (dget a1 b1 c1 k1) as [[i q]|] eqn:G end.
  - destruct (Q ltac:(discriminate)) as [_ (dv & X)]. now elim (H dv).
  - destruct (quadpyDomain t) as [dv|e] eqn:D; [now elim (H dv)|]. now rewrite (V e eq_refl).
  - exfalso. apply dget_in in G. destruct G as (k & K & E). destruct (J _ _ K) as (_ & u & du & dw & -> & Q1 & Q2).
    unfold same_key, qkey_eqb in E. cbn [fst snd key_eqb] in E. apply andb_prop in E. destruct E as [_ E]. apply andb_prop in E. destruct E as [E F].
    apply desc_eqb_eq in F. subst du. unfold newQuad in Q2. rewrite Hm in Q2. discriminate.
  - rewrite H. assert (O : order_true (ds_order d) = true).
    { destruct (ds_order d) as [z|]; [|now elim Ho]. cbn. destruct (Z.eqb_spec z 0) as [->|]; [now elim Hz|reflexivity]. }
    rewrite O, andb_false_r. unfold newQuad. now rewrite Hm.
Qed.
End Cache.

Example C78_quadpy_example :
  let scheme (d : Domain) (m : string) := match d with QTriangle => if String.eqb m "xiao_gimbutas_03" then Some 3%Z else None | _ => None end in
  let rule := qrule scheme (fun a b => (a + b)%Z) (fun _ => 0%Z) (fun _ => 0%Z) in
  let T := mkGT 2 false 0 in let T' := mkGT 2 false 1 in
  let s1 := fst (rule qs_init (OType T) (mkDesc (Some 3%Z) (Some "xiao_gimbutas_03"))) in
  match snd (rule s1 (OEntity T') (mkDesc (Some 3%Z) (Some "xiao_gimbutas_03"))), snd (rule s1 (OType T) (mkDesc (Some 7%Z) (Some "xiao_gimbutas_03"))),
        snd (rule s1 (OType (mkGT 3 false 5)) (mkDesc (Some 3%Z) (Some "xiao_gimbutas_03"))), snd (rule s1 (OType (mkGT 2 false 3)) (mkDesc None None)) with
  | QRet (RQuad i q), QRet (RQuad j r), QRaise QValueError, QRet (RModule QQuadrilateral) =>
      i = 0%nat /\ j = 1%nat /\ qp_scheme q = 3%Z /\ qp_scheme r = 3%Z
  | _, _, _, _ => False
  end.
Proof. vm_compute. auto. Qed.

Print Assumptions C78_quadpy_shapes.
Print Assumptions C78_quadpy_none_refuted.
Print Assumptions C78_quadpy_vertices.
Print Assumptions C78_quadpy_same_object.
Print Assumptions C78_quadpy_different_objects.
Print Assumptions C78_quadpy_value.
Print Assumptions C78_quadpy_order_ignored.
Print Assumptions C78_quadpy_order_refuted.
Print Assumptions C78_quadpy_rules.
Print Assumptions C78_quadpy_masked_refuted.
Print Assumptions C78_quadpy_module.
Print Assumptions C78_quadpy_errors.
