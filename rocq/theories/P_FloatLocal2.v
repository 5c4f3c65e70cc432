(** C70: loop invariants of the Newton iteration and of gaussNewton in IEEE arithmetic. *)
From Coq Require Import PeanoNat NArith ZArith Lia Bool List Reals Lra FunctionalExtensionality.
From Flocq Require Import Core IEEE754.BinarySingleNaN.
From Verif Require Import M_Type M_RefTopo M_RefGeo M_Matrix M_MultiLinear M_GaussNewton M_Float M_FloatGlobal M_FloatLocal S_Topo S_MultiLinear S_FloatLocal
  P_Type P_RefTopo P_RSum P_RefGeo2 P_ML1 P_ML2 P_Float P_FloatNear P_FloatGlobal P_FloatGlobal2 P_FloatLocal.
Import ListNotations.

Section L.
Variables (prec emax : Z).
Context (Hp : Prec_gt_0 prec) (He : Prec_lt_emax prec emax).
Notation float := (binary_float prec emax).
Notation FVec := (nat -> float).
Notation FMat := (nat -> nat -> float).
Notation sub' := (fsub prec emax Hp He).
Notation mul' := (fmul prec emax Hp He).
Notation one := (ofZ prec emax Hp He 1).
Notation zero := (ofZ prec emax Hp He 0).
Notation nan := (@B754_nan prec emax).

(** ** the order *)
Lemma ltb_spec (a b : float) : Bltb a b = true <->
  (is_finite a = true /\ is_finite b = true /\ (B2R a < B2R b)%R) \/
  (a = B754_infinity true /\ (is_finite b = true \/ b = B754_infinity false)) \/ (is_finite a = true /\ b = B754_infinity false).
Proof.
  assert (K : is_finite a = true -> is_finite b = true -> Bltb a b = true <->
    (is_finite a = true /\ is_finite b = true /\ (B2R a < B2R b)%R) \/
    (a = B754_infinity true /\ (is_finite b = true \/ b = B754_infinity false)) \/ (is_finite a = true /\ b = B754_infinity false)).
  { intros Fa Fb. rewrite (Bltb_correct _ _ _ _ Fa Fb).
    split; [intro H; left; repeat split; auto; destruct (Rlt_bool_spec (B2R a) (B2R b)); [assumption|discriminate]|].
    intros [(_ & _ & H)|[(-> & _)|(_ & ->)]]; [now apply Rlt_bool_true|discriminate|discriminate]. }
  destruct a as [s|[]| |s m e B], b as [t|[]| |t m' e' B']; try (apply K; reflexivity); cbn; clear K; split; intro H;
    try discriminate; auto; repeat (destruct H as [H|H] || destruct H as (? & ?)); try discriminate; auto.
  all: repeat match goal with H : _ /\ _ |- _ => destruct H | H : _ \/ _ |- _ => destruct H end; discriminate.
Qed.
Lemma ltb_trans (a b c : float) : Bltb a b = true -> Bltb b c = true -> Bltb a c = true.
Proof.
  rewrite !ltb_spec. intros [(A1 & A2 & A3)|[(A1 & A2)|(A1 & A2)]] [(B1 & B2 & B3)|[(B1 & B2)|(B1 & B2)]]; auto.
  - left. repeat split; auto. lra.
  all: try (subst b; first [discriminate|destruct A2; discriminate|destruct B2; discriminate]).
  all: subst a c; right; left; auto.
Qed.
Lemma ltb_irrefl (a : float) : Bltb a a = false.
Proof.
  destruct (Bltb a a) eqn:E; [|reflexivity]. apply ltb_spec in E.
  destruct E as [(_ & _ & E)|[(-> & [E|E])|(E & ->)]]; try discriminate. lra.
Qed.

(** ** the affinity test always has an answer *)
Section AF.
Variables (cdim : nat) (tid : N) (mydim : nat) (jk : FMat).
Lemma affine_total : forall dim cit jt, (dim <= mydim)%nat -> (nv (lt tid dim) <= length cit)%nat ->
  exists ok c m, fml_affine prec emax Hp He cdim tid mydim jk dim cit jt = Some (ok, c, m) /\ (ok = true -> c = skipn (nv (lt tid dim)) cit).
Proof.
  induction dim; intros cit jt Hd Hl.
  - change (lt tid 0) with Pt in *. cbn [fml_affine nv] in *. destruct cit as [|o cit]; [simpl in Hl; lia|]. do 3 eexists. split; reflexivity.
  - unfold lt in *. cbn [topo_of] in *. cbn [fml_affine]. rewrite isPrism_level by assumption.
    set (b := topo_of (N.lor tid 1) dim) in *. pose proof (nv_pos b) as NP.
    destruct cit as [|o cit]; [exfalso; cbn in Hl; destruct (N.testbit _ _); cbn [nv] in Hl; lia|].
    destruct (N.testbit (N.lor tid 1) (N.of_nat dim)); cbn [nv] in Hl |- *.
    + destruct (IHdim (o :: cit) jt ltac:(lia) ltac:(lia)) as (ok & c & m & -> & Hc). cbn [obind].
      destruct ok; cbn [negb]; [|do 3 eexists; split; [reflexivity|discriminate]]. rewrite (Hc eq_refl).
      assert (SK := skipn_cons (o :: cit) (fun _ => zero) (nv b) ltac:(lia)). rewrite SK. rewrite <- SK.
      destruct (IHdim (skipn (nv b) (o :: cit)) jk ltac:(lia)) as (ok' & c' & m' & -> & Hc'); [rewrite skipn_length; lia|]. cbn [obind].
      destruct ok'; cbn [negb]; [|do 3 eexists; split; [reflexivity|discriminate]]. rewrite (Hc' eq_refl), skipn_add.
      destruct (Bleb _ _); do 3 eexists; (split; [reflexivity|]); [discriminate|reflexivity].
    + destruct (IHdim (o :: cit) jt ltac:(lia) ltac:(lia)) as (ok & c & m & -> & Hc). cbn [obind].
      destruct ok; cbn [negb]; [|do 3 eexists; split; [reflexivity|discriminate]]. rewrite (Hc eq_refl).
      assert (SK := skipn_cons (o :: cit) (fun _ => zero) (nv b) ltac:(lia)). rewrite SK.
      do 3 eexists. split; [reflexivity|]. intros _. f_equal. lia.
Qed.
End AF.

(** ** the Newton iteration *)
Section N.
Variables (cdim : nat) (tid : N) (mydim : nat) (jv : FVec) (jm jk j1 j2 : FMat) (corners : list FVec).
Notation step := (fml_step prec emax Hp He cdim tid mydim jv jm jk j1 j2 corners).
Notation newton := (fml_newton prec emax Hp He cdim tid mydim jv jm jk j1 j2 corners).
Notation goon := (fun dx => Bltb (ftol prec emax Hp He) (fnorm2 prec emax Hp He mydim dx)).

Lemma newton_result y : forall fuel x z, newton fuel false y x = NwPt prec emax z ->
  exists n x' dx, (n < fuel)%nat /\ orbit prec emax Hp He (step y) goon n x x' /\ step y x' = Some (true, dx) /\ goon dx = false /\
    z = (fun k => sub' (x' k) (dx k)).
Proof.
  induction fuel; intros x z E; [discriminate|]. cbn [fml_newton] in E.
  destruct (step y x) as [[[] dx]|] eqn:Es; try discriminate. unfold fgt in E. destruct (Bltb _ _) eqn:G.
  - destruct (IHfuel _ _ E) as (n & x' & dx' & Hn & O & S' & G' & ->). exists (S n), x', dx'. split; [lia|]. split; [|auto].
    econstructor; [exact Es|exact G|exact O].
  - injection E as <-. exists 0%nat, x, dx. split; [lia|]. split; [constructor|auto].
Qed.
Lemma newton_max y : forall fuel x, newton fuel false y x = NwMax prec emax ->
  exists n x' dx, (n < fuel)%nat /\ orbit prec emax Hp He (step y) goon n x x' /\ step y x' = Some (false, dx).
Proof.
  induction fuel; intros x E; [discriminate|]. cbn [fml_newton] in E.
  destruct (step y x) as [[[] dx]|] eqn:Es; try discriminate.
  - unfold fgt in E. destruct (Bltb _ _) eqn:G; [|discriminate].
    destruct (IHfuel _ E) as (n & x' & dx' & Hn & O & S'). exists (S n), x', dx'. split; [lia|]. split; [|auto].
    econstructor; [exact Es|exact G|exact O].
  - exists 0%nat, x, dx. split; [lia|]. split; [constructor|auto].
Qed.
Lemma newton_loop y : forall fuel x, newton fuel false y x = NwLoop prec emax ->
  exists z, orbit prec emax Hp He (step y) goon fuel x z.
Proof.
  induction fuel; intros x E; [exists x; constructor|]. cbn [fml_newton] in E.
  destruct (step y x) as [[[] dx]|] eqn:Es; try discriminate. unfold fgt in E. destruct (Bltb _ _) eqn:G; [|discriminate].
  destruct (IHfuel _ E) as (z & O). exists z. econstructor; [exact Es|exact G|exact O].
Qed.
Lemma newton_more aff y : forall fuel x, newton fuel aff y x <> NwLoop prec emax -> forall fuel', (fuel <= fuel')%nat -> newton fuel' aff y x = newton fuel aff y x.
Proof.
  induction fuel; intros x H fuel' L; [exfalso; apply H; reflexivity|]. destruct fuel' as [|fuel']; [lia|]. cbn [fml_newton] in *.
  destruct (step y x) as [[[] dx]|]; auto. destruct aff; auto. destruct (fgt _ _ _ _); auto. apply IHfuel; [exact H|lia].
Qed.
(** a set of states that the iteration does not leave *)
Lemma newton_cycle y (states : list FVec) :
  (forall s, In s states -> exists dx s', step y s = Some (true, dx) /\ goon dx = true /\ In s' states /\ forall k, (k < mydim)%nat -> sub' (s k) (dx k) = s' k) ->
  forall fuel x s, In s states -> (forall k, (k < mydim)%nat -> x k = s k) -> newton fuel false y x = NwLoop prec emax.
Proof.
  intro H. induction fuel; intros x s Hs Hx; [reflexivity|]. cbn [fml_newton].
  rewrite (step_ext prec emax Hp He cdim tid mydim jv jm jk j1 j2 corners y x s Hx).
  destruct (H s Hs) as (dx & s' & -> & G & Hs' & E). unfold fgt. rewrite G. apply (IHfuel _ s' Hs').
  intros k Hk. now rewrite Hx, E.
Qed.
End N.

(** ** gaussNewton *)
Section G.
Variables (mydim cdim : nat) (j1 j2 : FMat) (f : FVec -> option FVec) (df : FVec -> option FMat) (y : FVec) (o : FGNOpts prec emax).
Let th := fgn_theta prec emax o.
Let inner := Z.to_nat (fgn_maxInnerIt prec emax o).
Notation tol := (fgn_absTol prec emax o).
Notation res x := (fresidual prec emax Hp He cdim f y x).
Notation norm := (ftwo_norm prec emax Hp He cdim).
Notation no_gain := (fno_gain prec emax Hp He cdim f y th).
Notation trial := (ftrial prec emax Hp He th).

Lemma fres_unique x r r' : res x r -> res x r' -> r = r'.
Proof. intros (a & E & ->) (b & E' & ->). rewrite E in E'. now injection E' as ->. Qed.

Lemma fsearch_spec x0 dx r0 : res x0 r0 -> forall n i st x dy r, (0 < n)%nat ->
  fgn_search prec emax Hp He cdim f y o n x0 dx r0 (flength prec emax Hp He th i) st = Some (x, dy, r) ->
  exists j fx, (i <= j < i + n)%nat /\ x = trial x0 dx j /\ f x = Some fx /\ dy = (fun k => sub' (fx k) (y k)) /\ r = norm dy /\
    (forall l, (i <= l < j)%nat -> no_gain x0 dx l) /\
    (Bltb r r0 = false -> forall l, (i <= l < i + n)%nat -> no_gain x0 dx l).
Proof.
  intro R0. induction n; intros i st x dy r Hn H; [lia|]. cbn [fgn_search] in H. cbv zeta in H. fold (trial x0 dx i) in H.
  destruct (f (trial x0 dx i)) as [fx|] eqn:E; [|discriminate]. cbn [obind] in H.
  destruct (Bltb (norm (fun k => sub' (fx k) (y k))) r0) eqn:L.
  - injection H as <- <- <-. exists i, fx. repeat split; auto; try lia; intros; exfalso; first [lia|congruence].
  - assert (NG : no_gain x0 dx i).
    { exists r0, (norm (fun k => sub' (fx k) (y k))). split; [exact R0|]. split; [|exact L]. exists fx. split; [exact E|reflexivity]. }
    fold th in H. change (mul' (flength prec emax Hp He th i) th) with (flength prec emax Hp He th (S i)) in H.
    destruct n as [|n].
    + cbn in H. injection H as <- <- <-. exists i, fx. repeat split; auto; try lia. intros _ l Hl. replace l with i by lia. exact NG.
    + destruct (IHn (S i) _ x dy r ltac:(lia) H) as (j & fx' & Hj & -> & Ef & -> & -> & N1 & N2).
      exists j, fx'. repeat split; auto; try lia.
      * intros l Hl. destruct (Nat.eq_dec l i) as [->|]; [exact NG|apply N1; lia].
      * intros Hr l Hl. destruct (Nat.eq_dec l i) as [->|]; [exact NG|apply N2; [assumption|lia]].
Qed.

Definition ffinal (n m : nat) (c : GNCode) (z : FVec) : Prop :=
  match c with
  | GN_OK => (n = 0%nat \/ (0 < m)%nat) /\ exists r, res z r /\ Bltb r tol = true
  | GN_JACOBIAN_NOT_INVERTIBLE => (m < n)%nat /\ exists fz J d, f z = Some fz /\ df z = Some J /\
      fxTRightInvA prec emax Hp He mydim cdim J (fun k => sub' (fz k) (y k)) j1 j2 = Some (false, d)
  | GN_STAGNATION => (m < n)%nat /\ exists dx, fdirection prec emax Hp He mydim cdim j1 j2 f df y z dx /\ forall i, (i < inner)%nat -> no_gain z dx i
  | GN_TOLERANCE_NOT_REACHED => m = n /\ exists r, res z r /\ Bltb r tol = false
  end.

Lemma floop_spec : (0 < inner)%nat -> forall n x0 fx r c z, f x0 = Some fx ->
  (n = 0%nat -> r = norm (fun k => sub' (fx k) (y k))) ->
  fgn_loop prec emax Hp He mydim cdim j1 j2 f df y o n x0 (fun k => sub' (fx k) (y k)) x0 (norm (fun k => sub' (fx k) (y k))) r = Some (c, z) ->
  exists m, (m <= n)%nat /\ fdescent prec emax Hp He mydim cdim j1 j2 f df y th inner m x0 z /\ ffinal n m c z.
Proof.
  intro Hi. induction n; intros x0 fx r c z E Hr H; cbn [fgn_loop] in H.
  - exists 0%nat. split; [lia|]. rewrite (Hr eq_refl) in H.
    assert (R0 : res x0 (norm (fun k => sub' (fx k) (y k)))) by (exists fx; auto).
    destruct (Bltb (norm (fun k => sub' (fx k) (y k))) tol) eqn:L; cbn [negb] in H; injection H as <- <-; (split; [constructor|]); cbn; eauto.
  - destruct (df x0) as [J|] eqn:EJ; [|discriminate]. cbn [obind] in H.
    set (r0 := norm (fun k => sub' (fx k) (y k))) in *.
    assert (R0 : res x0 r0) by (exists fx; auto).
    destruct (fxTRightInvA prec emax Hp He mydim cdim J (fun k => sub' (fx k) (y k)) j1 j2) as [[[] dx]|] eqn:ED; cbn [obind negb] in H; [| |discriminate].
    + fold inner in H.
      assert (GD : fdirection prec emax Hp He mydim cdim j1 j2 f df y x0 dx) by (exists fx, J; auto).
      match type of H with obind ?g _ = _ => destruct g as [[[x dy] r']|] eqn:ES; [|discriminate] end. cbn [obind] in H.
      change one with (flength prec emax Hp He th 0) in ES. destruct (fsearch_spec x0 dx r0 R0 inner 0 _ x dy r' Hi ES) as (j & fx' & Hj & Ex & Ef & -> & -> & N1 & N2).
      set (r1 := norm (fun k => sub' (fx' k) (y k))) in *.
      destruct (Bltb r1 r0) eqn:L; cbn [negb] in H.
      * assert (AC : faccepted prec emax Hp He mydim cdim j1 j2 f df y th inner x0 x).
        { exists dx, j, r0, r1. repeat split; auto; [lia|exists fx'; auto|]. intros i Hl. apply N1. lia. }
        destruct (Bltb r1 tol) eqn:L2.
        -- injection H as <- <-. exists 1%nat. split; [lia|]. split; [econstructor; [exact AC|constructor]|].
           split; [right; lia|]. exists r1. split; [exists fx'; auto|exact L2].
        -- destruct (IHn x fx' r1 c z Ef ltac:(reflexivity) H) as (m & Hm & D & F). exists (S m). split; [lia|]. split; [econstructor; eauto|].
           destruct c; cbn in *; destruct F; split; auto; try lia; right; lia.
      * injection H as <- <-. exists 0%nat. split; [lia|]. split; [constructor|]. split; [lia|].
        exists dx. split; [exact GD|]. intros i Hl. apply N2; [reflexivity|lia].
    + injection H as <- <-. exists 0%nat. split; [lia|]. split; [constructor|]. split; [lia|]. eauto 8.
Qed.

Lemma fdescent_res n : forall x z r r', fdescent prec emax Hp He mydim cdim j1 j2 f df y th inner n x z -> res x r -> res z r' -> r' = r \/ Bltb r' r = true.
Proof.
  induction n; intros x z r r' D R1 R2; inversion D; subst.
  - left. exact (fres_unique _ _ _ R2 R1).
  - destruct H0 as (dx & j & a & b & _ & _ & _ & Ra & Rb & L & _). rewrite (fres_unique _ _ _ R1 Ra) in *. right.
    destruct (IHn _ _ _ _ H1 Rb R2) as [->|K]; [exact L|exact (ltb_trans _ _ _ K L)].
Qed.
Lemma fdescent_defined n : forall x z, fdescent prec emax Hp He mydim cdim j1 j2 f df y th inner n x z -> (exists r, res x r) -> exists r, res z r.
Proof.
  induction n; intros x z D R1; inversion D; subst; [assumption|].
  destruct H0 as (dx & j & a & b & _ & _ & _ & Ra & Rb & L & _). eauto.
Qed.
Lemma fdescent_lt n : forall x z r r', (0 < n)%nat -> fdescent prec emax Hp He mydim cdim j1 j2 f df y th inner n x z -> res x r -> res z r' -> Bltb r' r = true.
Proof.
  intros x z r r' Hn D R1 R2. destruct n; [lia|]. inversion D; subst.
  destruct H0 as (dx & j & a & b & _ & _ & _ & Ra & Rb & L & _). rewrite (fres_unique _ _ _ R1 Ra) in *.
  destruct (fdescent_res _ _ _ _ _ H1 Rb R2) as [->|K]; [exact L|exact (ltb_trans _ _ _ K L)].
Qed.

Lemma fsearch_total : (forall x, f x <> None) -> forall n x0 dx r0 a st, fgn_search prec emax Hp He cdim f y o n x0 dx r0 a st <> None.
Proof.
  intros Ft. induction n; intros; cbn [fgn_search]; [discriminate|].
  match goal with |- context [f ?x] => assert (Q := Ft x); destruct (f x); [|congruence] end. cbn [obind].
  destruct (Bltb _ _); [discriminate|apply IHn].
Qed.
Lemma floop_total : (forall x, f x <> None) -> (forall x, df x <> None) -> forall n x dy x0 r0 r, fgn_loop prec emax Hp He mydim cdim j1 j2 f df y o n x dy x0 r0 r <> None.
Proof.
  intros Ft Dt. induction n; intros; cbn [fgn_loop]; [destruct (negb _); discriminate|].
  assert (Q := Dt x). destruct (df x) as [J|]; [|congruence]. cbn [obind].
  destruct (fxT_shape prec emax Hp He mydim cdim J dy j1 j2) as [->|(L & ->)]; cbn [obind negb]; [discriminate|].
  match goal with |- obind ?g _ <> _ => assert (S' : g <> None) by (apply fsearch_total, Ft); destruct g as [[[x' dy'] r']|]; [|congruence] end. cbn [obind].
  destruct (negb _); [discriminate|]. destruct (Bltb _ _); [discriminate|apply IHn].
Qed.
End G.
End L.
