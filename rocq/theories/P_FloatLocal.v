(** C70: the Newton iteration in IEEE arithmetic: which inputs matter, no undefined behaviour,
    propagation of NaN and of zero. *)
From Coq Require Import PeanoNat NArith ZArith Lia Bool List Reals Lra FunctionalExtensionality.
From Flocq Require Import Core IEEE754.BinarySingleNaN.
From Verif Require Import M_Type M_RefTopo M_RefGeo M_Matrix M_MultiLinear M_GaussNewton M_Float M_FloatGlobal M_FloatLocal S_Topo S_MultiLinear
  P_Type P_RefTopo P_RSum P_RefGeo2 P_ML1 P_ML2 P_Float P_FloatNear P_FloatGlobal P_FloatGlobal2.
Import ListNotations.

Section L.
Variables (prec emax : Z).
Context (Hp : Prec_gt_0 prec) (He : Prec_lt_emax prec emax).
Notation float := (binary_float prec emax).
Notation FVec := (nat -> float).
Notation FMat := (nat -> nat -> float).
Notation add' := (fadd prec emax Hp He).
Notation sub' := (fsub prec emax Hp He).
Notation mul' := (fmul prec emax Hp He).
Notation div' := (fdiv prec emax Hp He).
Notation sqrt' := (fsqrt prec emax Hp He).
Notation one := (ofZ prec emax Hp He 1).
Notation zero := (ofZ prec emax Hp He 0).
Notation nan := (@B754_nan prec emax).

(** ** special values *)
Lemma sub_nan_l b : sub' nan b = nan. Proof. now destruct b. Qed.
Lemma sub_nan_r a : sub' a nan = nan. Proof. now destruct a as [[]|[]| |[]]. Qed.
Lemma add_nan_l b : add' nan b = nan. Proof. now destruct b. Qed.
Lemma add_nan_r a : add' a nan = nan. Proof. now destruct a as [[]|[]| |[]]. Qed.
Lemma mul_nan_l b : mul' nan b = nan. Proof. now destruct b. Qed.
Lemma mul_nan_r a : mul' a nan = nan. Proof. now destruct a. Qed.
Lemma div_nan_l b : div' nan b = nan. Proof. now destruct b. Qed.
Lemma ltb_nan_l (b : float) : Bltb nan b = false. Proof. now destruct b. Qed.
Lemma ltb_nan_r (a : float) : Bltb a nan = false. Proof. now destruct a as [[]|[]| |[]]. Qed.
Lemma sqrt_nan : sqrt' nan = nan. Proof. reflexivity. Qed.

(** zero or NaN *)
Definition zn (a : float) : Prop := a = nan \/ exists s, a = B754_zero s.
Lemma zn_nan : zn nan. Proof. now left. Qed.
Lemma zn_zero s : zn (B754_zero s). Proof. right. now exists s. Qed.
Hint Resolve zn_nan zn_zero : core.
Lemma zn_sub a b : zn a -> zn b -> zn (sub' a b).
Proof. intros [->|[s ->]] [->|[t ->]]; cbn; auto. destruct s, t; cbn; auto. Qed.
Lemma zn_add a b : zn a -> zn b -> zn (add' a b).
Proof. intros [->|[s ->]] [->|[t ->]]; cbn; auto. destruct s, t; cbn; auto. Qed.
Lemma zn_mul_l a b : zn a -> zn (mul' a b).
Proof. intros [->|[s ->]]; destruct b; cbn; auto. Qed.
Lemma zn_mul_r a b : zn b -> zn (mul' a b).
Proof. intros [->|[s ->]]; destruct a; cbn; auto. Qed.
Lemma zn_div a b : zn a -> zn (div' a b).
Proof. intros [->|[s ->]]; destruct b; cbn; auto. Qed.
Lemma zn_ofZ : zn zero.
Proof. right. exists false. reflexivity. Qed.
Lemma sub_zn x d : zn d -> sub' x d = nan \/ is_finite (sub' x d) = is_finite x /\ B2R (sub' x d) = B2R x.
Proof. intros [->|[s ->]]; [left; apply sub_nan_r|]. destruct x as [t|t| |t m e B]; cbn; auto. destruct t, s; cbn; auto. Qed.

(** ** the triangular solves keep classes of numbers *)
Section Cls.
Variable P : float -> Prop.
Hypothesis Psub : forall a b c, P a -> P b -> P (sub' a (mul' c b)).
Hypothesis Pdiv : forall a c, P a -> P (div' a c).
Lemma fupd_P n (x : FVec) i v : (forall k, (k < n)%nat -> P (x k)) -> P v -> forall k, (k < n)%nat -> P (fupd prec emax x i v k).
Proof. intros H V k Hk. unfold fupd. destruct (Nat.eqb k i); auto. Qed.
Lemma inner_P n L i : (i < n)%nat -> forall m x, (m <= n)%nat -> (forall k, (k < n)%nat -> P (x k)) ->
  forall k, (k < n)%nat -> P (forN m (fun j x => fupd prec emax x i (sub' (x i) (mul' (L i j) (x j)))) x k).
Proof.
  intros Hi. induction m; intros x Hm Hx; [exact Hx|]. cbn [forN]. apply (fupd_P n); [apply IHm; [lia|exact Hx]|].
  apply Psub; apply IHm; try lia; exact Hx.
Qed.
Lemma finvLx_P n L x : (forall k, (k < n)%nat -> P (x k)) -> forall k, (k < n)%nat -> P (finvLx prec emax Hp He n L x k).
Proof.
  intros Hx. unfold finvLx.
  assert (K : forall m, (m <= n)%nat -> forall k, (k < n)%nat -> P (forN m (fun i x =>
    let x := forN i (fun j x => fupd prec emax x i (sub' (x i) (mul' (L i j) (x j)))) x in
    fupd prec emax x i (div' (x i) (L i i))) x k)); [|now apply K].
  induction m; intros Hm; [exact Hx|]. cbn [forN]. cbv zeta. apply (fupd_P n).
  - apply (inner_P n L m); [lia|lia|]. apply IHm. lia.
  - apply Pdiv. apply (inner_P n L m); try lia. apply IHm. lia.
Qed.
Lemma inner'_P n L i : (i < n)%nat -> forall lo m x, (lo + m <= n)%nat -> (forall k, (k < n)%nat -> P (x k)) ->
  forall k, (k < n)%nat -> P (forN m (fun j x => fupd prec emax x i (sub' (x i) (mul' (L (lo + j)%nat i) (x (lo + j)%nat)))) x k).
Proof.
  intros Hi lo. induction m; intros x Hm Hx; [exact Hx|]. cbn [forN]. apply (fupd_P n); [apply IHm; [lia|exact Hx]|].
  apply Psub; apply IHm; try lia; exact Hx.
Qed.
Lemma finvLTx_P n L x : (forall k, (k < n)%nat -> P (x k)) -> forall k, (k < n)%nat -> P (finvLTx prec emax Hp He n L x k).
Proof.
  intros Hx. unfold finvLTx.
  assert (K : forall m, (m <= n)%nat -> forall k, (k < n)%nat -> P (forN m (fun t x =>
    let i := (n - t)%nat in
    let x := forR i n (fun j x => fupd prec emax x (i - 1)%nat (sub' (x (i - 1)%nat) (mul' (L j (i - 1)%nat) (x j)))) x in
    fupd prec emax x (i - 1)%nat (div' (x (i - 1)%nat) (L (i - 1)%nat (i - 1)%nat))) x k)); [|now apply K].
  induction m; intros Hm; [exact Hx|]. cbn [forN]. cbv zeta. unfold forR. apply (fupd_P n).
  - apply (inner'_P n L (n - m - 1)); [lia|lia|]. apply IHm. lia.
  - apply Pdiv. apply (inner'_P n L (n - m - 1)); try lia. apply IHm. lia.
 Qed.
End Cls.

(** ** no assertion fails when singular matrices are checked for *)
Lemma fcholesky_check n A ret : exists b L, fcholesky_L prec emax Hp He n A ret true = Some (b, L).
Proof.
  unfold fcholesky_L. cbn [andb].
  match goal with |- context [forN n ?b (Run ret)] => assert (K : forall m, (exists s, forN m b (Run ret) = Run s) \/ (exists s, forN m b (Run ret) = Ret false s)) end.
  { induction m; [left; now exists ret|]. cbn [forN]. destruct IHm as [[s ->]|[s ->]]; cbn [fbind]; [|right; now exists s].
    destruct (negb _); [right|left]; eexists; reflexivity. }
  destruct (K n) as [[s ->]|[s ->]]; eauto.
Qed.
Lemma fxT_shape m n A x j1 j2 :
  fxTRightInvA prec emax Hp He m n A x j1 j2 = Some (false, fmv prec emax Hp He n A x) \/
  exists L, fxTRightInvA prec emax Hp He m n A x j1 j2 =
    Some (true, finvLTx prec emax Hp He m L (finvLx prec emax Hp He m L (fmv prec emax Hp He n A x))).
Proof.
  unfold fxTRightInvA, fspdInvAx. destruct (fcholesky_check m (fAAT_L prec emax Hp He m n A j1) j2) as (b & L & ->). cbn [obind].
  destruct b; cbn [negb]; [right; now exists L|now left].
Qed.
(** a linear combination of NaN and something *)
Lemma fmv_nan n A x k i : (k < n)%nat -> x k = nan -> fmv prec emax Hp He n A x i = nan.
Proof.
  intros Hk E. unfold fmv. revert Hk. induction n; intros Hk; [lia|]. cbn [forN].
  destruct (Nat.eq_dec k n) as [->|N]; [now rewrite E, mul_nan_r, add_nan_r|]. rewrite IHn by lia. apply add_nan_l.
Qed.
Lemma fmv_zn n A x i : (forall k, (k < n)%nat -> zn (x k)) -> zn (fmv prec emax Hp He n A x i).
Proof.
  intros H. unfold fmv. induction n; [apply zn_ofZ|]. cbn [forN]. apply zn_add; [apply IHn; intros; apply H; lia|]. apply zn_mul_r, H. lia.
Qed.
Lemma norm2_nan n x k : (k < n)%nat -> x k = nan -> fnorm2 prec emax Hp He n x = nan.
Proof.
  intros Hk E. unfold fnorm2. induction n; [lia|]. cbn [forN].
  destruct (Nat.eq_dec k n) as [->|N]; [now rewrite E, mul_nan_r, add_nan_r|]. rewrite IHn by lia. apply add_nan_l.
Qed.
Lemma norm2_zn n x : (forall k, (k < n)%nat -> zn (x k)) -> zn (fnorm2 prec emax Hp He n x).
Proof.
  intros H. unfold fnorm2. induction n; [apply zn_ofZ|]. cbn [forN]. apply zn_add; [apply IHn; intros; apply H; lia|]. apply zn_mul_r, H. lia.
Qed.
Lemma tol_zn a : (6 <= prec)%Z -> zn a -> Bltb (ftol prec emax Hp He) a = false.
Proof.
  intros H6 [->|[s ->]]; [apply ltb_nan_r|]. destruct (is_tol prec emax Hp He ltac:(lia) H6) as (F & V).
  rewrite (Bltb_correct _ _ _ _ F) by reflexivity. rewrite V. cbn [B2R].
  apply Rlt_bool_false. pose proof (bpow_gt_0 radix2 (- prec)). lra.
Qed.

(** ** MultiLinearGeometry: which coordinates are read *)
Section ML.
Variables (cdim : nat) (tid : N) (mydim : nat).
Notation glob := (fml_glob prec emax Hp He cdim tid mydim).
Notation jtf := (fml_jt prec emax Hp He cdim tid mydim).
Lemma glob_ext : forall dim add cit df x x' rf y, (forall k, (k < dim)%nat -> x k = x' k) ->
  glob dim add cit df x rf y = glob dim add cit df x' rf y.
Proof.
  induction dim; intros add cit df x x' rf y H; [reflexivity|]. cbn [fml_glob]. rewrite <- (H dim) by lia.
  assert (K : forall k, (k < dim)%nat -> x k = x' k) by (intros; apply H; lia).
  destruct (isPrism _ _ _).
  - rewrite (IHdim add cit df x x' _ y K).
    destruct (glob dim add cit df x' _ y) as [[c' y']|]; cbn [obind]; [|reflexivity]. now apply IHdim.
  - destruct (faway _ _ _ _ _); rewrite (IHdim add cit _ x x' _ y K); reflexivity.
Qed.
Lemma fpair_ext {A B C} (a b : A * B) (g : A * B -> C) : a = b -> g a = g b. Proof. now intros ->. Qed.
Lemma forN_ext {T} (b b' : nat -> T -> T) : forall n, (forall i s, (i < n)%nat -> b i s = b' i s) -> forall s, forN n b s = forN n b' s.
Proof. induction n; intros H s; [reflexivity|]. cbn [forN]. rewrite IHn by (intros; apply H; lia). apply H. lia. Qed.
Lemma jt_ext jk : forall dim add cit df x x' rf jt, (forall k, (k < dim)%nat -> x k = x' k) ->
  jtf jk dim add cit df x rf jt = jtf jk dim add cit df x' rf jt.
Proof.
  induction dim; intros add cit df x x' rf jt H; [reflexivity|]. cbn [fml_jt]. rewrite <- (H dim) by lia.
  assert (K : forall k, (k < dim)%nat -> x k = x' k) by (intros; apply H; lia).
  destruct (isPrism _ _ _).
  - rewrite (IHdim add cit df x x' _ jt K). destruct (jtf jk dim add cit df x' _ jt) as [[c1 m1]|]; cbn [obind]; [|reflexivity].
    rewrite (IHdim true c1 df x x' _ m1 K). destruct (jtf jk dim true c1 df x' _ m1) as [[c2 m2]|]; cbn [obind]; [|reflexivity].
    rewrite (glob_ext dim add cit df x x' _ (m2 dim) K). destruct (glob dim add cit df x' _ (m2 dim)) as [[c3 r3]|]; cbn [obind]; [|reflexivity].
    now rewrite (glob_ext dim true c3 df x x' rf r3 K).
  - cbv zeta. set (dfc := if faway _ _ _ _ _ then _ else _).
    rewrite (glob_ext dim add cit dfc x x' _ (jt dim) K). destruct (glob dim add cit dfc x' _ (jt dim)) as [[[|tip c1] r1]|]; cbn [obind]; try reflexivity.
    destruct add.
    + rewrite (IHdim false cit dfc x x' rf jk K). destruct (jtf jk dim false cit dfc x' rf jk) as [[c2 m2]|]; cbn [obind]; [|reflexivity].
      do 2 f_equal. apply forN_ext. intros i s Hi. now rewrite (K i Hi).
    + match goal with |- obind (jtf _ _ _ _ _ _ _ ?m) _ = _ => rewrite (IHdim false cit dfc x x' rf m K); destruct (jtf jk dim false cit dfc x' rf m) as [[c2 m2]|]; cbn [obind]; [|reflexivity] end.
      do 2 f_equal. apply forN_ext. intros i s Hi. now rewrite (K i Hi).
Qed.
(** ... and there are always enough corners *)
Lemma jt_total jk : forall dim add cit df x rf jt, (dim <= mydim)%nat -> (nv (lt tid dim) <= length cit)%nat ->
  exists m, jtf jk dim add cit df x rf jt = Some (skipn (nv (lt tid dim)) cit, m).
Proof.
  induction dim; intros add cit df x rf jt Hd Hl.
  - change (lt tid 0) with Pt in *. cbn [fml_jt nv] in *. destruct cit as [|o cit]; [simpl in Hl; lia|]. eexists. reflexivity.
  - unfold lt in *. cbn [topo_of] in *. cbn [fml_jt]. rewrite isPrism_level by assumption.
    set (b := topo_of (N.lor tid 1) dim) in *.
    destruct (N.testbit (N.lor tid 1) (N.of_nat dim)); cbn [nv] in *; cbv zeta.
    + match goal with |- context [jtf jk dim add cit df x ?r jt] => destruct (IHdim add cit df x r jt ltac:(lia) ltac:(lia)) as (m1 & ->) end. cbn [obind].
      match goal with |- context [jtf jk dim true ?c df x ?r m1] => destruct (IHdim true c df x r m1 ltac:(lia)) as (m2 & ->) end; [rewrite skipn_length; lia|]. cbn [obind].
      rewrite (fglob_spec prec emax Hp He cdim tid mydim dim add) by (unfold lt; fold b; lia). cbn [obind].
      rewrite (fglob_spec prec emax Hp He cdim tid mydim dim true) by (rewrite ?skipn_length; unfold lt; fold b; lia). cbn [obind].
      eexists. unfold lt. fold b. rewrite skipn_add. reflexivity.
    + assert (SK := skipn_cons cit (fun _ => zero) (nv b) ltac:(lia)).
      rewrite (fglob_spec prec emax Hp He cdim tid mydim dim add) by (unfold lt; fold b; lia). cbn [obind]. unfold lt. fold b. rewrite SK.
      replace (nv b + 1)%nat with (S (nv b)) by lia.
      destruct add; match goal with |- context [jtf jk dim false cit ?d x rf ?m] => destruct (IHdim false cit d x rf m ltac:(lia) ltac:(lia)) as (m2 & ->) end; cbn [obind]; eexists; reflexivity.
Qed.

Variables (jv : FVec) (jm jk j1 j2 : FMat) (corners : list FVec).
Notation step := (fml_step prec emax Hp He cdim tid mydim jv jm jk j1 j2 corners).
Notation newton := (fml_newton prec emax Hp He cdim tid mydim jv jm jk j1 j2 corners).
Notation tol := (ftol prec emax Hp He).
Notation norm2 := (fnorm2 prec emax Hp He).
Notation glb := (fmlg_global prec emax Hp He cdim tid mydim jv corners).
Lemma step_ext y x x' : (forall k, (k < mydim)%nat -> x k = x' k) -> step y x = step y x'.
Proof.
  intro H. unfold fml_step, fmlg_global, fmlg_jacobianTransposed.
  rewrite (glob_ext mydim false corners one x x' one jv H). now rewrite (jt_ext jk mydim false corners one x x' one jm H).
Qed.
Hypothesis HL : length corners = nv (lt tid mydim).
Lemma global_total x : exists gx, glb x = Some gx.
Proof. rewrite (fglobal_spec prec emax Hp He) by exact HL. eexists. reflexivity. Qed.
Lemma step_shape y x : exists gx jt, glb x = Some gx /\
  (step y x = Some (false, fmv prec emax Hp He cdim jt (fun k => sub' (gx k) (y k))) \/
   exists L, step y x = Some (true, finvLTx prec emax Hp He mydim L (finvLx prec emax Hp He mydim L (fmv prec emax Hp He cdim jt (fun k => sub' (gx k) (y k)))))).
Proof.
  destruct (global_total x) as (gx & E). unfold fml_step, fmlg_jacobianTransposed. rewrite E. cbn [obind].
  destruct (jt_total jk mydim false corners one x one jm (le_n _)) as (jt & ->); [lia|]. cbn [option_map snd obind].
  exists gx, jt. split; [reflexivity|]. apply fxT_shape.
Qed.
Lemma newton_defined fuel aff y : forall x, newton fuel aff y x <> NwUndefined prec emax.
Proof.
  induction fuel; intros x; [discriminate|]. cbn [fml_newton].
  destruct (step_shape y x) as (gx & jt & _ & [->|(L & ->)]); [discriminate|]. destruct aff; [discriminate|].
  destruct (fgt _ _ _ _); [apply IHfuel|discriminate].
Qed.
(** a step of the iteration whose update is in a class below the tolerance ends it *)
Lemma newton_end fuel aff y x : (forall dx, step y x = Some (true, dx) -> Bltb tol (norm2 mydim dx) = false) ->
  newton (S fuel) aff y x = NwMax prec emax \/ exists dx, step y x = Some (true, dx) /\ newton (S fuel) aff y x = NwPt prec emax (fun k => sub' (x k) (dx k)).
Proof.
  intro H. cbn [fml_newton]. destruct (step_shape y x) as (gx & jt & _ & [E|(L & E)]); rewrite E; [now left|]. right.
  eexists. split; [reflexivity|]. destruct aff; [reflexivity|]. unfold fgt. now rewrite H.
Qed.
Lemma newton_nan fuel aff y x gx k : (0 < mydim)%nat -> (k < cdim)%nat -> glb x = Some gx -> sub' (gx k) (y k) = nan ->
  newton (S fuel) aff y x = NwMax prec emax \/
  exists z, newton (S fuel) aff y x = NwPt prec emax z /\ forall i, (i < mydim)%nat -> z i = nan.
Proof.
  intros Hm Hk Eg EN. assert (D : forall dx, step y x = Some (true, dx) -> forall i, (i < mydim)%nat -> dx i = nan).
  { intros dx E. destruct (step_shape y x) as (gx' & jt & Eg' & [E'|(L & E')]); rewrite E' in E; [discriminate|]. injection E as <-.
    rewrite Eg in Eg'. injection Eg' as <-.
    apply (finvLTx_P (fun a => a = nan)); [intros a b c -> _; apply sub_nan_l|intros a c ->; apply div_nan_l|].
    apply (finvLx_P (fun a => a = nan)); [intros a b c -> _; apply sub_nan_l|intros a c ->; apply div_nan_l|].
    intros i Hi. now apply (fmv_nan cdim jt _ k i Hk). }
  destruct (newton_end fuel aff y x) as [E|(dx & E & E')]; [|now left|].
  - intros dx E. rewrite (norm2_nan mydim dx 0 Hm) by (apply (D dx E); lia). apply ltb_nan_r.
  - right. eexists. split; [exact E'|]. intros i Hi. cbv beta. rewrite (D dx E i Hi). apply sub_nan_r.
Qed.
Lemma newton_zero fuel aff y x gx : (6 <= prec)%Z -> glb x = Some gx -> (forall k, (k < cdim)%nat -> zn (sub' (gx k) (y k))) ->
  newton (S fuel) aff y x = NwMax prec emax \/
  exists z, newton (S fuel) aff y x = NwPt prec emax z /\ forall i, (i < mydim)%nat -> z i = nan \/ is_finite (z i) = is_finite (x i) /\ B2R (z i) = B2R (x i).
Proof.
  intros H6 Eg EN. assert (D : forall dx, step y x = Some (true, dx) -> forall i, (i < mydim)%nat -> zn (dx i)).
  { intros dx E. destruct (step_shape y x) as (gx' & jt & Eg' & [E'|(L & E')]); rewrite E' in E; [discriminate|]. injection E as <-.
    rewrite Eg in Eg'. injection Eg' as <-.
    apply (finvLTx_P zn); [intros a b c Ha Hb; apply zn_sub; [exact Ha|now apply zn_mul_r]|intros; now apply zn_div|].
    apply (finvLx_P zn); [intros a b c Ha Hb; apply zn_sub; [exact Ha|now apply zn_mul_r]|intros; now apply zn_div|].
    intros i Hi. now apply fmv_zn. }
  destruct (newton_end fuel aff y x) as [E|(dx & E & E')]; [|now left|].
  - intros dx E. apply tol_zn; [exact H6|]. apply norm2_zn. exact (D dx E).
  - right. eexists. split; [exact E'|]. intros i Hi. cbv beta. apply sub_zn. exact (D dx E i Hi).
Qed.
(** a coordinate of a corner that is NaN makes this coordinate NaN everywhere *)
Lemma facc_nan k : forall l (acc : float), acc = nan -> facc prec emax Hp He k acc l = nan.
Proof. induction l; intros acc E; [exact E|]. apply IHl. rewrite E. exact (add_nan_l _). Qed.
Lemma facc_nan_in k : forall l acc, (exists p, In p l /\ snd p k = nan) -> facc prec emax Hp He k acc l = nan.
Proof.
  induction l as [|q l IH]; intros acc (p & I & E); [destruct I|]. change (facc prec emax Hp He k (P_FloatGlobal.step prec emax Hp He k acc q) l = nan). destruct I as [<-|I].
  - apply facc_nan. unfold P_FloatGlobal.step. now rewrite E, mul_nan_r, add_nan_r.
  - apply IH. exists p. auto.
Qed.
Lemma global_nan x c k : (k < cdim)%nat -> In c corners -> c k = nan -> exists gx, glb x = Some gx /\ gx k = nan.
Proof.
  intros Hk Hc E. rewrite (fglobal_spec prec emax Hp He) by exact HL. eexists. split; [reflexivity|]. rewrite fset_in by assumption.
  pose proof (fw_length prec emax Hp He (lt tid mydim) one x one) as LW. set (ws := fw prec emax Hp He (lt tid mydim) one x one) in *. clearbody ws.
  assert (IN : exists p, In p (combine ws corners) /\ snd p k = nan).
  { apply (In_nth _ _ (fun _ => nan)) in Hc. destruct Hc as (i & Hi & <-). exists (nth i ws one, nth i corners (fun _ => nan)). split; [|exact E].
    rewrite <- combine_nth by lia. apply nth_In. rewrite combine_length. lia. }
  unfold fcomb. destruct (combine ws corners) as [|p l]; [destruct IN as (? & [] & _)|]. destruct IN as (q & [<-|I] & Q).
  - apply facc_nan. now rewrite Q, mul_nan_r.
  - apply facc_nan_in. eauto.
Qed.
End ML.
End L.
