(** Polynomials in several variables: sums, products, chain rule, composition with affine maps;
    the divergence theorem for vector fields. *)
From Coq Require Import NArith PeanoNat Bool List Lia Reals Lra FunctionalExtensionality.
From Coquelicot Require Import Coquelicot.
From Verif Require Import M_Type M_RefTopo M_RefGeo P_Type P_Type2 S_Topo P_Topo P_RefTopo P_RefTopo2 P_RefTopo3 P_RSum P_RefGeo P_RefGeo2 P_RefGeo3 S_RefGeo P_RefVol M_Quadrature S_Quad1D S_QuadND P_QuadProd P_Trace P_Normal2 P_Gauss S_Gauss S_MultiLinear P_ML2 P_ML5 P_RefGeo4 P_Volume P_ML1 P_Trace2.
Import ListNotations.
Local Open Scope R_scope.

(** ** Operations *)
Definition pscal (c : R) (P : MPoly) : MPoly := map (fun ce => (c * fst ce, snd ce)) P.
Fixpoint plin (n : nat) (c : nat -> R) (Q : nat -> MPoly) : MPoly :=
  match n with O => [] | S n' => plin n' c Q ++ pscal (c n') (Q n') end.
Definition pmul1 (c : R) (e : nat -> nat) (Q : MPoly) : MPoly := map (fun df => (c * fst df, fun k => (e k + snd df k)%nat)) Q.
Fixpoint pmul (P Q : MPoly) : MPoly :=
  match P with [] => [] | (c, e) :: P' => pmul1 c e Q ++ pmul P' Q end.

Lemma peval_app n P Q x : peval n (P ++ Q) x = peval n P x + peval n Q x.
Proof. induction P as [|[c e] P IH]; cbn [app peval]; [ring|]. rewrite IH. ring. Qed.
Lemma peval_pscal n c P x : peval n (pscal c P) x = c * peval n P x.
Proof. induction P as [|[d e] P IH]; cbn [pscal map peval fst snd]; [ring|]. fold (pscal c P). rewrite IH. ring. Qed.
Lemma peval_plin d n c Q x : peval d (plin n c Q) x = rsum n (fun i => c i * peval d (Q i) x).
Proof. induction n as [|n IH]; cbn [plin rsum]; [reflexivity|]. now rewrite peval_app, peval_pscal, IH. Qed.
Lemma pmom_app m P Q : pmom m (P ++ Q) = pmom m P + pmom m Q.
Proof. induction P as [|[c e] P IH]; cbn [app pmom]; [ring|]. rewrite IH. ring. Qed.
Lemma pmom_pscal m c P : pmom m (pscal c P) = c * pmom m P.
Proof. symmetry. apply pmom_scal. Qed.
Lemma pmom_plin m n c Q : pmom m (plin n c Q) = rsum n (fun i => c i * pmom m (Q i)).
Proof. induction n as [|n IH]; cbn [plin rsum]; [reflexivity|]. now rewrite pmom_app, pmom_pscal, IH. Qed.

Lemma monomial_add n e f x : monomial n (fun k => (e k + f k)%nat) x = monomial n e x * monomial n f x.
Proof. induction n as [|n IH]; cbn [monomial]; [ring|]. rewrite IH, pow_add. ring. Qed.
Lemma peval_pmul n P Q x : peval n (pmul P Q) x = peval n P x * peval n Q x.
Proof.
  induction P as [|[c e] P IH]; cbn [pmul peval]; [ring|]. rewrite peval_app, IH.
  assert (A : peval n (pmul1 c e Q) x = c * monomial n e x * peval n Q x).
  { clear. induction Q as [|[d f] Q IH]; cbn [pmul1 map peval fst snd]; [ring|]. fold (pmul1 c e Q). rewrite IH, monomial_add. ring. }
  rewrite A. ring.
Qed.

(** ** Composition with affine maps *)
Definition polyfun (n : nat) (F : Vec -> R) : Prop := exists R, forall x, peval n R x = F x.

Lemma polyfun_const n c : polyfun n (fun _ => c).
Proof.
  exists [(c, fun _ => O)]. intro x. cbn [peval].
  assert (A : monomial n (fun _ => O) x = 1) by (induction n as [|n IH]; cbn [monomial pow]; [|rewrite IH]; ring). rewrite A. ring.
Qed.
Lemma polyfun_plus n F G : polyfun n F -> polyfun n G -> polyfun n (fun x => F x + G x).
Proof. intros [P HP] [Q HQ]. exists (P ++ Q). intro x. now rewrite peval_app, HP, HQ. Qed.
Lemma polyfun_mult n F G : polyfun n F -> polyfun n G -> polyfun n (fun x => F x * G x).
Proof. intros [P HP] [Q HQ]. exists (pmul P Q). intro x. now rewrite peval_pmul, HP, HQ. Qed.
Lemma polyfun_pow n F m : polyfun n F -> polyfun n (fun x => F x ^ m).
Proof. intro H. induction m as [|m IH]; cbn [pow]; [apply polyfun_const|now apply polyfun_mult]. Qed.
Lemma polyfun_coord n j : (j < n)%nat -> polyfun n (fun x => x j).
Proof.
  intro Hj. exists [(1, fun k => if (k =? j)%nat then 1%nat else 0%nat)]. intro x. cbn [peval].
  assert (A : forall m, monomial m (fun k => if (k =? j)%nat then 1%nat else 0%nat) x = if (j <? m)%nat then x j else 1).
  { induction m as [|m IH]; [reflexivity|]. cbn [monomial]. rewrite IH.
    destruct (Nat.eqb_spec m j) as [->|N]; cbn [pow].
    - rewrite Nat.ltb_irrefl. destruct (Nat.ltb_spec j (S j)); [ring|lia].
    - destruct (Nat.ltb_spec j m), (Nat.ltb_spec j (S m)); try lia; ring. }
  rewrite A. destruct (Nat.ltb_spec j n); [ring|lia].
Qed.
Lemma polyfun_rsum n m (F : nat -> Vec -> R) : (forall i, (i < m)%nat -> polyfun n (F i)) -> polyfun n (fun x => rsum m (fun i => F i x)).
Proof.
  induction m as [|m IH]; intro H; cbn [rsum]; [apply polyfun_const|]. apply polyfun_plus; [apply IH; intros; apply H; lia|apply H; lia].
Qed.
Lemma polyfun_ext n F G : (forall x, F x = G x) -> polyfun n F -> polyfun n G.
Proof. intros H [P HP]. exists P. intro x. now rewrite HP. Qed.
Lemma polyfun_comp n m P (G : Vec -> Vec) : (forall l, (l < m)%nat -> polyfun n (fun x => G x l)) -> polyfun n (fun x => peval m P (G x)).
Proof.
  intro H. induction P as [|[c e] P IH]; cbn [peval]; [apply polyfun_const|].
  apply polyfun_plus; [|exact IH]. apply polyfun_mult; [apply polyfun_const|]. clear -H.
  induction m as [|m IH]; cbn [monomial]; [apply polyfun_const|].
  apply polyfun_mult; [apply IH; intros; apply H; lia|]. apply polyfun_pow, H. lia.
Qed.
Lemma polyfun_affine n m P (o : Vec) (M : nat -> Vec) : polyfun n (fun x => peval m P (fun l => o l + rsum n (fun j => M j l * x j))).
Proof.
  apply (polyfun_comp n m P (fun x l => o l + rsum n (fun j => M j l * x j))). intros l Hl.
  apply polyfun_plus; [apply polyfun_const|]. apply polyfun_rsum. intros j Hj. apply polyfun_mult; [apply polyfun_const|now apply polyfun_coord].
Qed.

(** ** The chain rule *)
Lemma monomial_pd_lt n e k x : (k < n)%nat -> monomial (S n) (pd e k) x = monomial n (pd e k) x * x n ^ e n.
Proof. intro H. cbn [monomial]. rewrite pd_ne by lia. reflexivity. Qed.
Lemma monomial_exp n e e' x : (forall k, (k < n)%nat -> e k = e' k) -> monomial n e x = monomial n e' x.
Proof. intro H. rewrite !monomial_mono. apply mono_ext; auto. Qed.

Lemma monomial_chain n e (x : R -> Vec) (d : Vec) s : (forall k, (k < n)%nat -> is_derive (fun t => x t k) s (d k)) ->
  is_derive (fun t => monomial n e (x t)) s (rsum n (fun k => d k * (INR (e k) * monomial n (pd e k) (x s)))).
Proof.
  induction n as [|n IH]; intro H.
  - cbn [monomial rsum]. apply (is_derive_const (V := R_NormedModule) 1 s).
  - specialize (IH ltac:(intros; apply H; lia)). specialize (H n ltac:(lia)).
    assert (P : is_derive (fun t => x t n ^ e n) s (INR (e n) * d n * x s n ^ Nat.pred (e n))).
    { apply is_derive_pow. exact H. }
    cbn [monomial].
    pose proof (is_derive_mult (K := R_AbsRing) _ _ s _ _ IH P Rmult_comm) as Q.
    refine (eq_ind _ (fun l => is_derive (fun t => monomial n e (x t) * x t n ^ e n) s l) Q _ _).
    rewrite rsum_S. cbn [monomial]. rewrite pd_eq.
    rewrite (monomial_exp n (pd e n) e) by (intros; apply pd_ne; lia).
    rewrite (rsum_ext n (fun k => d k * (INR (e k) * (monomial n (pd e k) (x s) * x s n ^ pd e k n))) (fun k => x s n ^ e n * (d k * (INR (e k) * monomial n (pd e k) (x s))))).
    + rewrite rsum_scal. generalize (rsum n (fun k => d k * (INR (e k) * monomial n (pd e k) (x s)))), (monomial n e (x s)), (x s n ^ e n), (x s n ^ Nat.pred (e n)).
      intros u v w z. unfold plus, mult; cbn -[INR]. toR. ring.
    + intros k Hk. rewrite pd_ne by lia. ring.
Qed.

Lemma peval_chain n P (x : R -> Vec) (d : Vec) s : (forall k, (k < n)%nat -> is_derive (fun t => x t k) s (d k)) ->
  is_derive (fun t => peval n P (x t)) s (rsum n (fun k => d k * peval n (pder k P) (x s))).
Proof.
  intro H. induction P as [|[c e] P IH]; cbn [peval pder map fst snd].
  - rewrite rsum_0 by (intros; ring). apply (is_derive_const (V := R_NormedModule) 0 s).
  - pose proof (is_derive_scal _ s c _ (monomial_chain n e x d s H)) as A.
    pose proof (is_derive_plus (V := R_NormedModule) _ _ s _ _ A IH) as Q.
    refine (eq_ind _ (fun l => is_derive (fun t => c * monomial n e (x t) + peval n P (x t)) s l) Q _ _).
    rewrite (rsum_ext n (fun k => d k * (c * INR (e k) * monomial n (pd e k) (x s) + peval n (map (fun ce => (fst ce * INR (snd ce k), pd (snd ce) k)) P) (x s)))
       (fun k => c * (d k * (INR (e k) * monomial n (pd e k) (x s))) + d k * peval n (pder k P) (x s))) by (intros; unfold pder; ring).
    rewrite rsum_plus, rsum_scal. reflexivity.
Qed.

Lemma peval_partial n P k : (k < n)%nat -> is_partial k (peval n P) (peval n (pder k P)).
Proof.
  intros Hk x. pose proof (peval_chain n P (fun t j => if (j =? k)%nat then t else x j) (fun j => if (j =? k)%nat then 1 else 0) (x k)) as H.
  refine (eq_ind _ (fun l => is_derive _ _ l) (H _) _ _).
  - intros j Hj. destruct (Nat.eqb_spec j k).
    + apply (is_derive_id (K := R_AbsRing)).
    + apply (is_derive_const (V := R_NormedModule)).
  - cbv beta. rewrite (rsum_ext n _ (fun j => if (j =? k)%nat then peval n (pder j P) x else 0)).
    + now rewrite rsum_delta.
    + intros j Hj. rewrite (peval_ext n _ _ x); [destruct (j =? k)%nat; ring|]. intros l Hl. destruct (Nat.eqb_spec l k); congruence.
Qed.
Lemma partial_unique n P k G : (k < n)%nat -> is_partial k (peval n P) G -> forall x, G x = peval n (pder k P) x.
Proof.
  intros Hk H x. pose proof (is_derive_unique _ _ _ (H x)) as A. pose proof (is_derive_unique _ _ _ (peval_partial n P k Hk x)) as B. congruence.
Qed.

(** ** Vector fields *)
Lemma Iint_lin T n c Q : Iint T (fun x => rsum n (fun i => c i * peval (tdim T) (Q i) x)) = rsum n (fun i => c i * Iint T (peval (tdim T) (Q i))).
Proof.
  rewrite (Iint_ext T _ (peval (tdim T) (plin n c Q))) by (intro; now rewrite peval_plin).
  rewrite mom_peval, pmom_plin. apply rsum_ext. intros i Hi. now rewrite mom_peval.
Qed.
Lemma face_lin T f n c Q : is_face T f ->
  Iint (ftype T f) (fun y => rsum n (fun i => c i * peval (tdim T) (Q i) (Emb T f y)))
  = rsum n (fun i => c i * Iint (ftype T f) (fun y => peval (tdim T) (Q i) (Emb T f y))).
Proof.
  intro Hf. rewrite (Iint_ext _ _ (fun y => peval (tdim T) (plin n c Q) (Emb T f y))) by (intro; now rewrite peval_plin).
  rewrite face_peval, pmom_plin by assumption. apply rsum_ext. intros i Hi. now rewrite face_peval.
Qed.

Lemma lsum_rsum {A} (F : A -> nat -> R) l n : lsum (fun a => rsum n (F a)) l = rsum n (fun i => lsum (fun a => F a i) l).
Proof.
  induction n as [|n IH]; [cbn [rsum]; apply lsum_0; reflexivity|]. cbn [rsum]. rewrite <- IH. apply lsum_plus.
Qed.

Lemma gauss_field T n w (R : nat -> MPoly) :
  Iint T (fun x => rsum n (fun k => rsum (tdim T) (fun j => w k j * peval (tdim T) (pder j (R k)) x)))
  = lsum (fun f => Iint (ftype T f) (fun y => rsum n (fun k => rsum (tdim T) (fun j => w k j * nrm T f j) * peval (tdim T) (R k) (Emb T f y)))) (faces T 1).
Proof.
  rewrite (Iint_ext T _ (fun x => rsum n (fun k => 1 * peval (tdim T) (plin (tdim T) (w k) (fun j => pder j (R k))) x))).
  2:{ intro x. apply rsum_ext. intros k Hk. rewrite peval_plin. ring. }
  rewrite Iint_lin.
  rewrite (lsum_ext _ (fun f => rsum n (fun k => rsum (tdim T) (fun j => w k j * nrm T f j) * Iint (ftype T f) (fun y => peval (tdim T) (R k) (Emb T f y))))).
  2:{ intros f Hf. apply in_faces in Hf. now apply face_lin. }
  rewrite lsum_rsum. apply rsum_ext. intros k Hk. rewrite Rmult_1_l.
  rewrite (Iint_ext T _ (fun x => rsum (tdim T) (fun j => w k j * peval (tdim T) (pder j (R k)) x))) by (intro; apply peval_plin).
  rewrite Iint_lin.
  rewrite (lsum_ext _ (fun f => rsum (tdim T) (fun j => w k j * (nrm T f j * Iint (ftype T f) (fun y => peval (tdim T) (R k) (Emb T f y)))))).
  2:{ intros f Hf. rewrite Rmult_comm, <- rsum_scal. apply rsum_ext. intros; ring. }
  rewrite lsum_rsum. apply rsum_ext. intros j Hj. rewrite lsum_scal. f_equal. now apply gauss_poly.
Qed.

(** integrals over a facet see only the points at which the whole element is smooth *)
Lemma Iint_ext_face T : forall f F G, is_face T f -> fcod T f = 1%nat ->
  (forall y, insideT (ftype T f) y 1 -> smooth 0 T (Emb T f y) -> F y = G y) -> Iint (ftype T f) F = Iint (ftype T f) G.
Proof.
  induction T as [|b IH|b IH]; intros f F G Hf Hc H; destruct f; cbn [is_face] in Hf; try contradiction; cbn [fcod ftype smooth] in *; try discriminate.
  - cbn [Iint]. apply RInt_ext. intros t Ht. rewrite Rmin_left, Rmax_right in Ht by lra. apply IH; auto. intros y Hy Hs. apply H.
    + cbn [insideT]. rewrite Nat.eqb_refl. split; [lra|]. apply (insideT_ext _ y); [|assumption]. intros k Hk. destruct (Nat.eqb_spec k (tdim (ftype b f))); [lia|reflexivity].
    + apply (P_ML5.smooth_ext 0 b (Emb b f y)); [|assumption]. intros k Hk. rewrite Emb_Side. destruct (Nat.eqb_spec k (tdim b)); [lia|].
      apply Emb_ext. intros j Hj. destruct (Nat.eqb_spec j (tdim (ftype b f))); [lia|reflexivity].
  - rewrite (fcod_0_whole b f) in * by (auto; lia). rewrite (proj2 (proj2 (whole_face b))) in *.
    apply Iint_ext_in. intros y Hy Hs. apply H; [assumption|]. rewrite Emb_Bot. apply (P_ML5.smooth_ext 0 b y); [|assumption]. intros k Hk. symmetry. now apply Emb_whole.
  - rewrite (fcod_0_whole b f) in * by (auto; lia). rewrite (proj2 (proj2 (whole_face b))) in *.
    apply Iint_ext_in. intros y Hy Hs. apply H; [assumption|]. apply (P_ML5.smooth_ext 0 b y); [|assumption]. intros k Hk. rewrite Emb_Top.
    destruct (Nat.eqb_spec k (tdim b)); [lia|]. symmetry. now apply Emb_whole.
  - rewrite (fcod_0_whole b f) in * by (auto; lia). rewrite (proj2 (proj2 (whole_face b))) in *.
    apply Iint_ext_in. intros y Hy Hs. apply H; [assumption|]. right. rewrite Emb_Base.
    assert (Z : Emb b (whole b) y (tdim b) = 0) by (rewrite Emb_Lin, forg_support, Lin_support by lia; lra).
    rewrite Z, Rminus_0_r. split; [rewrite Rabs_R1; lra|]. apply (P_ML5.smooth_ext 0 b y); [|assumption]. intros k Hk. rewrite Emb_whole by assumption. field.
  - cbn [Iint]. apply RInt_ext. intros t Ht. rewrite Rmin_left, Rmax_right in Ht by lra. f_equal. apply IH; auto. intros y Hy Hs. apply H.
    + cbn [insideT]. rewrite Nat.eqb_refl. split; [lra|].
      apply (insideT_ext _ (vscale (1 - t) y)).
      * intros k Hk. unfold vscale. destruct (Nat.eqb_spec k (tdim (ftype b f))); [lia|ring].
      * rewrite <- (Rmult_1_r (1 - t)) at 2. apply insideT_scale; [lra|assumption].
    + right. rewrite Emb_Cone_last, Nat.eqb_refl. split; [rewrite Rabs_pos_eq; lra|].
      apply (P_ML5.smooth_ext 0 b (Emb b f y)); [|assumption]. intros k Hk. rewrite Emb_Cone by (rewrite Nat.eqb_refl; lra). rewrite Nat.eqb_refl.
      destruct (Nat.eqb_spec k (tdim b)); [lia|]. 
      match goal with |- _ = (1 - t) * ?w / (1 - t) => replace ((1 - t) * w / (1 - t)) with w by (field; lra) end.
      apply Emb_ext. intros j Hj. destruct (Nat.eqb_spec j (tdim (ftype b f))); [lia|]. field. lra.
  - cbn [Iint]. apply H; [exact I|]. left. destruct b; cbn [tdim] in Hc; [reflexivity|lia|lia].
Qed.

Lemma shiftr_Iint a b : N.shiftr a 1 = N.shiftr b 1 -> forall d F, Iint (topo_of a d) F = Iint (topo_of b d) F.
Proof.
  intro H. induction d as [|d IH]; intro F; [reflexivity|]. destruct d as [|d].
  - rewrite !topo_S. cbn [topo_of]. assert (E : Iint (Pri Pt) F = Iint (Pyr Pt) F).
    { cbn [Iint tdim]. apply RInt_ext. intros t _. cbn [pow]. toR. rewrite Rmult_1_l. f_equal. apply functional_extensionality. intro k. destruct (k =? 0)%nat; ring. }
    destruct (N.testbit a _), (N.testbit b _); congruence.
  - rewrite !(topo_S _ (S d)). rewrite (shiftr_testbit a b d H).
    destruct (N.testbit b _); cbn [Iint]; rewrite !tdim_topo; apply RInt_ext; intros t _; [|f_equal]; apply IH.
Qed.
