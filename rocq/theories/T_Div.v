(** C77: the divergence theorem on multilinear elements that need not be affine. *)
From Coq Require Import NArith PeanoNat Bool List Lia Reals Lra FunctionalExtensionality.
From Coquelicot Require Import Coquelicot.
From Verif Require Import M_Type M_RefTopo M_RefGeo P_Type P_Type2 S_Topo P_Topo P_RefTopo P_RefTopo2 P_RefTopo3 P_RSum P_RefGeo P_RefGeo2 P_RefGeo3 P_Det P_DetInv P_RefDet S_RefGeo P_RefVol P_RefGeo4 T_RefGeo M_Matrix M_MultiLinear S_Matrix S_MultiLinear P_MxBridge P_Matrix P_Matrix3 P_Matrix4 T_Matrix P_Volume P_ML1 P_ML2 P_ML3 P_ML5 T_RefTopo T_MultiLinear P_Trace S_Trace P_Trace2 T_Trace S_Normal P_Normal P_Normal2 T_Normal
  M_Quadrature S_Quad1D S_QuadND P_QuadProd S_Gauss P_Gauss P_Gauss2 T_Gauss P_Col1 P_Col2 P_Piola P_ColMap P_Orient.
Import ListNotations.
Local Open Scope R_scope.

Section Piola.
Variables (n : nat) (T : Topo) (c : nat -> nat -> R) (Phi : nat -> MPoly).
Hypothesis HT : tdim T = n.
(** the map, its Jacobian, the pulled back field *)
Definition mapc (x : Vec) : Vec := fun l => phi T (c l) x.
Definition jacc (x : Vec) : Mat := fun j k => dphi T (c k) j x.
Definition pull (j : nat) (x : Vec) : R := detR n (row_put j (fun k => peval n (Phi k) (mapc x)) (jacc x)).
Definition pullA (j i k : nat) (x : Vec) : R := if Nat.eqb i j then peval n (Phi k) (mapc x) else jacc x i k.
Definition pullDA (j i k d : nat) (x : Vec) : R :=
  if Nat.eqb i j then rsum n (fun l => jacc x d l * peval n (pder l (Phi k)) (mapc x)) else hphi T (c k) i d x.
Definition pullD (j d : nat) (x : Vec) : R := rsum n (fun r => detR n (row_put r (fun k => pullDA j r k d x) (fun i k => pullA j i k x))).

Lemma pull_KD j : (j < n)%nat -> KD T (pull j) (pullD j).
Proof.
  intro Hj. refine (KD_ext T _ _ _ _ _ _ (KD_det T n (pullA j) (pullDA j) _)).
  - intro x. reflexivity.
  - reflexivity.
  - intros i k Hi Hk. unfold pullA, pullDA. destruct (Nat.eqb i j).
    + exact (KD_peval T n (Phi k) (fun l => phi T (c l)) (fun l => dphi T (c l)) (fun l _ => KD_phi T (c l))).
    + apply (KD_dphi T (c k)). lia.
Qed.
Lemma pull_div x X : meq n n (mmul n X (jacc x)) mone ->
  rsum n (fun j => pullD j j x) = rsum n (fun k => peval n (pder k (Phi k)) (mapc x)) * detR n (jacc x).
Proof.
  intro HX. rewrite <- (det_trace n (jacc x) X HX (fun k l => peval n (pder l (Phi k)) (mapc x))).
  rewrite <- (piola n (jacc x) (fun i j k => hphi T (c k) i j x) (fun k => peval n (Phi k) (mapc x))) by (intros; apply hphi_sym).
  apply rsum_ext. intros j Hj. apply rsum_ext. intros r Hr. apply detR_ext. intros i k Hi Hk. unfold row_put, pullDA, pullA.
  destruct (Nat.eqb i r); [|reflexivity]. destruct (Nat.eqb r j); reflexivity.
Qed.
Lemma gauss_pull s :
  Iint T (fun x => s * rsum n (fun j => pullD j j x))
  = lsum (fun f => Iint (ftype T f) (fun y => s * rsum n (fun j => nrm T f j * pull j (Emb T f y)))) (faces T 1).
Proof.
  rewrite (ii_Iint T _ (s * rsum n (fun j => lsum (fun f => nrm T f j * fval T f (pull j)) (faces T 1)))).
  - rewrite <- lsum_rsum, <- lsum_scal. apply lsum_ext. intros f Hf. apply in_faces in Hf. destruct Hf as [Hf _]. symmetry. apply ii_Iint. apply ii_scal, ii_rsum. intros j Hj.
    apply ii_scal. eapply face_ii; [exact Hf|now apply pull_KD].
  - apply ii_scal, ii_rsum. intros j Hj. apply gauss; [now apply pull_KD|lia].
Qed.
End Piola.

Section World.
Variables (n : nat) (g : MLGeo) (gs : nat -> MLGeo) (es : nat -> Vec * Mat).
Hypothesis Hn : (1 <= n)%nat.
Hypothesis wf : ml_wf n g.
Hypothesis HS : forall i, (i < re_size (ml_ref g) 1)%nat -> sub_geometry n g i 1 (gs i) /\ re_geometry (ml_id g) n 1 i = Some (es i).
Notation T := (topo_of (ml_id g) n).
Notation c := (fun k i => nth i (ml_corners g) vzero k).

Lemma glob_map tol jv x : 0 <= tol -> regular tol T x -> exists u, mlg_global n n tol jv g x = Some u /\ forall k, (k < n)%nat -> u k = mapc T c x k.
Proof.
  intros Ht Hr. destruct (global_regular n n tol Ht g wf jv x Hr) as (u & EU & VU). exists u. split; [exact EU|].
  intros k Hk. rewrite VU by assumption. unfold mapc. apply (phi_shape T (fun i => nth i (ml_corners g) vzero k)).
Qed.
Lemma jt_jac tol jm jk x : 0 <= tol -> smooth tol T x -> exists J, mlg_jacobianTransposed n n tol jm jk g x = Some J /\ meq n n J (jacc T c x).
Proof.
  intros Ht Hs. eexists. split; [apply jt_value; exact wf|]. intros j k Hj Hk. cbv beta. rewrite (proj2 (Nat.ltb_lt j n)), (proj2 (Nat.ltb_lt k n)) by assumption. cbn [andb].
  unfold comb, jacc. rewrite <- nv_lt, <- dphi_lt. apply (dshapeC_dphi tol (lt (ml_id g) n) x (fun i => nth i (ml_corners g) vzero k)).
  - exact Ht.
  - now apply smooth_lt.
  - now rewrite tdim_lt.
Qed.

(** Jacobians are invertible at the smooth points of the element *)
Definition regular_element (jm jk : Mat) : Prop := forall x J, inside_ref n g x -> smooth 0 T x -> mlg_jacobianTransposed n n 0 jm jk g x = Some J -> row_independent n n J.

Lemma rowind_det J : row_independent n n J -> detR n J <> 0.
Proof.
  intros HJ E. destruct (rightInvA_spec n n J mzero mzero mzero (le_n n) HJ) as (d & X & G & _ & Pd & Dd & _).
  unfold mmul in Dd. rewrite detR_mul, E in Dd. nra.
Qed.
Lemma reg_det jm jk x : regular_element jm jk -> inside_ref n g x -> smooth 0 T x -> detR n (jacc T c x) <> 0.
Proof.
  intros HR Hi Hs. destruct (jt_jac 0 jm jk x (Rle_refl 0) Hs) as (J & EJ & VJ). rewrite <- (detR_meq n _ _ VJ). apply rowind_det. now apply (HR x).
Qed.
Lemma det_rowind A : detR n A <> 0 -> row_independent n n A.
Proof. intro H. destruct (det_inverse H) as (B & HB). exact (det_row_independent n A B HB). Qed.

Lemma ie_det tol jm jk j1 j2 x : 0 <= tol -> smooth tol T x -> detR n (jacc T c x) <> 0 -> mlg_integrationElement n n tol jm jk j1 j2 g x = Some (Rabs (detR n (jacc T c x))).
Proof.
  intros Ht Hs HD. destruct (jt_jac tol jm jk x Ht Hs) as (J & EJ & VJ). unfold mlg_integrationElement. rewrite EJ. cbn [obind].
  rewrite sqrtDet_square; rewrite (detR_meq n _ _ VJ); [reflexivity|now left].
Qed.
Lemma jit_det tol jm jk j1 j2 x : 0 <= tol -> smooth tol T x -> detR n (jacc T c x) <> 0 ->
  exists D X, mlg_jacobianInverseTransposed n n tol jm jk j1 j2 g x = Some (D, X) /\ meq n n (mmul n X (jacc T c x)) mone.
Proof.
  intros Ht Hs HD. destruct (jt_jac tol jm jk x Ht Hs) as (J & EJ & VJ). unfold mlg_jacobianInverseTransposed. rewrite EJ. cbn [obind].
  assert (HJ : row_independent n n J) by (apply det_rowind; now rewrite (detR_meq n _ _ VJ)).
  destruct (rightInvA_spec n n J jm j1 j2 (le_n n) HJ) as (D & X & G & E1 & _ & _ & HG & HX).
  exists D, X. split; [exact E1|]. apply minv_comm.
  eapply meq_trans; [apply meq_mulL; apply (meq_sym _ _ _ _ VJ)|]. eapply meq_trans; [apply meq_mulR; exact HX|]. eapply meq_trans; [apply meq_mulA|]. exact HG.
Qed.
Lemma sub_inside f y : is_face T f -> insideT (ftype T f) y 1 -> insideT T (Emb T f y) 1.
Proof. intros Hf Hy. apply hull_insideT. apply Emb_hull; [assumption|]. apply insideT_hull; [lra|assumption]. Qed.

Lemma facet_data f : is_face T f -> fcod T f = 1%nat -> let i := fidx T f in
    re_size (ml_ref g) 1 = tsize T 1 /\ (i < re_size (ml_ref g) 1)%nat /\ es i = fpair T f /\ (forall y, emb_global (n - 1) (es i) y = Emb T f y) /\
    (forall F, Iint (topo_of (ml_id (gs i)) (n - 1)) F = Iint (ftype T f) F) /\
    (forall y, inside_ref (n - 1) (gs i) y <-> insideT (ftype T f) y 1) /\
    nth_error (referenceIntegrationOuterNormals (ml_id g) n) i = Some (nrm T f).
Proof.
  intros F1 F2 i. pose proof wf as (W1 & W2 & _). pose proof (re_infos_ok _ _ _ W1 W2) as OK.
  assert (RS : re_size (ml_ref g) 1 = tsize T 1) by (rewrite (ok_re_size _ _ _ OK) by lia; reflexivity).
  split; [exact RS|].
  assert (Hi : (i < re_size (ml_ref g) 1)%nat) by (unfold i; rewrite RS, <- F2; now apply fidx_lt).
  split; [exact Hi|]. destruct (HS i Hi) as [SG He].
  destruct (sub_face n g wf i 1 (gs i) SG) as (f' & F1' & F2' & F3' & F4 & F5 & F6 & F7 & F8 & _).
  assert (f' = f) by (apply (fidx_inj T); auto; congruence). subst f'.
  pose proof He as He'. rewrite F4 in He'. injection He' as He'. split; [now symmetry|].
  split; [intro y; now rewrite <- He', F8|]. split; [intro F; rewrite <- F6; now apply shiftr_Iint|].
  split.
  { intro y. rewrite inside_T, <- F6. rewrite !insideT_lt. assert (L : lt (ml_id (gs i)) (n - 1) = lt (subTopologyId (ml_id g) n 1 i) (n - 1)).
    { clear -F5. induction (n - 1)%nat as [|d IH]; [reflexivity|]. rewrite !lt_S. destruct d as [|d]; [now rewrite !orb_true_r|].
      now rewrite (shiftr_testbit _ _ d F5), IH. }
    now rewrite L. }
  rewrite referenceIntegrationOuterNormals_spec by lia. rewrite nth_error_map.
  pose proof (fidx_nth _ f F1) as F. rewrite F2 in F. unfold i. now rewrite F.
Qed.

(** orientation *)
Lemma elt_orient jm jk : regular_element jm jk -> exists s, (s = 1 \/ s = -1) /\
  forall x, insideT T x 1 -> smooth 0 T x -> detR n (jacc T c x) <> 0 /\ Rabs (detR n (jacc T c x)) = s * detR n (jacc T c x).
Proof.
  intro HR. destruct (orient T n c) as (s & Hs1 & HO).
  { intros x Hi Hs. apply (reg_det jm jk); [exact HR|now apply inside_T|exact Hs]. }
  fold (jacc T c) in HO. exists s. split; [exact Hs1|].
  intros x Hi Hs. specialize (HO x Hi Hs). change (0 < s * detR n (jacc T c x)) in HO. split; [nra|]. unfold Rabs. destruct (Rcase_abs _); destruct Hs1; subst s; lra.
Qed.
(** the integrands in terms of the map *)
Lemma elt_value tol jv jm jk j1 j2 (Phi : nat -> MPoly) (dPhi : nat -> Vec -> R) s x u D :
  (forall k, (k < n)%nat -> is_partial k (peval n (Phi k)) (dPhi k)) ->
  0 <= tol -> smooth tol T x -> detR n (jacc T c x) <> 0 -> Rabs (detR n (jacc T c x)) = s * detR n (jacc T c x) ->
  mlg_global n n tol jv g x = Some u -> mlg_integrationElement n n tol jm jk j1 j2 g x = Some D ->
  Ssum n (fun k => dPhi k u) * D = s * (rsum n (fun k => peval n (pder k (Phi k)) (mapc T c x)) * detR n (jacc T c x)).
Proof.
  intros HP Ht Hs DN DA EU ED. rewrite (ie_det tol jm jk j1 j2 _ Ht Hs DN) in ED. injection ED as <-. rewrite DA.
  destruct (glob_map tol jv x Ht (smooth_regular _ _ _ Hs)) as (u0 & EU0 & VU). rewrite EU in EU0. injection EU0 as <-.
  rewrite Ssum_rsum. rewrite (rsum_ext n (fun k => dPhi k u) (fun k => peval n (pder k (Phi k)) (mapc T c x))); [ring|].
  intros k Hk. rewrite (partial_unique n (Phi k) k (dPhi k) Hk (HP k Hk)). apply peval_ext. exact VU.
Qed.
Lemma facet_value tol jv' jm jk j1 j2 jm' jk' j1' j2' (Phi : nat -> MPoly) s f y u nu D : let i := fidx T f in
  is_face T f -> fcod T f = 1%nat -> 0 <= tol -> smooth tol T (Emb T f y) ->
  detR n (jacc T c (Emb T f y)) <> 0 -> Rabs (detR n (jacc T c (Emb T f y))) = s * detR n (jacc T c (Emb T f y)) ->
  mlg_global (n - 1) n tol jv' (gs i) y = Some u ->
  mapped_normal n n tol jm jk j1 j2 g i (emb_global (n - 1) (es i) y) nu ->
  mlg_integrationElement (n - 1) n tol jm' jk' j1' j2' (gs i) y = Some D ->
  Ssum n (fun k => peval n (Phi k) u * (nu k / vlen n nu)) * D = s * rsum n (fun j => nrm T f j * pull n T c Phi j (Emb T f y)).
Proof.
  intros i F1 F2 Ht Hs DN DA EU MN ED. subst i.
  destruct (facet_data f F1 F2) as (_ & Hi & He & HEm & HI & HIn & HN). cbv zeta in *.
  destruct (HS _ Hi) as [SG He'].
  destruct (global_trace n g wf _ 1 _ SG n tol vzero jv' (es (fidx T f)) y Ht He' ltac:(rewrite HEm; now apply smooth_regular)) as (u1 & u2 & EU1 & EU2 & UV).
  rewrite EU in EU2. injection EU2 as <-. rewrite HEm in EU1. destruct (glob_map tol vzero (Emb T f y) Ht (smooth_regular _ _ _ Hs)) as (u0 & EU0 & VU). rewrite EU1 in EU0. injection EU0 as <-.
  destruct (jt_jac tol jm jk (Emb T f y) Ht Hs) as (J & EJ & VJ).
  assert (HJ : row_independent n n J) by (apply det_rowind; now rewrite (detR_meq n _ _ VJ)).
  pose proof (C74_integration_element n n tol jm jk j1 j2 jm' jk' j1' j2' g (fidx T f) (gs (fidx T f)) (es (fidx T f)) y J nu Ht ltac:(lia) wf SG He') as Q4.
  cbv zeta in Q4. rewrite HEm in Q4, MN. destruct (Q4 Hs EJ HJ MN) as (D0 & ED0 & PD & PN & EDf). clear Q4. rewrite ED in EDf. injection EDf as ->.
  rewrite (ie_det tol jm jk j1 j2 _ Ht Hs DN) in ED0. injection ED0 as <-. rewrite DA.
  destruct MN as (N & D1 & X & EN & EX & ->). rewrite HN in EN. injection EN as <-.
  destruct (jit_det tol jm jk j1 j2 _ Ht Hs DN) as (D2 & X2 & EX2 & XJ). rewrite EX in EX2. injection EX2 as <- <-.
  rewrite Ssum_rsum. unfold pull. rewrite (det_flux n (jacc T c (Emb T f y)) X XJ (nrm T f) (fun k => peval n (Phi k) (mapc T c (Emb T f y)))).
  set (d := detR n (jacc T c (Emb T f y))). set (L := vlen n (mvec n X (nrm T f))) in *.
  rewrite (rsum_ext n _ (fun k => (peval n (Phi k) (mapc T c (Emb T f y)) * rsum n (fun j => X k j * nrm T f j)) * / L)).
  + rewrite rsum_scal_r. field. lra.
  + intros k Hk. rewrite (peval_ext n (Phi k) u (mapc T c (Emb T f y))) by (intros l Hl; rewrite <- (UV l Hl); now apply VU). unfold mvec, Rdiv. ring.
Qed.

(** *** The divergence theorem in world coordinates for every element with invertible Jacobians *)
Theorem C77_divergence : forall jv jv' jm jk j1 j2 jm' jk' j1' j2' (Phi : nat -> MPoly) (dPhi : nat -> Vec -> R) F Fs,
  regular_element jm jk ->
  (forall k, (k < n)%nat -> is_partial k (peval n (Phi k)) (dPhi k)) ->
  (forall x, inside_ref n g x -> smooth 0 T x -> exists u D,
     mlg_global n n 0 jv g x = Some u /\ mlg_integrationElement n n 0 jm jk j1 j2 g x = Some D /\
     F x = Ssum n (fun k => dPhi k u) * D) ->
  (forall i y, (i < re_size (ml_ref g) 1)%nat -> inside_ref (n - 1) (gs i) y -> smooth 0 T (emb_global (n - 1) (es i) y) -> exists u nu D,
     mlg_global (n - 1) n 0 jv' (gs i) y = Some u /\
     mapped_normal n n 0 jm jk j1 j2 g i (emb_global (n - 1) (es i) y) nu /\
     mlg_integrationElement (n - 1) n 0 jm' jk' j1' j2' (gs i) y = Some D /\
     Fs i y = Ssum n (fun k => peval n (Phi k) u * (nu k / vlen n nu)) * D) ->
  Iint T F = Ssum (re_size (ml_ref g) 1) (fun i => Iint (topo_of (ml_id (gs i)) (n - 1)) (Fs i)).
Proof.
  intros jv jv' jm jk j1 j2 jm' jk' j1' j2' Phi dPhi F Fs HR HP HF HFs.
  destruct (elt_orient jm jk HR) as (s & Hs1 & HD).
  pose proof wf as (W1 & W2 & _). pose proof (re_infos_ok _ _ _ W1 W2) as OK.
  assert (RS : re_size (ml_ref g) 1 = tsize T 1) by (rewrite (ok_re_size _ _ _ OK) by lia; reflexivity).
  rewrite (Iint_ext_in T F (fun x => s * rsum n (fun j => pullD n T c Phi j j x))).
  - rewrite gauss_pull by apply tdim_topo. rewrite Ssum_rsum, RS. symmetry. apply facets_sum. intros f F1 F2.
    destruct (facet_data f F1 F2) as (_ & Hi & He & HEm & HI & HIn & HN). cbv zeta in *. rewrite HI.
    apply (Iint_ext_face T f); auto. intros y Hy Hs.
    pose proof (HFs _ y Hi (proj2 (HIn y) Hy)) as Q. rewrite HEm in Q. destruct (Q Hs) as (u & nu & D & EU & MN & ED & ->).
    destruct (HD _ (sub_inside f y F1 Hy) Hs) as [DN DA]. rewrite <- HEm in MN.
    apply (facet_value 0 jv' jm jk j1 j2 jm' jk' j1' j2'); auto; apply Rle_refl.
  - intros x Hx Hs. destruct (HF x (proj2 (inside_T n g x) Hx) Hs) as (u & D & EU & ED & ->). destruct (HD x Hx Hs) as [DN DA].
    destruct (jit_det 0 jm jk j1 j2 _ (Rle_refl 0) Hs DN) as (D2 & X2 & _ & XJ). rewrite (pull_div n T c Phi x X2 XJ).
    apply (elt_value 0 jv jm jk j1 j2); auto; apply Rle_refl.
Qed.

(** *** Consequences: the element is closed, its volume is a sum of fluxes over its boundary *)
Lemma unit_peval k l x : (l < n)%nat -> peval n (if Nat.eqb l k then [(1, fun _ => 0%nat)] else []) x = if Nat.eqb l k then 1 else 0.
Proof.
  intro Hl. destruct (Nat.eqb l k); [|reflexivity]. cbn [peval].
  assert (A : forall m, monomial m (fun _ => 0%nat) x = 1) by (induction m as [|m IH]; cbn [monomial pow]; [|rewrite IH]; ring). rewrite A. ring.
Qed.
Lemma pos_peval k l x : (l < n)%nat -> (k < n)%nat -> peval n (if Nat.eqb l k then [(1, edelta k)] else []) x = if Nat.eqb l k then x k else 0.
Proof.
  intros Hl Hk. destruct (Nat.eqb l k); [|reflexivity]. cbn [peval]. rewrite monomial_mono, mono_edelta by assumption. ring.
Qed.
Theorem C77_closed : forall jm jk j1 j2 jm' jk' j1' j2' k Fs, regular_element jm jk -> (k < n)%nat ->
  (forall i y, (i < re_size (ml_ref g) 1)%nat -> inside_ref (n - 1) (gs i) y -> smooth 0 T (emb_global (n - 1) (es i) y) -> exists nu D,
     mapped_normal n n 0 jm jk j1 j2 g i (emb_global (n - 1) (es i) y) nu /\
     mlg_integrationElement (n - 1) n 0 jm' jk' j1' j2' (gs i) y = Some D /\ Fs i y = nu k / vlen n nu * D) ->
  Ssum (re_size (ml_ref g) 1) (fun i => Iint (topo_of (ml_id (gs i)) (n - 1)) (Fs i)) = 0.
Proof.
  intros jm jk j1 j2 jm' jk' j1' j2' k Fs HR Hk HFs.
  rewrite <- (C77_divergence vzero vzero jm jk j1 j2 jm' jk' j1' j2' (fun l => if Nat.eqb l k then [(1, fun _ => 0%nat)] else []) (fun _ _ => 0) (fun _ => 0) Fs HR).
  - apply ii_Iint, ii_zero.
  - intros l Hl x. apply (is_derive_ext (fun _ => if Nat.eqb l k then 1 else 0)); [intro t; symmetry; now apply unit_peval|apply (is_derive_const (V := R_NormedModule))].
  - intros x Hi Hs. destruct (glob_map 0 vzero x (Rle_refl 0) (regular_0 _ _)) as (u & EU & _). exists u, (Rabs (detR n (jacc T c x))).
    split; [exact EU|]. split; [apply ie_det; [apply Rle_refl|exact Hs|now apply (reg_det jm jk)]|]. rewrite Ssum_rsum, rsum_0; [ring|reflexivity].
  - intros i y Hi Hy Hs. destruct (HFs i y Hi Hy Hs) as (nu & D & MN & ED & ->).
    destruct (HS i Hi) as [SG He]. destruct (global_trace n g wf i 1 _ SG n 0 vzero vzero (es i) y (Rle_refl 0) He (regular_0 _ _)) as (u1 & u2 & _ & EU & _).
    exists u2, nu, D. split; [exact EU|]. split; [exact MN|]. split; [exact ED|]. f_equal. rewrite Ssum_rsum.
    rewrite (rsum_ext n _ (fun l => if Nat.eqb l k then nu l / vlen n nu else 0)); [now rewrite rsum_delta|].
    intros l Hl. rewrite unit_peval by assumption. destruct (Nat.eqb l k); ring.
Qed.
Theorem C77_volume : forall jv' jm jk j1 j2 jm' jk' j1' j2' k F Fs, regular_element jm jk -> (k < n)%nat ->
  (forall x, inside_ref n g x -> smooth 0 T x -> mlg_integrationElement n n 0 jm jk j1 j2 g x = Some (F x)) ->
  (forall i y, (i < re_size (ml_ref g) 1)%nat -> inside_ref (n - 1) (gs i) y -> smooth 0 T (emb_global (n - 1) (es i) y) -> exists u nu D,
     mlg_global (n - 1) n 0 jv' (gs i) y = Some u /\
     mapped_normal n n 0 jm jk j1 j2 g i (emb_global (n - 1) (es i) y) nu /\
     mlg_integrationElement (n - 1) n 0 jm' jk' j1' j2' (gs i) y = Some D /\ Fs i y = u k * (nu k / vlen n nu) * D) ->
  Iint T F = Ssum (re_size (ml_ref g) 1) (fun i => Iint (topo_of (ml_id (gs i)) (n - 1)) (Fs i)).
Proof.
  intros jv' jm jk j1 j2 jm' jk' j1' j2' k F Fs HR Hk HF HFs.
  apply (C77_divergence vzero jv' jm jk j1 j2 jm' jk' j1' j2' (fun l => if Nat.eqb l k then [(1, edelta k)] else []) (fun l _ => if Nat.eqb l k then 1 else 0) F Fs HR).
  - intros l Hl x. apply (is_derive_ext (fun t => if Nat.eqb l k then t else 0)).
    + intro t. rewrite pos_peval by assumption. destruct (Nat.eqb_spec l k) as [->|]; [now rewrite Nat.eqb_refl|reflexivity].
    + destruct (Nat.eqb l k); [exact (is_derive_id (K := R_AbsRing) (x l))|apply (is_derive_const (V := R_NormedModule))].
  - intros x Hi Hs. destruct (glob_map 0 vzero x (Rle_refl 0) (regular_0 _ _)) as (u & EU & _). exists u, (F x). split; [exact EU|]. split; [now apply HF|].
    rewrite Ssum_rsum, rsum_delta by assumption. ring.
  - intros i y Hi Hy Hs. destruct (HFs i y Hi Hy Hs) as (u & nu & D & EU & MN & ED & ->).
    exists u, nu, D. split; [exact EU|]. split; [exact MN|]. split; [exact ED|]. f_equal. rewrite Ssum_rsum.
    rewrite (rsum_ext n _ (fun l => if Nat.eqb l k then u k * (nu l / vlen n nu) else 0)); [now rewrite rsum_delta|].
    intros l Hl. rewrite pos_peval by assumption. destruct (Nat.eqb l k); ring.
Qed.

(** everything in the integrands is defined *)
Theorem C77_defined : forall jv jv' jm jk j1 j2 jm' jk' j1' j2', regular_element jm jk ->
  (forall x, inside_ref n g x -> smooth 0 T x -> exists u D, mlg_global n n 0 jv g x = Some u /\ mlg_integrationElement n n 0 jm jk j1 j2 g x = Some D /\ 0 < D) /\
  (forall i y, (i < re_size (ml_ref g) 1)%nat -> inside_ref (n - 1) (gs i) y -> smooth 0 T (emb_global (n - 1) (es i) y) -> exists u nu D,
     mlg_global (n - 1) n 0 jv' (gs i) y = Some u /\ mapped_normal n n 0 jm jk j1 j2 g i (emb_global (n - 1) (es i) y) nu /\ 0 < vlen n nu /\
     mlg_integrationElement (n - 1) n 0 jm' jk' j1' j2' (gs i) y = Some D /\ 0 < D).
Proof.
  intros jv jv' jm jk j1 j2 jm' jk' j1' j2' HR. split.
  - intros x Hi Hs. destruct (glob_map 0 jv x (Rle_refl 0) (regular_0 _ _)) as (u & EU & _). pose proof (reg_det jm jk x HR Hi Hs) as DN.
    exists u, (Rabs (detR n (jacc T c x))). split; [exact EU|]. split; [apply ie_det; auto; apply Rle_refl|now apply Rabs_pos_lt].
  - intros i y Hi Hy Hs. pose proof wf as (W1 & W2 & _).
    destruct (re_face _ _ _ i 1 (re_infos_ok _ _ _ W1 W2) ltac:(lia) Hi) as (f & F1 & F2 & F3 & _).
    destruct (facet_data f F1 F2) as (_ & _ & He & HEm & _ & HIn & HN). cbv zeta in *. rewrite F3 in *.
    destruct (HS i Hi) as [SG He']. destruct (global_trace n g wf i 1 _ SG n 0 vzero jv' (es i) y (Rle_refl 0) He' (regular_0 _ _)) as (u1 & u2 & _ & EU & _).
    assert (Hi2 : inside_ref n g (emb_global (n - 1) (es i) y)) by (rewrite HEm; apply inside_T; apply sub_inside; [exact F1|now apply HIn]).
    pose proof (reg_det jm jk _ HR Hi2 Hs) as DN.
    destruct (jit_det 0 jm jk j1 j2 _ (Rle_refl 0) Hs DN) as (D & X & EX & _).
    assert (MN : mapped_normal n n 0 jm jk j1 j2 g i (emb_global (n - 1) (es i) y) (mvec n X (nrm T f))) by (exists (nrm T f), D, X; auto).
    destruct (jt_jac 0 jm jk _ (Rle_refl 0) Hs) as (J & EJ & VJ).
    assert (HJ : row_independent n n J) by (now apply (HR (emb_global (n - 1) (es i) y))).
    destruct (C74_integration_element n n 0 jm jk j1 j2 jm' jk' j1' j2' g i (gs i) (es i) y J _ (Rle_refl 0) ltac:(lia) wf SG He' Hs EJ HJ MN) as (D0 & ED0 & PD & PN & EDf).
    exists u2, (mvec n X (nrm T f)), (D0 * vlen n (mvec n X (nrm T f))).
    split; [exact EU|]. split; [exact MN|]. split; [exact PN|]. split; [exact EDf|nra].
Qed.

(** an element with invertible Jacobians has one orientation: the determinant keeps its sign *)
Theorem C77_orientation : forall jm jk, regular_element jm jk ->
  exists s, (s = 1 \/ s = -1) /\ forall x J, inside_ref n g x -> smooth 0 T x -> mlg_jacobianTransposed n n 0 jm jk g x = Some J -> 0 < s * detR n J.
Proof.
  intros jm jk HR. destruct (orient T n c) as (s & Hs1 & HO).
  { intros x Hi Hs. apply (reg_det jm jk); [exact HR|now apply inside_T|exact Hs]. }
  exists s. split; [exact Hs1|]. intros x J Hi Hs EJ. destruct (jt_jac 0 jm jk x (Rle_refl 0) Hs) as (J' & EJ' & VJ). rewrite EJ in EJ'. injection EJ' as <-.
  rewrite (detR_meq n _ _ VJ). apply HO; [now apply inside_T|exact Hs].
Qed.
End World.
Print Assumptions C77_divergence.
Print Assumptions C77_closed.
Print Assumptions C77_volume.
Print Assumptions C77_defined.
Print Assumptions C77_orientation.

(** a quadrilateral that is not a parallelogram and a pyramid over it have invertible Jacobians *)
Definition v3 (a b c : R) : Vec := fun k => match k with 0%nat => a | 1%nat => b | 2%nat => c | _ => 0 end.
Definition skewquad (r : RefElement) : MLGeo := {| ml_id := 3; ml_ref := r; ml_corners := [v3 0 0 0; v3 1 0 0; v3 0 1 0; v3 2 2 0] |}.
Definition skewpyr (r : RefElement) : MLGeo := {| ml_id := 3; ml_ref := r; ml_corners := [v3 0 0 0; v3 1 0 0; v3 0 1 0; v3 2 2 0; v3 0 0 1] |}.
Example C77_example : forall jm jk,
  (exists r, ml_wf 2 (skewquad r) /\ regular_element 2 (skewquad r) jm jk /\ (forall o M, ~ corners_affine 2 2 (skewquad r) o M)) /\
  (exists r, ml_wf 3 (skewpyr r) /\ regular_element 3 (skewpyr r) jm jk /\ (forall o M, ~ corners_affine 3 3 (skewpyr r) o M)).
Proof.
  intros jm jk. split.
  - destruct (re_infos_spec 3 2 ltac:(reflexivity)) as (r & E & _). exists r.
    assert (wf : ml_wf 2 (skewquad r)) by (repeat split; auto). split; [exact wf|]. split.
    + intros x J Hi Hs EJ. destruct (jt_jac 2 (skewquad r) wf 0 jm jk x (Rle_refl 0) Hs) as (J' & EJ' & VJ). rewrite EJ in EJ'. injection EJ' as <-.
      apply det_rowind. rewrite (detR_meq 2 _ _ VJ), detR_2. apply inside_T in Hi. cbn in Hi.
      cbn. unfold top. cbn. nra.
    + intros o M H.
      pose proof (H 0%nat _ _ eq_refl eq_refl 0%nat ltac:(lia)) as A0. pose proof (H 1%nat _ _ eq_refl eq_refl 0%nat ltac:(lia)) as A1.
      pose proof (H 2%nat _ _ eq_refl eq_refl 0%nat ltac:(lia)) as A2. pose proof (H 3%nat _ _ eq_refl eq_refl 0%nat ltac:(lia)) as A3.
      cbn in A0, A1, A2, A3. unfold upd, vzero in *. cbn in A0, A1, A2, A3. lra.
  - destruct (re_infos_spec 3 3 ltac:(reflexivity)) as (r & E & _). exists r.
    assert (wf : ml_wf 3 (skewpyr r)) by (repeat split; auto). split; [exact wf|]. split.
    + intros x J Hi Hs EJ. destruct (jt_jac 3 (skewpyr r) wf 0 jm jk x (Rle_refl 0) Hs) as (J' & EJ' & VJ). rewrite EJ in EJ'. injection EJ' as <-.
      apply det_rowind. rewrite (detR_meq 3 _ _ VJ), detR_3. apply inside_T in Hi. cbn in Hs. destruct Hs as [Hs|[Hs _]]; [discriminate|].
      assert (L : x 2%nat <> 1) by (intro L; rewrite L, Rminus_diag_eq, Rabs_R0 in Hs by reflexivity; lra).
      pose proof (insideT_base (Pri (Pri Pt)) x Hi L) as Q. cbn in Q. destruct Q as (Q1 & Q2 & _).
      cbn. unfold top, P_ColMap.base. cbn. set (a := x 0%nat / (1 - x 2%nat)) in *. set (b := x 1%nat / (1 - x 2%nat)) in *.
      match goal with |- ?e <> 0 => replace e with (1 + a + b) by ring end. lra.
    + intros o M H.
      pose proof (H 0%nat _ _ eq_refl eq_refl 0%nat ltac:(lia)) as A0. pose proof (H 1%nat _ _ eq_refl eq_refl 0%nat ltac:(lia)) as A1.
      pose proof (H 2%nat _ _ eq_refl eq_refl 0%nat ltac:(lia)) as A2. pose proof (H 3%nat _ _ eq_refl eq_refl 0%nat ltac:(lia)) as A3.
      cbn in A0, A1, A2, A3. unfold upd, vzero in *. cbn in A0, A1, A2, A3. lra.
Qed.
