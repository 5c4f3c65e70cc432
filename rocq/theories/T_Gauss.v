(** C75: the divergence theorem, on the reference elements and on affine elements. *)
From Coq Require Import NArith PeanoNat Bool List Lia Reals Lra FunctionalExtensionality.
From Coquelicot Require Import Coquelicot.
From Verif Require Import M_Type M_RefTopo M_RefGeo P_Type P_Type2 S_Topo P_Topo P_RefTopo P_RefTopo2 P_RefTopo3 P_RSum P_RefGeo P_RefGeo2 P_RefGeo3 P_Det P_RefDet S_RefGeo P_RefVol P_RefGeo4 T_RefGeo M_Matrix M_MultiLinear S_Matrix S_MultiLinear P_MxBridge P_Matrix P_Matrix3 P_Matrix4 T_Matrix P_Volume P_ML1 P_ML2 P_ML3 P_ML5 T_RefTopo T_MultiLinear P_Trace S_Trace P_Trace2 T_Trace S_Normal P_Normal P_Normal2 T_Normal
  M_Quadrature S_Quad1D S_QuadND P_QuadProd S_Gauss P_Gauss P_Gauss2.
Import ListNotations.
Local Open Scope R_scope.

(** *** Reference elements: the integral of a partial derivative of a polynomial is the sum over
    the facets of the component of integrationOuterNormal times the integral of the polynomial
    over the reference element of the facet, pulled back with geometry(i,1) *)
Theorem C75_reference :
  forall id dim k P G es Ns, (1 <= dim)%nat -> (id < bit dim)%N -> (k < dim)%nat -> is_partial k (peval dim P) G ->
    (forall i, (i < size id dim 1)%nat -> re_geometry id dim 1 i = Some (es i) /\ nth_error (referenceIntegrationOuterNormals id dim) i = Some (Ns i)) ->
    Iint (topo_of id dim) G
    = Ssum (size id dim 1) (fun i => Ns i k * Iint (topo_of (subTopologyId id dim 1 i) (dim - 1)) (fun y => peval dim P (emb_global (dim - 1) (es i) y))).
Proof.
  intros id dim k P G es Ns Hd Hid Hk HG H. rewrite Ssum_rsum.
  rewrite (Iint_ext _ _ (peval (tdim (topo_of id dim)) (pder k P))).
  2:{ intro x. rewrite tdim_topo. now apply partial_unique. }
  rewrite gauss_poly by (now rewrite tdim_topo). rewrite size_tsize by assumption. symmetry. apply facets_sum. intros f F1 F2.
  assert (Hi : (fidx (topo_of id dim) f < size id dim 1)%nat) by (rewrite size_tsize by assumption; rewrite <- F2; now apply fidx_lt).
  destruct (H _ Hi) as [He HN].
  destruct (sub_data id dim 1 _ Hid Hd Hi) as (f' & F1' & F2' & F3' & F4 & F5 & F6 & F7).
  assert (f' = f) by (apply (fidx_inj (topo_of id dim)); auto; congruence). subst f'. clear F1' F2' F3'.
  rewrite F4 in He. injection He as He. rewrite <- He, F5.
  rewrite referenceIntegrationOuterNormals_spec in HN by lia. rewrite nth_error_map in HN.
  pose proof (fidx_nth _ f F1) as F. rewrite F2 in F. rewrite F in HN. injection HN as <-. f_equal.
  apply Iint_ext. intro y. rewrite tdim_topo. f_equal. unfold Emb. now rewrite F7.
Qed.
Print Assumptions C75_reference.

(** the facets have the geometries and normals the theorem asks for *)
Theorem C75_reference_defined :
  forall id dim i, (1 <= dim)%nat -> (id < bit dim)%N -> (i < size id dim 1)%nat ->
    exists e N, re_geometry id dim 1 i = Some e /\ nth_error (referenceIntegrationOuterNormals id dim) i = Some N.
Proof.
  intros id dim i Hd Hid Hi. destruct (sub_data id dim 1 i Hid Hd Hi) as (f & F1 & F2 & F3 & F4 & _).
  exists (fpair (topo_of id dim) f), (nrm (topo_of id dim) f). split; [exact F4|].
  rewrite referenceIntegrationOuterNormals_spec by lia. rewrite nth_error_map.
  pose proof (fidx_nth _ f F1) as F. rewrite F2, F3 in F. now rewrite F.
Qed.
Print Assumptions C75_reference_defined.

Section Affine.
Variables (mydim cdim : nat) (jm jk j1 j2 jm' jk' j1' j2' : Mat) (g : MLGeo) (o : Vec) (M : Mat) (gs : nat -> MLGeo) (es : nat -> Vec * Mat).
Hypothesis Hd : (1 <= mydim <= cdim)%nat.
Hypothesis wf : ml_wf mydim g.
Hypothesis HA : corners_affine mydim cdim g o M.
Hypothesis HM : row_independent mydim cdim M.
Hypothesis HS : forall i, (i < re_size (ml_ref g) 1)%nat -> sub_geometry mydim g i 1 (gs i) /\ re_geometry (ml_id g) mydim 1 i = Some (es i).
Notation T := (topo_of (ml_id g) mydim).

Lemma aff_element : exists D0 X0, rightInvA mydim cdim M mzero mzero mzero = Some (D0, X0) /\ 0 < D0 /\
  forall x, smooth 0 T x -> mlg_integrationElement mydim cdim 0 jm jk j1 j2 g x = Some D0 /\
    exists X, mlg_jacobianInverseTransposed mydim cdim 0 jm jk j1 j2 g x = Some (D0, X) /\ meq cdim mydim X X0.
Proof.
  destruct (rightInvA_spec mydim cdim M mzero mzero mzero (proj2 Hd) HM) as (D0 & X0 & G & E0 & PD & DD & _).
  exists D0, X0. split; [exact E0|]. split; [exact PD|]. intros x Hs.
  split; [|apply (aff_jit mydim cdim 0 g o M Hd ltac:(lra) wf HA HM D0 X0 E0); assumption].
  destruct (affine_jt mydim cdim 0 ltac:(lra) g wf jm jk o M x HA (nice_smooth _ _ _ _ Hs)) as (J & EJ & VJ).
  unfold mlg_integrationElement. rewrite EJ. cbn [obind].
  destruct (sqrtDet_meq mydim cdim M J mzero mzero j1 j2 (meq_sym _ _ _ _ VJ) HM) as (s & ES & ->). f_equal.
  destruct (C26_sqrtDetAAT mydim cdim M mzero mzero HM) as (s' & ES' & PS & QS). rewrite ES in ES'. injection ES' as <-.
  apply Rsqr_inj; [lra|lra|]. unfold Rsqr. now rewrite DD, QS.
Qed.

Lemma aff_flux D0 X0 : rightInvA mydim cdim M mzero mzero mzero = Some (D0, X0) ->
  re_size (ml_ref g) 1 = tsize T 1 /\
  forall f, is_face T f -> fcod T f = 1%nat -> let i := fidx T f in
    (i < re_size (ml_ref g) 1)%nat /\ es i = fpair T f /\ (forall y, emb_global (mydim - 1) (es i) y = Emb T f y) /\
    (forall F, Iint (topo_of (ml_id (gs i)) (mydim - 1)) F = Iint (ftype T f) F) /\
    (forall y, inside_ref (mydim - 1) (gs i) y <-> insideT (ftype T f) y 1) /\
    forall y, smooth 0 T (Emb T f y) ->
      (exists n, mapped_normal mydim cdim 0 jm jk j1 j2 g i (Emb T f y) n) /\
      forall n, mapped_normal mydim cdim 0 jm jk j1 j2 g i (Emb T f y) n ->
      exists D, mlg_integrationElement (mydim - 1) cdim 0 jm' jk' j1' j2' (gs i) y = Some D /\ 0 < vlen cdim n /\
        forall k, (k < cdim)%nat -> n k / vlen cdim n * D = D0 * mvec mydim X0 (nrm T f) k.
Proof.
  intro E0. pose proof wf as (W1 & W2 & _). pose proof (re_infos_ok _ _ _ W1 W2) as OK.
  assert (RS : re_size (ml_ref g) 1 = tsize T 1) by (rewrite (ok_re_size _ _ _ OK) by lia; reflexivity).
  split; [exact RS|]. intros f F1 F2 i.
  assert (Hi : (i < re_size (ml_ref g) 1)%nat) by (unfold i; rewrite RS, <- F2; now apply fidx_lt).
  split; [exact Hi|]. destruct (HS i Hi) as [SG He].
  destruct (sub_face mydim g wf i 1 (gs i) SG) as (f' & F1' & F2' & F3' & F4 & F5 & F6 & F7 & F8 & _).
  assert (f' = f) by (apply (fidx_inj T); auto; congruence). subst f'.
  pose proof He as He'. rewrite F4 in He'. injection He' as He'. split; [now symmetry|].
  split; [intro y; now rewrite <- He', F8|]. split; [intro F; rewrite <- F6; now apply shiftr_Iint|].
  split.
  { intro y. rewrite inside_T, <- F6. rewrite !insideT_lt. assert (L : lt (ml_id (gs i)) (mydim - 1) = lt (subTopologyId (ml_id g) mydim 1 i) (mydim - 1)).
    { clear -F5. induction (mydim - 1)%nat as [|d IH]; [reflexivity|]. rewrite !lt_S. destruct d as [|d]; [now rewrite !orb_true_r|].
      now rewrite (shiftr_testbit _ _ d F5), IH. }
    now rewrite L. }
  intros y Hs. split.
  - destruct (aff_jit mydim cdim 0 g o M Hd ltac:(lra) wf HA HM D0 X0 E0 jm jk j1 j2 _ Hs) as (X & EX & _).
    exists (mvec mydim X (nrm T f)), (nrm T f), D0, X. split; [|split; [exact EX|reflexivity]].
    rewrite referenceIntegrationOuterNormals_spec by lia. rewrite nth_error_map.
    pose proof (fidx_nth _ f F1) as F. rewrite F2 in F. unfold i. now rewrite F.
  - intros n MN. pose proof (aff_normal mydim cdim 0 g o M Hd ltac:(lra) wf HA HM D0 X0 E0 jm jk j1 j2 f i _ n F1 F2 eq_refl Hs MN) as VN.
    destruct (affine_jt mydim cdim 0 ltac:(lra) g wf jm jk o M _ HA (nice_smooth _ _ _ _ Hs)) as (J & EJ & VJ).
    assert (HJ : row_independent mydim cdim J) by (apply (rowind_meq _ _ M); [now apply meq_sym|exact HM]).
    rewrite <- F8, He' in Hs, MN, EJ.
    destruct (C74_integration_element mydim cdim 0 jm jk j1 j2 jm' jk' j1' j2' g i (gs i) (es i) y J n (Rle_refl 0) Hd wf SG He Hs EJ HJ MN) as (D & ED & PD & PN & EDf).
    destruct (aff_element) as (D0' & X0' & E0' & _ & H'). rewrite E0 in E0'. injection E0' as <- <-.
    destruct (H' _ Hs) as [ED' _]. rewrite ED in ED'. injection ED' as ->.
    exists (D0 * vlen cdim n). split; [exact EDf|]. split; [exact PN|]. intros k Hk. rewrite <- (VN k Hk). field. lra.
Qed.

(** *** Affine elements of any dimension in a space of any dimension: the divergence of a field
    of local polynomials, formed with jacobianInverseTransposed and integrated with
    integrationElement, is its flux through the facets *)
Theorem C75_affine : forall (P : nat -> MPoly) (G : nat -> nat -> Vec -> R) (F : Vec -> R) (Fs : nat -> Vec -> R),
  (forall k j, (k < cdim)%nat -> (j < mydim)%nat -> is_partial j (peval mydim (P k)) (G k j)) ->
  (forall x, inside_ref mydim g x -> smooth 0 T x -> exists D D' X,
     mlg_integrationElement mydim cdim 0 jm jk j1 j2 g x = Some D /\ mlg_jacobianInverseTransposed mydim cdim 0 jm jk j1 j2 g x = Some (D', X) /\
     F x = Ssum cdim (fun k => mvec mydim X (fun j => G k j x) k) * D) ->
  (forall i y, (i < re_size (ml_ref g) 1)%nat -> inside_ref (mydim - 1) (gs i) y -> smooth 0 T (emb_global (mydim - 1) (es i) y) -> exists n D,
     mapped_normal mydim cdim 0 jm jk j1 j2 g i (emb_global (mydim - 1) (es i) y) n /\
     mlg_integrationElement (mydim - 1) cdim 0 jm' jk' j1' j2' (gs i) y = Some D /\
     Fs i y = Ssum cdim (fun k => peval mydim (P k) (emb_global (mydim - 1) (es i) y) * (n k / vlen cdim n)) * D) ->
  Iint T F = Ssum (re_size (ml_ref g) 1) (fun i => Iint (topo_of (ml_id (gs i)) (mydim - 1)) (Fs i)).
Proof.
  intros P G F Fs HG HF HFs. destruct aff_element as (D0 & X0 & E0 & PD & HE). destruct (aff_flux D0 X0 E0) as [RS HB].
  rewrite (Iint_ext_in T F (fun x => rsum cdim (fun k => rsum (tdim T) (fun j => (D0 * X0 k j) * peval (tdim T) (pder j (P k)) x)))).
  - rewrite gauss_field, Ssum_rsum, RS. symmetry. apply facets_sum. intros f F1 F2.
    destruct (HB f F1 F2) as (Hi & He & HEm & HI & HIn & HN). cbv zeta in *. rewrite HI.
    apply (Iint_ext_face T f); auto. intros y Hy Hs.
    pose proof (HFs _ y Hi (proj2 (HIn y) Hy)) as Q. rewrite HEm in Q. destruct (Q Hs) as (n & D & MN & ED & ->).
    destruct (proj2 (HN y Hs) n MN) as (D' & ED' & PN & HV). rewrite ED in ED'. injection ED' as <-.
    rewrite Ssum_rsum, Rmult_comm, <- rsum_scal. apply rsum_ext. intros k Hk. rewrite !tdim_topo.
    transitivity (peval mydim (P k) (Emb T f y) * (n k / vlen cdim n * D)); [ring|]. rewrite HV by assumption. unfold mvec. rewrite <- rsum_scal.
    rewrite (rsum_ext mydim (fun j => D0 * X0 k j * nrm T f j) (fun j => D0 * (X0 k j * nrm T f j))) by (intros; ring). ring.
  - intros x Hx Hs. destruct (HF x (proj2 (inside_T mydim g x) Hx) Hs) as (D & D' & X & ED & EX & ->).
    destruct (HE x Hs) as (ED0 & X' & EX' & VX). rewrite ED in ED0. injection ED0 as ->. rewrite EX in EX'. injection EX' as -> <-.
    rewrite Ssum_rsum, Rmult_comm, <- rsum_scal. apply rsum_ext. intros k Hk. unfold mvec. rewrite <- rsum_scal, tdim_topo. apply rsum_ext. intros j Hj.
    rewrite VX by assumption. rewrite (partial_unique mydim (P k) j (G k j) Hj (HG k j Hk Hj)). ring.
Qed.

(** everything in the integrands is defined *)
Theorem C75_affine_defined :
  (forall x, smooth 0 T x -> exists D X, mlg_integrationElement mydim cdim 0 jm jk j1 j2 g x = Some D /\ 0 < D /\ mlg_jacobianInverseTransposed mydim cdim 0 jm jk j1 j2 g x = Some (D, X)) /\
  (forall i y, (i < re_size (ml_ref g) 1)%nat -> smooth 0 T (emb_global (mydim - 1) (es i) y) -> exists n D,
     mapped_normal mydim cdim 0 jm jk j1 j2 g i (emb_global (mydim - 1) (es i) y) n /\ 0 < vlen cdim n /\
     mlg_integrationElement (mydim - 1) cdim 0 jm' jk' j1' j2' (gs i) y = Some D).
Proof.
  destruct aff_element as (D0 & X0 & E0 & PD & HE). destruct (aff_flux D0 X0 E0) as [RS HB]. split.
  - intros x Hs. destruct (HE x Hs) as (ED & X & EX & _). exists D0, X. auto.
  - intros i y Hi Hs. pose proof wf as (W1 & W2 & _). destruct (re_face _ _ _ i 1 (re_infos_ok _ _ _ W1 W2) ltac:(lia) Hi) as (f & F1 & F2 & F3 & _).
    destruct (HB f F1 F2) as (_ & He & HEm & _ & _ & HN). cbv zeta in *. rewrite F3 in *. rewrite HEm in Hs |- *.
    destruct (HN y Hs) as [[n MN] Q]. destruct (Q n MN) as (D & ED & PN & _). exists n, D. auto.
Qed.
End Affine.
Print Assumptions C75_affine.
Print Assumptions C75_affine_defined.

Lemma fin_choice {A} (d : A) (Q : nat -> A -> Prop) n : (forall k, (k < n)%nat -> exists a, Q k a) -> exists f, forall k, (k < n)%nat -> Q k (f k).
Proof.
  induction n as [|n IH]; intro H; [exists (fun _ => d); intros; lia|].
  destruct (IH ltac:(intros; apply H; lia)) as [f Hf]. destruct (H n ltac:(lia)) as [a Ha].
  exists (fun k => if (k =? n)%nat then a else f k). intros k Hk. destruct (Nat.eqb_spec k n) as [->|]; [exact Ha|apply Hf; lia].
Qed.

(** *** The divergence theorem in world coordinates: affine elements of full dimension,
    polynomial vector fields evaluated at global() *)
Theorem C75_divergence :
  forall n jv jv' jm jk j1 j2 jm' jk' j1' j2' g o M gs es (Phi : nat -> MPoly) (dPhi : nat -> Vec -> R) F Fs,
  (1 <= n)%nat -> ml_wf n g -> corners_affine n n g o M -> row_independent n n M ->
  (forall i, (i < re_size (ml_ref g) 1)%nat -> sub_geometry n g i 1 (gs i) /\ re_geometry (ml_id g) n 1 i = Some (es i)) ->
  (forall k, (k < n)%nat -> is_partial k (peval n (Phi k)) (dPhi k)) ->
  (forall x, inside_ref n g x -> smooth 0 (topo_of (ml_id g) n) x -> exists u D,
     mlg_global n n 0 jv g x = Some u /\ mlg_integrationElement n n 0 jm jk j1 j2 g x = Some D /\
     F x = Ssum n (fun k => dPhi k u) * D) ->
  (forall i y, (i < re_size (ml_ref g) 1)%nat -> inside_ref (n - 1) (gs i) y -> smooth 0 (topo_of (ml_id g) n) (emb_global (n - 1) (es i) y) -> exists u nu D,
     mlg_global (n - 1) n 0 jv' (gs i) y = Some u /\
     mapped_normal n n 0 jm jk j1 j2 g i (emb_global (n - 1) (es i) y) nu /\
     mlg_integrationElement (n - 1) n 0 jm' jk' j1' j2' (gs i) y = Some D /\
     Fs i y = Ssum n (fun k => peval n (Phi k) u * (nu k / vlen n nu)) * D) ->
  Iint (topo_of (ml_id g) n) F = Ssum (re_size (ml_ref g) 1) (fun i => Iint (topo_of (ml_id (gs i)) (n - 1)) (Fs i)).
Proof.
  intros n jv jv' jm jk j1 j2 jm' jk' j1' j2' g o M gs es Phi dPhi F Fs Hn wf HA HM HS HP HF HFs.
  set (aff := fun x : Vec => (fun l => o l + rsum n (fun j => M j l * x j)) : Vec).
  destruct (fin_choice [] (fun k R => forall x, peval n R x = peval n (Phi k) (aff x)) n) as (P & HPe).
  { intros k Hk. apply (polyfun_affine n n (Phi k) o M). }
  apply (C75_affine n n jm jk j1 j2 jm' jk' j1' j2' g o M gs es ltac:(lia) wf HA HM HS P
    (fun k j x => rsum n (fun l => M j l * peval n (pder l (Phi k)) (aff x)))).
  - intros k j Hk Hj x.
    apply (is_derive_ext (fun t => peval n (Phi k) (aff (fun i => if (i =? j)%nat then t else x i)))).
    { intro t. symmetry. now apply HPe. }
    pose proof (peval_chain n (Phi k) (fun t => aff (fun i => if (i =? j)%nat then t else x i)) (fun l => M j l) (x j)) as Q.
    refine (eq_ind _ (fun l => is_derive _ _ l) (Q _) _ _).
    + intros l Hl. unfold aff.
      apply (is_derive_ext (fun t => (o l + rsum n (fun i => M i l * (if (i =? j)%nat then 0 else x i))) + t * M j l)).
      * intro t. rewrite Rplus_assoc. f_equal. rewrite <- (rsum_delta n j (fun i => t * M i l)) by assumption. rewrite <- rsum_plus. apply rsum_ext. intros i Hi.
        destruct (i =? j)%nat; ring.
      * auto_derive; [exact I|ring].
    + cbv beta. apply rsum_ext. intros l Hl. f_equal. apply peval_ext. intros m Hm. unfold aff. f_equal. apply rsum_ext. intros i Hi. destruct (Nat.eqb_spec i j); congruence.
  - intros x Hx Hs. destruct (HF x Hx Hs) as (u & D & EU & ED & ->).
    destruct (aff_element n n jm jk j1 j2 g o M ltac:(lia) wf HA HM) as (D0 & X0 & E0 & _ & H). destruct (H x Hs) as (ED' & X & EX & VX).
    exists D, D0, X. split; [exact ED|]. split; [exact EX|]. f_equal. rewrite !Ssum_rsum. apply rsum_ext. intros k Hk.
    destruct (affine_global n n 0 ltac:(lra) g wf jv o M x HA (nice_smooth _ _ _ _ Hs)) as (u' & EU' & VU). rewrite EU in EU'. injection EU' as <-.
    rewrite (partial_unique n (Phi k) k (dPhi k) Hk (HP k Hk)). rewrite (peval_ext n _ u (aff x)) by (intros; now apply VU).
    destruct (rightInvA_spec n n M mzero mzero mzero (le_n n) HM) as (D1 & X1 & G & E1 & _ & _ & HG & HX). rewrite E0 in E1. injection E1 as <- <-.
    assert (XM : meq n n (mmul n X0 M) mone).
    { apply minv_comm. eapply meq_trans; [apply meq_mulR; exact HX|]. eapply meq_trans; [apply meq_mulA|]. exact HG. }
    unfold mvec. rewrite (rsum_ext n _ (fun j => rsum n (fun l => (X0 k j * M j l) * peval n (pder l (Phi k)) (aff x)))).
    2:{ intros j Hj. rewrite <- rsum_scal. apply rsum_ext. intros l Hl. rewrite VX by assumption. ring. }
    rewrite rsum_swap. rewrite (rsum_ext n _ (fun l => if (l =? k)%nat then peval n (pder l (Phi k)) (aff x) else 0)).
    + now rewrite rsum_delta.
    + intros l Hl. rewrite rsum_scal_r. pose proof (XM k l Hk Hl) as Q. unfold mmul, mone in Q. rewrite Q. rewrite (Nat.eqb_sym k l). destruct (l =? k)%nat; ring.
  - intros i y Hi Hy Hs. destruct (HFs i y Hi Hy Hs) as (u & nu & D & EU & MN & ED & ->).
    exists nu, D. split; [exact MN|]. split; [exact ED|]. f_equal. rewrite !Ssum_rsum. apply rsum_ext. intros k Hk. f_equal.
    destruct (HS i Hi) as [SG He].
    destruct (global_trace n g wf i 1 (gs i) SG n 0 jv jv' (es i) y (Rle_refl 0) He (regular_0 _ _)) as (u1 & u2 & EU1 & EU2 & UV).
    rewrite EU in EU2. injection EU2 as <-.
    destruct (affine_global n n 0 ltac:(lra) g wf jv o M _ HA (nice_smooth _ _ _ _ Hs)) as (u' & EU' & VU). rewrite EU1 in EU'. injection EU' as <-.
    rewrite HPe by assumption. symmetry. apply peval_ext. intros l Hl. rewrite <- (UV l Hl) || rewrite (UV l Hl). now rewrite VU || idtac.
Qed.
Print Assumptions C75_divergence.

(** the triangle and the function x^2: the integral of 2x is 1/3, which is the flux through the
    hypotenuse (normal (1,1)), where the function is (1-t)^2 *)
Definition sqx : MPoly := [(1, fun k => if Nat.eqb k 0 then 2%nat else 0%nat)].
Example C75_example :
  is_partial 0 (peval 2 sqx) (fun x => 2 * x 0%nat) /\ Iint (topo_of 0 2) (fun x => 2 * x 0%nat) = 1/3 /\
  exists e N, re_geometry 0 2 1 2 = Some e /\ nth_error (referenceIntegrationOuterNormals 0 2) 2 = Some N /\ N 0%nat = 1 /\
    (forall y, peval 2 sqx (emb_global 1 e y) = (1 - y 0%nat) ^ 2) /\
    Iint (topo_of (subTopologyId 0 2 1 2) 1) (fun y => peval 2 sqx (emb_global 1 e y)) = 1/3.
Proof.
  split; [|split].
  - intro x. cbn. auto_derive; [exact I|ring].
  - rewrite (Iint_ext _ _ (fun x => 2 * mono (tdim (topo_of 0 2)) (edelta 0) x)).
    + rewrite Iint_mono. cbn -[Beta]. rewrite !Beta_val. cbn. field.
    + intro x. rewrite mono_edelta by (cbn; lia). reflexivity.
  - destruct (sub_data 0 2 1 2 ltac:(reflexivity) ltac:(lia) ltac:(cbn; lia)) as (f & F1 & F2 & F3 & F4 & F5 & _).
    pose proof (fidx_nth _ f F1) as F. rewrite F2, F3 in F. cbn in F. injection F as <-.
    exists (fpair (topo_of 0 2) (FCone FApex)), (nrm (topo_of 0 2) (FCone FApex)). split; [exact F4|]. split.
    { rewrite referenceIntegrationOuterNormals_spec by lia. reflexivity. }
    assert (E : forall y, peval 2 sqx (emb_global 1 (fpair (topo_of 0 2) (FCone FApex)) y) = (1 - y 0%nat) ^ 2).
    { intro y. unfold emb_global. cbn. unfold upd, vzero. cbn. ring. }
    split; [cbn; unfold upd; cbn; lra|]. split; [exact E|].
    change (topo_of (subTopologyId 0 2 1 2) 1) with (topo_of (subTopologyId 0 2 1 2) (2 - 1)). rewrite F5. rewrite (Iint_ext _ _ _ E). change (ftype (topo_of 0 2) (FCone FApex)) with (Pyr Pt). cbn [Iint tdim].
    rewrite (RInt_ext _ (fun t => (1 - t) ^ 2 * t ^ 0)).
    + change (Beta 2 0 = 1/3). rewrite Beta_val. cbn. field.
    + intros t _. cbn. toR. ring.
Qed.
