(** MultiLinearGeometry: centre, affine geometries, Newton iteration, cache. *)
From Coq Require Import PeanoNat NArith Lia Bool List Reals Lra FunctionalExtensionality.
From Verif Require Import M_Type M_RefTopo M_RefGeo M_Matrix M_Affine M_MultiLinear S_Topo S_RefGeo S_Matrix S_MultiLinear P_Type P_Topo P_RefTopo P_RefTopo2 P_RefTopo3 P_RSum P_RefGeo P_RefGeo2 P_RefGeo3 P_RefGeo4
  P_Det P_MxBridge P_Matrix P_Matrix2 P_Matrix3 P_Matrix4 P_Matrix5 P_Affine P_ML1 P_ML2 P_ML3 P_ML4 T_RefGeo T_Matrix.
Import ListNotations.
Local Open Scope R_scope.

Lemma meanT_Pri b k : (k < tdim b)%nat -> meanT (Pri b) k = meanT b k.
Proof.
  intros Hk. unfold meanT. assert (P := verts_length_pos b). assert (Q : 0 < INR (length (verts b))) by (apply lt_0_INR; lia).
  rewrite verts_Pri, lsum_app, !lsum_map, app_length, !map_length, plus_INR. cbn [forg].
  rewrite (lsum_ext (fun v => upd (forg b v) (tdim b) 1 k) (fun v => forg b v k)) by (intros; rewrite upd_ne by lia; reflexivity).
  field. lra.
Qed.
Lemma meanT_Pyr_last b : meanT (Pyr b) (tdim b) = 1 / (INR (length (verts b)) + 1).
Proof.
  unfold meanT. rewrite verts_Pyr, lsum_app, lsum_map, app_length, map_length, plus_INR. cbn [forg length].
  rewrite (lsum_ext (fun v => forg b v (tdim b)) (fun _ => 0)).
  - rewrite lsum_const. cbn [lsum fold_right forg]. rewrite upd_eq. simpl INR. f_equal. ring.
  - intros v Hv. apply forg_support. lia.
Qed.
Lemma meanT_Pyr b k : (k < tdim b)%nat -> meanT (Pyr b) k / (1 - meanT (Pyr b) (tdim b)) = meanT b k.
Proof.
  intros Hk. rewrite meanT_Pyr_last. assert (P := verts_length_pos b). assert (Q : 0 < INR (length (verts b))) by (apply lt_0_INR; lia).
  unfold meanT. rewrite verts_Pyr, lsum_app, lsum_map, app_length, map_length, plus_INR. cbn [forg length].
  cbn [lsum fold_right forg]. rewrite upd_ne by lia. unfold vzero. simpl INR. fold (lsum (fun v => forg b v k) (verts b)). field. lra.
Qed.
Lemma smooth_ext tol T : forall x y, (forall k, (k < tdim T)%nat -> x k = y k) -> smooth tol T x -> smooth tol T y.
Proof.
  induction T as [|b IH|b IH]; intros x y E; cbn [smooth tdim] in *; [auto| |].
  - apply IH. intros; apply E; lia.
  - intros [H|[H1 H2]]; [auto|right]; rewrite <- (E (tdim b)) by lia. split; [assumption|]. revert H2. apply IH. intros k Hk. now rewrite E by lia.
Qed.
Lemma meanT_smooth tol T : tol < 1 / 2 -> smooth tol T (meanT T).
Proof.
  intro Ht. induction T as [|b IH|b IH]; cbn [smooth]; auto.
  - apply (smooth_ext tol b (meanT b)); [|assumption]. intros; symmetry; now apply meanT_Pri.
  - right. split.
    + rewrite meanT_Pyr_last. assert (P := verts_length_pos b). assert (Q : 1 <= INR (length (verts b))) by (apply (le_INR 1); lia).
      assert (1 / (INR (length (verts b)) + 1) <= 1 / 2).
      { unfold Rdiv. rewrite !Rmult_1_l. apply Rinv_le_contravar; lra. }
      rewrite Rabs_pos_eq; lra.
    + apply (smooth_ext tol b (meanT b)); [|assumption]. intros; symmetry; now apply meanT_Pyr.
Qed.
Lemma center_spec mydim g : ml_wf mydim g -> exists p, re_position (ml_id g) mydim (ml_ref g) 0 0 = Some p /\
  (forall k, (k < mydim)%nat -> p k = meanT (topo_of (ml_id g) mydim) k).
Proof.
  intros (H1 & H2 & _). assert (OK := re_infos_ok _ _ _ H1 H2). set (T := topo_of (ml_id g) mydim).
  destruct (whole_face T) as (W1 & W2 & W3).
  destruct (re_position_spec _ _ _ _ OK W1) as (p & P & PV). fold T in P, PV. rewrite W2 in P. rewrite W3 in PV.
  assert (FI : fidx T (whole T) = 0%nat).
  { assert (Q := fidx_lt T (whole T) W1). rewrite W2, tsize_0 in Q. lia. }
  rewrite FI in P. exists p. split; [exact P|]. intros k Hk. rewrite PV. apply Emb_whole. unfold T. now rewrite tdim_topo.
Qed.

(** ** pseudo inverse facts *)
Lemma rowind_meq m n A B : meq m n A B -> row_independent m n A -> row_independent m n B.
Proof.
  intros E H x Hx. apply H. intros j Hj. rewrite <- (Hx j Hj). unfold mvec, mtr. apply rsum_ext. intros i Hi. now rewrite E.
Qed.
Lemma gram_inj m n A x y : row_independent m n A ->
  veq m (mvec m (mmul n A (mtr A)) x) (mvec m (mmul n A (mtr A)) y) -> veq m x y.
Proof.
  intros Hr E i Hi. destruct (gram_spd m n A Hr) as [_ P]. destruct (Req_dec (x i) (y i)) as [|N]; [assumption|]. exfalso.
  assert (Q := P (fun j => x j - y j)). assert (E0 : 0 < qform m (mmul n A (mtr A)) (fun j => x j - y j)) by (apply Q; exists i; split; [assumption|lra]).
  unfold qform in E0. rewrite rsum_0 in E0; [lra|]. intros j Hj. rewrite mvec_minus, (E j Hj). ring.
Qed.
Lemma gram_meq m n A B : meq m n A B -> meq m m (mmul n A (mtr A)) (mmul n B (mtr B)).
Proof. intros E i j Hi Hj. unfold mmul, mtr. apply rsum_ext. intros k Hk. now rewrite !E. Qed.
Lemma veq_mvec m n A B x y : meq m n A B -> veq n x y -> veq m (mvec n A x) (mvec n B y).
Proof. intros E F i Hi. unfold mvec. apply rsum_ext. intros j Hj. now rewrite E, F. Qed.

Section G.
Variables (mydim cdim : nat) (tol : R).
Hypothesis Ht : 0 <= tol < 1.
Variable g : MLGeo.
Notation T := (topo_of (ml_id g) mydim).
Notation L := (lt (ml_id g) mydim).
Hypothesis wf : ml_wf mydim g.
Notation cs := (fun i => nth i (ml_corners g) vzero).

Lemma affine_img o M : corners_affine mydim cdim g o M <-> aff_image cdim (ml_id g) mydim cs o M.
Proof.
  unfold corners_affine, aff_image. assert (LN := ml_wf_nv mydim g wf). rewrite nv_lt. split.
  - intros H i k Hi Hk. rewrite rc_lt by assumption. rewrite <- rc_corner by assumption.
    apply (H i); auto; apply nth_error_nth'; [lia|rewrite <- nv_size; assumption].
  - intros H i c p Hc Hp k Hk. assert (Hi : (i < nv T)%nat) by (rewrite <- LN; apply nth_error_Some; congruence).
    rewrite (nth_error_nth _ _ vzero Hc) in H || idtac.
    assert (Q := H i k Hi Hk). cbv beta in Q. rewrite (nth_error_nth _ _ vzero Hc) in Q. rewrite Q.
    rewrite rc_lt, <- rc_corner by assumption. now rewrite (nth_error_nth _ _ vzero Hp).
Qed.

(** points at which everything linear is reproduced *)
Definition nice (x : Vec) : Prop := good tol L x.
Lemma nice_smooth x : smooth tol T x -> nice x.
Proof. intro H. apply smooth_good. now apply smooth_lt. Qed.
Lemma nice_inside x : regular tol T x -> inside_ref mydim g x -> nice x.
Proof.
  intros H I. apply regular_inside_good; [lra|now apply regular_lt|]. apply (proj1 (insideT_lt _ _ _ _)). now apply inside_T.
Qed.

Lemma affine_global jv o M x : corners_affine mydim cdim g o M -> nice x ->
  exists y, mlg_global mydim cdim tol jv g x = Some y /\ forall k, (k < cdim)%nat -> y k = o k + rsum mydim (fun j => M j k * x j).
Proof.
  intros HA N. apply affine_img in HA. eexists. split; [now apply global_spec|]. intros k Hk. unfold vset. rewrite (proj2 (Nat.ltb_lt k cdim)) by assumption.
  unfold comb. rewrite <- nv_lt.
  rewrite (rsum_ext _ _ (fun i => o k * (shape L x i * 1) + rsum mydim (fun j => M j k * (shape L x i * rc L i j)))).
  - rewrite rsum_plus, rsum_scal, shape_sum, Rmult_1_r. f_equal. rewrite rsum_swap. apply rsum_ext. intros j Hj. rewrite rsum_scal. f_equal.
    apply (good_0_smooth_or tol); [lra|assumption|now rewrite tdim_lt].
  - intros i Hi. rewrite shapeC_shape; [|lra|now apply good_regular|assumption]. rewrite HA by assumption.
    rewrite Rmult_plus_distr_l, <- rsum_scal. f_equal; [ring|]. apply rsum_ext. intros; ring.
Qed.
Lemma affine_jt jm jk o M x : corners_affine mydim cdim g o M -> nice x ->
  exists J, mlg_jacobianTransposed mydim cdim tol jm jk g x = Some J /\ meq mydim cdim J M.
Proof.
  intros HA N. apply affine_img in HA. eexists. split; [now apply jt_value|]. intros j k Hj Hk.
  rewrite (proj2 (Nat.ltb_lt j mydim)), (proj2 (Nat.ltb_lt k cdim)) by assumption. cbn [andb].
  unfold comb. rewrite <- nv_lt.
  rewrite (rsum_ext _ _ (fun i => o k * (dshapeC tol L x j i * 1) + rsum mydim (fun l => M l k * (dshapeC tol L x j i * rc L i l)))).
  - rewrite rsum_plus, rsum_scal, dsum_const by (auto; now rewrite tdim_lt). rewrite rsum_swap.
    rewrite (rsum_ext mydim _ (fun l => if Nat.eqb l j then M l k else 0)).
    + rewrite rsum_delta by assumption. ring.
    + intros l Hl. rewrite rsum_scal, dsum_coord by (auto; now rewrite tdim_lt). rewrite Nat.eqb_sym. destruct (Nat.eqb l j); ring.
  - intros i Hi. rewrite HA by assumption. rewrite Rmult_plus_distr_l, <- rsum_scal. f_equal; [ring|]. apply rsum_ext. intros; ring.
Qed.
Lemma affine_flag jm jk : exists jt, mlg_affine mydim cdim tol jm jk g = Some (affB cdim tol (ml_id g) mydim cs, jt) /\
  (affB cdim tol (ml_id g) mydim cs = true -> forall j k, (j < mydim)%nat -> (k < cdim)%nat -> jt j k = edge (ml_id g) cs j k).
Proof.
  destruct (affine_spec cdim tol (ml_id g) mydim jk mydim (ml_corners g) jm) as (rest & jt & E & F); [lia|rewrite nv_lt, (ml_wf_nv mydim g) by assumption; lia|].
  cbv zeta in *. exists jt. split; [unfold mlg_affine; now rewrite E|]. intros H j k Hj Hk. destruct (F H) as [_ J]. rewrite J.
  rewrite (proj2 (Nat.ltb_lt j mydim)), (proj2 (Nat.ltb_lt k cdim)) by assumption. reflexivity.
Qed.
Lemma affine_detect jm jk o M : 0 < tol -> corners_affine mydim cdim g o M ->
  exists jt, mlg_affine mydim cdim tol jm jk g = Some (true, jt) /\ meq mydim cdim jt M.
Proof.
  intros T0 HA. apply affine_img in HA. destruct (affine_flag jm jk) as (jt & E & F).
  assert (Q := image_affB cdim tol (ml_id g) T0 _ _ _ _ HA). rewrite Q in *. exists jt. split; [assumption|].
  intros j k Hj Hk. rewrite F by auto. now apply (image_edge cdim (ml_id g) mydim _ o).
Qed.

(** ** Newton *)
Lemma step_affine jv jm jk j1 j2 o M x y : (mydim <= cdim)%nat -> corners_affine mydim cdim g o M -> row_independent mydim cdim M -> nice x ->
  exists dx, ml_step mydim cdim tol jv jm jk j1 j2 g y x = Some (true, dx) /\
    veq mydim (mvec mydim (mmul cdim M (mtr M)) (fun k => x k - dx k)) (mvec cdim M (fun k => y k - o k)).
Proof.
  intros Hm HA Hr N. destruct (affine_global jv o M x HA N) as (gx & EG & VG). destruct (affine_jt jm jk o M x HA N) as (J & EJ & VJ).
  unfold ml_step. rewrite EG, EJ. cbn [obind].
  assert (HrJ := rowind_meq _ _ _ _ (meq_sym _ _ _ _ VJ) Hr).
  destruct (C25_xTRightInvA mydim cdim J (fun k => gx k - y k) j1 j2 Hm) as [Q _]. destruct (Q HrJ) as (dx & E & V & _). exists dx. split; [exact E|].
  intros i Hi. rewrite mvec_minus.
  assert (V' : mvec mydim (mmul cdim M (mtr M)) dx i = mvec cdim M (fun k => gx k - y k) i).
  { rewrite <- (veq_mvec mydim mydim _ _ dx dx (gram_meq mydim cdim J M VJ) (fun _ _ => eq_refl) i Hi). rewrite (V i Hi).
    apply (veq_mvec mydim cdim J M); auto. intros ? ?; reflexivity. }
  rewrite V', mvec_mmul, <- mvec_minus. unfold mvec at 1 3. apply rsum_ext. intros k Hk. f_equal. rewrite VG by assumption.
  unfold mvec, mtr. cbv beta. ring.
Qed.
End G.

(** ** the cached geometry *)
Lemma sqrtDet_meq m n A B j1 j2 j1' j2' : meq m n A B -> row_independent m n A ->
  exists s, sqrtDetAAT m n A j1 j2 = Some s /\ sqrtDetAAT m n B j1' j2' = Some s.
Proof.
  intros E Hr. destruct (C26_sqrtDetAAT m n A j1 j2 Hr) as (s & E1 & P & Q).
  destruct (C26_sqrtDetAAT m n B j1' j2' (rowind_meq _ _ _ _ E Hr)) as (s' & E2 & P' & Q').
  exists s. split; [assumption|]. rewrite E2. f_equal. rewrite <- (detR_meq m _ _ (gram_meq m n A B E)), <- Q in Q'.
  apply Rsqr_inj; auto.
Qed.
Lemma rightInv_meq m n A B ret ret' j1 j2 j1' j2' : (m <= n)%nat -> meq m n A B -> row_independent m n A ->
  exists d X X', rightInvA m n A ret j1 j2 = Some (d, X) /\ rightInvA m n B ret' j1' j2' = Some (d, X') /\ meq n m X X'.
Proof.
  intros Hm E Hr. assert (HrB := rowind_meq _ _ _ _ E Hr).
  destruct (rightInvA_spec m n A ret j1 j2 Hm Hr) as (d & X & G & E1 & D1 & D2 & HG & HX).
  destruct (rightInvA_spec m n B ret' j1' j2' Hm HrB) as (d' & X' & G' & E2 & D1' & D2' & HG' & HX').
  assert (d' = d).
  { apply Rsqr_inj; [lra|lra|]. unfold Rsqr. rewrite D2, D2'. symmetry. apply detR_meq. now apply gram_meq. }
  subst d'. exists d, X, X'. repeat split; auto.
  apply meq_trans with (mmul m (mtr A) G); [assumption|]. apply meq_sym. apply meq_trans with (mmul m (mtr B) G'); [assumption|].
  assert (GG : meq m m G' G).
  { apply inverse_unique with (mmul n A (mtr A)); [|assumption].
    apply meq_trans with (mmul m (mmul n B (mtr B)) G'); [|assumption]. apply meq_mulL. now apply gram_meq. }
  intros i j Hi Hj. unfold mmul, mtr. apply rsum_ext. intros k Hk. now rewrite E, GG.
Qed.


Section C.
Variables (mydim cdim : nat) (tol : R) (jv : Vec) (jm jk j1 j2 : Mat).
Hypothesis Ht : 0 <= tol.
Variable g : MLGeo.

(** nothing is cached when the geometry is not detected to be affine *)
Lemma run_uncached fuel : forall qs c, ca_affine c = false -> mlg_affine mydim cdim tol jm jk g = Some (false, ca_jt c) ->
  forall rs c', cm_run mydim cdim tol jv jm jk j1 j2 fuel g c qs = Some (rs, c') <->
    (c' = c /\ Forall2 (fun q r => ml_call mydim cdim tol jv jm jk j1 j2 fuel g q = Some r) qs rs).
Proof.
  induction qs as [|q qs IH]; intros c Hc HA rs c'; cbn [cm_run].
  - split; [intro E; injection E as <- <-; auto|]. intros [-> F]. inversion F. reflexivity.
  - assert (Q : cm_call mydim cdim tol jv jm jk j1 j2 fuel g c q = option_map (fun r => (r, c)) (ml_call mydim cdim tol jv jm jk j1 j2 fuel g q)).
    { destruct q; cbn [cm_call ml_call]; unfold cm_global, cm_local, cm_integrationElement, cm_volume, cm_jacobianTransposed, cm_jacobianInverseTransposed; rewrite ?Hc.
      - now destruct (mlg_global mydim cdim tol jv g x).
      - now destruct (mlg_local mydim cdim tol jv jm jk j1 j2 fuel g y).
      - now destruct (mlg_integrationElement mydim cdim tol jm jk j1 j2 g x).
      - now destruct (mlg_volume mydim cdim tol jm jk j1 j2 g).
      - now destruct (mlg_jacobianTransposed mydim cdim tol jm jk g x).
      - now destruct (mlg_jacobianInverseTransposed mydim cdim tol jm jk j1 j2 g x) as [[? ?]|].
      - rewrite HA. reflexivity. }
    rewrite Q. destruct (ml_call mydim cdim tol jv jm jk j1 j2 fuel g q) as [r|] eqn:ER; cbn [option_map obind].
    + split.
      * destruct (cm_run mydim cdim tol jv jm jk j1 j2 fuel g c qs) as [[rs1 c1]|] eqn:E1; cbn [obind]; [|discriminate].
        intro E. injection E as <- <-. apply IH in E1; auto. destruct E1 as [-> F]. auto.
      * intros [-> F]. inversion F as [|? r' ? rs1 R1 R2]; subst. assert (r' = r) by congruence. subst.
        rewrite (proj2 (IH c Hc HA rs1 c) (conj eq_refl R2)). reflexivity.
    + split; [discriminate|]. intros [_ F]. inversion F. congruence.
Qed.

Hypothesis T0 : 0 < tol < 1 / 2.
Hypothesis wf : ml_wf mydim g.
Hypothesis Hm : (mydim <= cdim)%nat.
Variables (o : Vec) (M : Mat).
Hypothesis HA : corners_affine mydim cdim g o M.
Hypothesis Hr : row_independent mydim cdim M.

Definition call_nice (q : Call) : Prop :=
  match q with CGlobal x | CIntEl x | CJT x | CJIT x => nice mydim tol g x | _ => True end.
Record cache_ok (c : Cache) : Prop := {
  co_aff : ca_affine c = true;
  co_jt : meq mydim cdim (ca_jt c) M;
  co_int : ca_intComputed c = true -> sqrtDetAAT mydim cdim (ca_jt c) j1 j2 = Some (ca_detInv c);
  co_jit : ca_jitComputed c = true -> exists ret j1 j2, rightInvA mydim cdim (ca_jt c) ret j1 j2 = Some (ca_detInv c, ca_jit c) }.

Lemma make_ok jit0 d0 : exists c, cm_make mydim cdim tol jm jk g jit0 d0 = Some c /\ cache_ok c.
Proof.
  destruct (affine_detect mydim cdim tol g wf jm jk o M ltac:(lra) HA) as (jt & E & V).
  unfold cm_make. rewrite E. cbn [obind]. eexists. split; [reflexivity|]. constructor; cbn; auto; discriminate.
Qed.
Lemma center_nice : exists p, re_position (ml_id g) mydim (ml_ref g) 0 0 = Some p /\ nice mydim tol g p.
Proof.
  destruct (center_spec mydim g wf) as (p & E & V). exists p. split; [assumption|]. apply nice_smooth.
  apply (smooth_ext _ _ (meanT (topo_of (ml_id g) mydim))); [intros k Hk; symmetry; apply V; now rewrite tdim_topo in Hk|]. apply meanT_smooth. lra.
Qed.
Lemma corner0 : exists o', mlg_corner g 0 = Some o' /\ veq cdim o' o.
Proof.
  unfold mlg_corner. assert (LN := ml_wf_nv mydim g wf). assert (P := nv_pos (topo_of (ml_id g) mydim)).
  exists (nth 0 (ml_corners g) vzero). split; [apply nth_error_nth'; lia|]. intros k Hk.
  assert (HI := proj1 (affine_img mydim cdim g wf o M) HA). exact (image_origin cdim (ml_id g) mydim _ _ _ k HI Hk).
Qed.
(** the local coordinate is the solution of the normal equations *)
Definition sol (y z : Vec) : Prop := veq mydim (mvec mydim (mmul cdim M (mtr M)) z) (mvec cdim M (fun k => y k - o k)).
Lemma sol_unique y z z' : sol y z -> sol y z' -> veq mydim z z'.
Proof. intros H H'. apply (gram_inj mydim cdim M); [assumption|]. intros i Hi. now rewrite H, H'. Qed.
Lemma local_sol fuel y : exists z, mlg_local mydim cdim tol jv jm jk j1 j2 (S fuel) g y = Done (LocPt z) /\ sol y z.
Proof.
  unfold mlg_local. destruct center_nice as (p & E & N). rewrite E.
  destruct (affine_detect mydim cdim tol g wf jm jk o M ltac:(lra) HA) as (jt & EA & _). rewrite EA. cbn [ml_newton].
  destruct (step_affine mydim cdim tol ltac:(lra) g wf jv jm jk j1 j2 o M p y Hm HA Hr N) as (dx & ES & VS). rewrite ES.
  eexists. split; [reflexivity|exact VS].
Qed.
Lemma cached_local_sol fuel c y : cache_ok c -> exists z, cm_local mydim cdim tol jv jm jk j1 j2 fuel g c y = Done (LocPt z) /\ sol y z.
Proof.
  intros [C1 C2 C3 C4]. unfold cm_local. rewrite C1. destruct corner0 as (o' & EO & VO). rewrite EO.
  assert (RJ := rowind_meq _ _ _ _ (meq_sym _ _ _ _ C2) Hr).
  destruct (ca_jitComputed c) eqn:J.
  - destruct (C4 eq_refl) as (ret & k1 & k2 & ER).
    assert (AF : exists gg, affine_from_jacobian mydim cdim 0 [] o' (ca_jt c) ret k1 k2 = Some gg /\ ag_jit gg = ca_jit c).
    { unfold affine_from_jacobian. rewrite ER. cbn [obind]. eexists. split; reflexivity. }
    destruct AF as (gg & EG & EJ).
    destruct (affine_from_jacobian_inv _ _ _ _ _ _ _ _ _ gg Hm RJ EG) as (_ & _ & GO & GJ & OK).
    assert (Q := ag_local_normal mydim cdim gg y OK). unfold ag_local in Q. rewrite EJ, GO, GJ in Q.
    eexists. split; [reflexivity|]. intros i Hi.
    rewrite <- (veq_mvec mydim mydim _ _ _ _ (gram_meq mydim cdim _ _ C2) (fun _ _ => eq_refl) i Hi). rewrite (Q i Hi).
    apply (veq_mvec mydim cdim); auto. intros k Hk. now rewrite VO.
  - destruct (C25_xTRightInvA mydim cdim (ca_jt c) (fun k => y k - o' k) j1 j2 Hm) as [Q _]. destruct (Q RJ) as (z & E & V & _).
    rewrite E. exists z. split; [reflexivity|]. intros i Hi.
    rewrite <- (veq_mvec mydim mydim _ _ z z (gram_meq mydim cdim _ _ C2) (fun _ _ => eq_refl) i Hi). rewrite (V i Hi).
    apply (veq_mvec mydim cdim); auto. intros k Hk. now rewrite VO.
Qed.
Lemma cached_int c x : cache_ok c -> exists d c', cm_integrationElement mydim cdim tol jm jk j1 j2 g c x = Some (d, c') /\
  sqrtDetAAT mydim cdim (ca_jt c) j1 j2 = Some d /\ cache_ok c'.
Proof.
  intros [C1 C2 C3 C4]. unfold cm_integrationElement. rewrite C1. destruct (ca_intComputed c) eqn:I; cbn [negb obind].
  - exists (ca_detInv c), c. repeat split; auto.
  - assert (RJ := rowind_meq _ _ _ _ (meq_sym _ _ _ _ C2) Hr). destruct (C26_sqrtDetAAT mydim cdim (ca_jt c) j1 j2 RJ) as (s & E & P & Q).
    rewrite E. cbn [obind]. eexists. eexists. split; [reflexivity|]. cbn. split; [reflexivity|]. constructor; cbn; auto.
    intro J. destruct (C4 J) as (ret & k1 & k2 & ER). exists ret, k1, k2.
    destruct (C26_rightInvA_value mydim cdim (ca_jt c) ret j1 j2 k1 k2 Hm RJ) as (s' & X & E1 & E2 & _). rewrite ER in *. congruence.
Qed.
Lemma call_eq fuel c q : cache_ok c -> call_nice q ->
  exists r r' c', cm_call mydim cdim tol jv jm jk j1 j2 (S fuel) g c q = Some (r, c') /\
    ml_call mydim cdim tol jv jm jk j1 j2 (S fuel) g q = Some r' /\ reply_eq mydim cdim r r' /\ cache_ok c'.
Proof.
  intros OK N. assert (C1 := co_aff c OK). assert (C2 := co_jt c OK).
  assert (RJ := rowind_meq _ _ _ _ (meq_sym _ _ _ _ C2) Hr).
  destruct q; cbn [cm_call ml_call call_nice] in *.
  - unfold cm_global. rewrite C1. destruct corner0 as (o' & EO & VO). rewrite EO. cbn [obind option_map].
    destruct (affine_global mydim cdim tol ltac:(lra) g wf jv o M x HA N) as (y & E & V). rewrite E. cbn [option_map].
    eexists. eexists. eexists. split; [reflexivity|]. split; [reflexivity|]. split; [|assumption]. cbn. intros k Hk.
    rewrite V, VO by assumption. f_equal. apply rsum_ext. intros j Hj. now rewrite C2.
  - destruct (cached_local_sol (S fuel) c y OK) as (z & E & S1). destruct (local_sol fuel y) as (z' & E' & S2). rewrite E, E'. cbn [out option_map].
    eexists. eexists. eexists. split; [reflexivity|]. split; [reflexivity|]. split; [|assumption]. cbn. exact (sol_unique y z z' S1 S2).
  - destruct (cached_int c x OK) as (d & c' & E & ED & OK'). rewrite E. cbn [option_map].
    destruct (affine_jt mydim cdim tol ltac:(lra) g wf jm jk o M x HA N) as (J & EJ & VJ).
    unfold mlg_integrationElement. rewrite EJ. cbn [obind].
    assert (VV : meq mydim cdim (ca_jt c) J) by (apply meq_trans with M; [assumption|now apply meq_sym]).
    destruct (sqrtDet_meq mydim cdim _ _ j1 j2 j1 j2 VV RJ) as (s & E1 & E2). rewrite E2. cbn [option_map].
    eexists. eexists. eexists. split; [reflexivity|]. split; [reflexivity|]. split; [|assumption]. cbn. congruence.
  - unfold cm_volume, mlg_volume. rewrite C1. destruct center_nice as (p & EP & NP). rewrite EP. cbn [obind].
    destruct (cached_int c p OK) as (d & c' & E & ED & OK'). rewrite E. cbn [obind option_map].
    destruct (affine_jt mydim cdim tol ltac:(lra) g wf jm jk o M p HA NP) as (J & EJ & VJ).
    unfold mlg_integrationElement. rewrite EJ. cbn [obind].
    assert (VV : meq mydim cdim (ca_jt c) J) by (apply meq_trans with M; [assumption|now apply meq_sym]).
    destruct (sqrtDet_meq mydim cdim _ _ j1 j2 j1 j2 VV RJ) as (s & E1 & E2). rewrite E2. cbn [obind option_map].
    eexists. eexists. eexists. split; [reflexivity|]. split; [reflexivity|]. split; [|assumption]. cbn. congruence.
  - unfold cm_jacobianTransposed. rewrite C1. cbn [option_map].
    destruct (affine_jt mydim cdim tol ltac:(lra) g wf jm jk o M x HA N) as (J & EJ & VJ). rewrite EJ. cbn [option_map].
    eexists. eexists. eexists. split; [reflexivity|]. split; [reflexivity|]. split; [|assumption]. cbn.
    apply meq_trans with M; [assumption|now apply meq_sym].
  - destruct (affine_jt mydim cdim tol ltac:(lra) g wf jm jk o M x HA N) as (J & EJ & VJ).
    unfold mlg_jacobianInverseTransposed. rewrite EJ. cbn [obind].
    assert (VV : meq mydim cdim (ca_jt c) J) by (apply meq_trans with M; [assumption|now apply meq_sym]).
    unfold cm_jacobianInverseTransposed. rewrite C1. destruct (ca_jitComputed c) eqn:JC; cbn [negb].
    + destruct (co_jit c OK JC) as (ret & k1 & k2 & ER). cbn [obind option_map].
      destruct (rightInv_meq mydim cdim _ _ ret jm k1 k2 j1 j2 Hm VV RJ) as (d & X & X' & E1 & E2 & EX). rewrite E2. cbn [option_map].
      rewrite ER in E1. injection E1 as E1a E1b.
      eexists. eexists. eexists. split; [reflexivity|]. split; [reflexivity|]. split; [|assumption]. cbn. rewrite E1a, E1b. auto.
    + destruct (rightInv_meq mydim cdim _ _ (ca_jit c) jm j1 j2 j1 j2 Hm VV RJ) as (d & X & X' & E1 & E2 & EX). rewrite E1, E2. cbn [obind option_map ca_detInv ca_jit].
      eexists. eexists. eexists. split; [reflexivity|]. split; [reflexivity|]. split; [cbn; auto|]. constructor; cbn; auto.
      * intros _. destruct (C26_rightInvA_value mydim cdim (ca_jt c) (ca_jit c) j1 j2 j1 j2 Hm RJ) as (s' & X0 & Q1 & Q2 & _). congruence.
      * intros _. eauto.
  - destruct (affine_detect mydim cdim tol g wf jm jk o M ltac:(lra) HA) as (jt & EA & _). rewrite EA. cbn [option_map].
    eexists. eexists. eexists. split; [reflexivity|]. split; [reflexivity|]. split; [|assumption]. cbn. now rewrite C1.
Qed.
Lemma run_eq fuel : forall qs c, cache_ok c -> Forall call_nice qs ->
  exists rs rs' c', cm_run mydim cdim tol jv jm jk j1 j2 (S fuel) g c qs = Some (rs, c') /\
    Forall2 (fun q r => ml_call mydim cdim tol jv jm jk j1 j2 (S fuel) g q = Some r) qs rs' /\ Forall2 (reply_eq mydim cdim) rs rs'.
Proof.
  induction qs as [|q qs IH]; intros c OK F.
  - exists [], [], c. repeat constructor.
  - inversion F as [|? ? N F']; subst. destruct (call_eq fuel c q OK N) as (r & r' & c1 & E1 & E2 & R & OK1).
    destruct (IH c1 OK1 F') as (rs & rs' & c' & E3 & E4 & R'). exists (r :: rs), (r' :: rs'), c'. cbn [cm_run]. rewrite E1. cbn [obind]. rewrite E3.
    split; [reflexivity|]. split; constructor; auto.
Qed.
End C.
