(** Property theorems C30 - C34: MultiLinearGeometry and CachedMultiLinearGeometry. *)
From Coq Require Import PeanoNat NArith Lia Bool List Reals Lra FunctionalExtensionality.
From Coquelicot Require Import Coquelicot.
From Verif Require Import M_Type M_RefTopo M_RefGeo M_Matrix M_MultiLinear S_Topo S_RefGeo S_Matrix S_MultiLinear P_Type P_Topo P_RefTopo P_RefTopo2 P_RefTopo3 P_RSum P_RefGeo P_RefGeo2 P_RefGeo3 P_RefGeo4
  P_Matrix2 P_Matrix4 P_Matrix5 P_ML1 P_ML2 P_ML3 P_ML4 P_ML5 T_RefGeo T_Matrix.
Import ListNotations.
Local Open Scope R_scope.

(** ** C30 interpolation *)

(** the weights depend on the topology and the point only, sum to one, are nonnegative in the
    reference element, and reproduce the point from the reference corners *)
Theorem C30_weights :
  forall id mydim tol x, 0 <= tol -> regular tol (topo_of id mydim) x ->
    exists w : nat -> R,
      Ssum (size id mydim mydim) w = 1 /\
      (in_hull mydim (referenceCorners id mydim) x -> forall i, 0 <= w i) /\
      (smooth tol (topo_of id mydim) x \/ in_hull mydim (referenceCorners id mydim) x ->
         forall k, (k < mydim)%nat -> Ssum (size id mydim mydim) (fun i => w i * nth i (referenceCorners id mydim) (fun _ => 0) k) = x k) /\
      forall cdim jv g, ml_wf mydim g -> ml_id g = id ->
        exists y, mlg_global mydim cdim tol jv g x = Some y /\
          forall k, (k < cdim)%nat -> y k = Ssum (size id mydim mydim) (fun i => w i * nth i (ml_corners g) (fun _ => 0) k).
Proof.
  intros id mydim tol x Ht Hx. exists (shape (topo_of id mydim) x).
  assert (ES : size id mydim mydim = nv (topo_of id mydim)) by (rewrite nv_size; symmetry; apply C16_corner_count).
  rewrite ES. split; [|split; [|split]].
  - rewrite Ssum_rsum. rewrite (rsum_ext _ _ (fun i => shape (topo_of id mydim) x i * 1)) by (intros; ring). apply shape_sum.
  - intros H i. apply shape_nonneg. rewrite corners_verts in H. apply (in_hull_insideT (topo_of id mydim)). now rewrite tdim_topo.
  - intros H k Hk. rewrite Ssum_rsum.
    assert (G : good tol (lt id mydim) x).
    { destruct H as [H|H]; [apply smooth_good; now apply smooth_lt|].
      apply regular_inside_good; [assumption|now apply regular_lt|]. apply (proj1 (insideT_lt _ _ _ _)).
      rewrite corners_verts in H. apply (in_hull_insideT (topo_of id mydim)). now rewrite tdim_topo. }
    rewrite <- (good_0_smooth_or tol _ _ Ht G k) by now rewrite tdim_lt. rewrite nv_lt. apply rsum_ext. intros i Hi.
    rewrite shape_lt, rc_lt by assumption. f_equal. change (fun _ : nat => 0) with vzero. now rewrite rc_corner.
  - intros cdim jv g wf <-. destruct (global_regular mydim cdim tol Ht g wf jv x Hx) as (y & E & V). exists y. split; [exact E|].
    intros k Hk. rewrite Ssum_rsum. now apply V.
Qed.
Print Assumptions C30_weights.

(** without a tolerance there is no restriction on the point *)
Corollary C30_exact_arithmetic :
  forall mydim cdim jv g x, ml_wf mydim g ->
    exists w y, mlg_global mydim cdim 0 jv g x = Some y /\
      Ssum (length (ml_corners g)) w = 1 /\
      (forall k, (k < cdim)%nat -> y k = Ssum (length (ml_corners g)) (fun i => w i * nth i (ml_corners g) (fun _ => 0) k)).
Proof.
  intros mydim cdim jv g x wf. destruct (C30_weights (ml_id g) mydim 0 x (Rle_refl 0) (regular_0 _ x)) as (w & W1 & _ & _ & W2).
  destruct (W2 cdim jv g wf eq_refl) as (y & E & V). destruct wf as (_ & _ & LN). rewrite LN. exists w, y. auto.
Qed.
Print Assumptions C30_exact_arithmetic.

Theorem C30_corners :
  forall mydim cdim tol jv g i p c, 0 <= tol < 1 -> ml_wf mydim g ->
    nth_error (referenceCorners (ml_id g) mydim) i = Some p -> nth_error (ml_corners g) i = Some c ->
    exists y, mlg_global mydim cdim tol jv g p = Some y /\ veq cdim y c.
Proof.
  intros mydim cdim tol jv g i p c Ht wf Hp Hc. set (T := topo_of (ml_id g) mydim).
  assert (Hi : (i < nv T)%nat) by (unfold T; rewrite nv_size; apply nth_error_Some; congruence).
  eexists. split; [now apply global_spec|]. intros k Hk. unfold vset. rewrite (proj2 (Nat.ltb_lt k cdim)) by assumption.
  assert (EP : p = rc (lt (ml_id g) mydim) i).
  { rewrite rc_lt, <- rc_corner by assumption. symmetry. now apply nth_error_nth. }
  unfold comb. fold T. rewrite (rsum_ext (nv T) _ (fun l => if Nat.eqb l i then nth l (ml_corners g) vzero k else 0)).
  - rewrite rsum_delta by assumption. now rewrite (nth_error_nth _ _ vzero Hc).
  - intros l Hl. rewrite EP, shapeC_shape; [|lra|apply rc_regular; [lra|now rewrite nv_lt]|now rewrite nv_lt].
    rewrite shape_delta by now rewrite nv_lt. destruct (Nat.eqb l i); ring.
Qed.
Print Assumptions C30_corners.

(** global of the images of the corners under an affine map is the image of global *)
Theorem C30_commutes_affine :
  forall mydim cdim cdim' tol jv jv' g g' x (b : Vec) (A : Mat), 0 <= tol -> ml_wf mydim g -> ml_wf mydim g' -> ml_id g' = ml_id g ->
    regular tol (topo_of (ml_id g) mydim) x ->
    (forall i c c', nth_error (ml_corners g) i = Some c -> nth_error (ml_corners g') i = Some c' ->
       forall k, (k < cdim')%nat -> c' k = b k + mvec cdim A c k) ->
    exists y y', mlg_global mydim cdim tol jv g x = Some y /\ mlg_global mydim cdim' tol jv' g' x = Some y' /\
      forall k, (k < cdim')%nat -> y' k = b k + mvec cdim A y k.
Proof.
  intros mydim cdim cdim' tol jv jv' g g' x b A Ht wf wf' Eid Hx HC.
  destruct (C30_weights (ml_id g) mydim tol x Ht Hx) as (w & W1 & _ & _ & W).
  destruct (W cdim jv g wf eq_refl) as (y & E & V). destruct (W cdim' jv' g' wf' Eid) as (y' & E' & V').
  exists y, y'. split; [assumption|]. split; [assumption|]. intros k Hk. rewrite V' by assumption. rewrite Ssum_rsum in W1 |- *.
  set (N := size (ml_id g) mydim mydim) in *.
  destruct wf as (_ & _ & LN). destruct wf' as (_ & _ & LN'). rewrite Eid in LN'. fold N in LN, LN'.
  rewrite (rsum_ext N _ (fun i => b k * w i + rsum cdim (fun j => A k j * (w i * nth i (ml_corners g) vzero j)))).
  - rewrite rsum_plus, rsum_scal, W1, Rmult_1_r. f_equal. unfold mvec. rewrite rsum_swap. apply rsum_ext. intros j Hj.
    rewrite rsum_scal. apply (f_equal (fun z => A k j * z)). rewrite V by assumption. symmetry. apply Ssum_rsum.
  - intros i Hi. rewrite (HC i (nth i (ml_corners g) vzero) (nth i (ml_corners g') (fun _ => 0))) by (auto; apply nth_error_nth'; lia).
    rewrite Rmult_plus_distr_l. f_equal; [ring|]. unfold mvec. rewrite <- rsum_scal. apply rsum_ext. intros; ring.
Qed.
Print Assumptions C30_commutes_affine.

Theorem C30_in_hull :
  forall mydim cdim tol jv g x y, 0 <= tol -> ml_wf mydim g -> inside_ref mydim g x ->
    regular tol (topo_of (ml_id g) mydim) x -> mlg_global mydim cdim tol jv g x = Some y -> in_hull cdim (ml_corners g) y.
Proof.
  intros mydim cdim tol jv g x y Ht wf HI Hx Hy. destruct (C30_weights (ml_id g) mydim tol x Ht Hx) as (w & W1 & W2 & _ & W).
  destruct (W cdim jv g wf eq_refl) as (y' & E & V). assert (y' = y) by congruence. subst y'.
  destruct wf as (_ & _ & LN). exists w. assert (LN' : @length (nat -> R) (ml_corners g) = size (ml_id g) mydim mydim) by exact LN. rewrite LN'. split; [intros i _; now apply W2|]. auto.
Qed.
Print Assumptions C30_in_hull.

(** corner i of a cube has weight prod (x_k or 1 - x_k) *)
Theorem C30_cube_formula :
  forall mydim cdim tol jv g x, (mydim < 256)%nat -> 0 <= tol -> ml_wf mydim g -> isCube (GT2 (ml_id g) mydim) = true ->
    exists y, mlg_global mydim cdim tol jv g x = Some y /\
      forall k, (k < cdim)%nat -> y k = Ssum (2 ^ mydim) (fun i =>
        fold_right Rmult 1 (map (fun l => if Nat.testbit i l then x l else 1 - x l) (seq 0 mydim)) * nth i (ml_corners g) (fun _ => 0) k).
Proof.
  intros mydim cdim tol jv g x Hd Ht wf HC. assert (W := proj1 wf). apply isCube_cubT in HC; auto.
  assert (HX : regular tol (topo_of (ml_id g) mydim) x).
  { clear -HC. induction (topo_of (ml_id g) mydim); cbn [cubT regular] in *; auto. }
  destruct (global_regular mydim cdim tol Ht g wf jv x HX) as (y & E & V). exists y. split; [exact E|].
  intros k Hk. rewrite V by assumption. rewrite (Ssum_rsum (2 ^ mydim)). assert (NV := cubT_verts_length _ HC). rewrite nv_verts, tdim_topo in NV. rewrite <- NV. apply rsum_ext. intros i Hi.
  rewrite shape_cube, tdim_topo by auto. reflexivity.
Qed.
Print Assumptions C30_cube_formula.

(** corner i of a simplex has its barycentric coordinate as weight *)
Theorem C30_simplex_formula :
  forall mydim cdim tol jv g x, 0 <= tol -> ml_wf mydim g -> isSimplex (GT2 (ml_id g) mydim) = true ->
    smooth tol (topo_of (ml_id g) mydim) x \/ (regular tol (topo_of (ml_id g) mydim) x /\ inside_ref mydim g x) ->
    exists y, mlg_global mydim cdim tol jv g x = Some y /\
      forall k, (k < cdim)%nat -> y k =
        (1 - Ssum mydim x) * nth 0 (ml_corners g) (fun _ => 0) k + Ssum mydim (fun l => x l * nth (S l) (ml_corners g) (fun _ => 0) k).
Proof.
  intros mydim cdim tol jv g x Ht wf HC HX. assert (W := proj1 wf). apply isSimplex_simT in HC; auto.
  assert (HX' : regular tol (topo_of (ml_id g) mydim) x) by (destruct HX as [H|[H _]]; auto; now apply smooth_regular).
  destruct (global_regular mydim cdim tol Ht g wf jv x HX') as (y & E & V). exists y. split; [exact E|].
  intros k Hk. rewrite V by assumption. rewrite !(Ssum_rsum mydim). assert (NV := simT_verts_length _ HC). rewrite nv_verts, tdim_topo in NV. rewrite NV, rsum_shift.
  assert (SL : simT (lt (ml_id g) mydim)).
  { clear -HC. induction mydim; [exact I|]. rewrite lt_S. rewrite topo_S in HC. destruct (N.testbit (ml_id g) (N.of_nat mydim)); cbn [orb simT] in *.
    - apply topo_Pt in HC. subst. reflexivity.
    - destruct mydim; cbn [Nat.eqb simT]; [reflexivity|auto]. }
  assert (G : good tol (lt (ml_id g) mydim) x) by (destruct HX as [H|[H1 H2]]; [apply smooth_good; now apply smooth_lt|apply regular_inside_good; [assumption|now apply regular_lt|apply (proj1 (insideT_lt _ _ _ _)); now apply inside_T]]).
  rewrite <- (shape_lt _ _ x 0). rewrite (shape_simplex_good tol _ Ht SL x G 0) by (rewrite nv_lt; lia). rewrite tdim_lt. f_equal.
  etransitivity; [|symmetry; apply Ssum_rsum]. apply rsum_ext. intros i Hi. rewrite <- shape_lt, (shape_simplex_good tol _ Ht SL x G (S i)) by (rewrite nv_lt; lia). reflexivity.
Qed.
Print Assumptions C30_simplex_formula.

(** a geometry with the reference corners as corners is the identity *)
Theorem C30_reference_identity :
  forall mydim tol jv g x, 0 <= tol -> ml_wf mydim g -> ml_corners g = referenceCorners (ml_id g) mydim ->
    regular tol (topo_of (ml_id g) mydim) x -> inside_ref mydim g x ->
    exists y, mlg_global mydim mydim tol jv g x = Some y /\ veq mydim y x.
Proof.
  intros mydim tol jv g x Ht wf HC Hx HI. destruct (C30_weights (ml_id g) mydim tol x Ht Hx) as (w & _ & _ & W1 & W).
  destruct (W mydim jv g wf eq_refl) as (y & E & V). exists y. split; [exact E|]. intros k Hk. rewrite V by assumption. rewrite HC. apply W1; auto.
Qed.
Print Assumptions C30_reference_identity.

Definition triangle (c0 c1 c2 : Vec) (r : RefElement) : MLGeo := {| ml_id := 0; ml_ref := r; ml_corners := [c0; c1; c2] |}.
Lemma triangle_wf c0 c1 c2 : exists r, ml_wf 2 (triangle c0 c1 c2 r).
Proof. destruct (re_infos_spec 0 2 ltac:(reflexivity)) as (r & E & _). exists r. repeat split; auto. Qed.
Definition quad (c0 c1 c2 c3 : Vec) (r : RefElement) : MLGeo := {| ml_id := 3; ml_ref := r; ml_corners := [c0; c1; c2; c3] |}.
Lemma quad_wf c0 c1 c2 c3 : exists r, ml_wf 2 (quad c0 c1 c2 c3 r).
Proof. destruct (re_infos_spec 3 2 ltac:(reflexivity)) as (r & E & _). exists r. repeat split; auto. Qed.

(** closer to an apex than the tolerance the weights do not sum to one: for every positive
    tolerance a constant geometry is mapped away from its only point *)
Theorem C30_near_apex_refuted :
  forall tol, 0 < tol < 1 -> exists mydim cdim g x y, ml_wf mydim g /\ inside_ref mydim g x /\
    (forall c, In c (ml_corners g) -> c 0%nat = 1) /\ (0 < cdim)%nat /\
    mlg_global mydim cdim tol (fun _ => 0) g x = Some y /\ y 0%nat <> 1.
Proof.
  intros tol Ht. destruct (triangle_wf (fun _ => 1) (fun _ => 1) (fun _ => 1)) as (r & wf).
  exists 2%nat, 1%nat, (triangle (fun _ => 1) (fun _ => 1) (fun _ => 1) r), (fun k => if Nat.eqb k 1 then 1 - tol / 2 else 0).
  eexists. split; [exact wf|]. split; [|split; [|split; [lia|split; [apply global_spec; [exact wf]|]]]].
  - apply inside_T. cbn. lra.
  - cbn. intros c [<-|[<-|[<-|[]]]]; reflexivity.
  - cbn. assert (A : away tol (1 - (1 - tol / 2)) = false).
    { destruct (away tol (1 - (1 - tol / 2))) eqn:E; [|reflexivity]. apply away_true in E; [|lra].
      rewrite Rabs_pos_eq in E by lra. lra. }
    unfold vset, comb. cbn. rewrite A. lra.
Qed.
Print Assumptions C30_near_apex_refuted.

(** but never by more than the tolerance times the largest coordinate *)
Theorem C30_near_apex_bound :
  forall mydim cdim tol jv g x B, 0 <= tol -> ml_wf mydim g -> inside_ref mydim g x ->
    (forall c k, In c (ml_corners g) -> (k < cdim)%nat -> Rabs (c k) <= B) ->
    exists y z, mlg_global mydim cdim tol jv g x = Some y /\ in_hull cdim (ml_corners g) z /\
      mlg_global mydim cdim 0 jv g x = Some z /\ forall k, (k < cdim)%nat -> Rabs (y k - z k) <= tol * B.
Proof.
  intros mydim cdim tol jv g x B Ht wf HI HB.
  destruct (global_regular mydim cdim 0 (Rle_refl 0) g wf jv x (regular_0 _ x)) as (z & EZ & VZ).
  eexists. exists z. split; [now apply global_spec|]. split; [|split; [exact EZ|]].
  - apply (C30_in_hull mydim cdim 0 jv g x z (Rle_refl 0) wf HI (regular_0 _ x) EZ).
  - intros k Hk. rewrite VZ by assumption. unfold vset. rewrite (proj2 (Nat.ltb_lt k cdim)) by assumption. unfold comb. rewrite <- rsum_minus.
    set (L := lt (ml_id g) mydim). set (N := nv (topo_of (ml_id g) mydim)). assert (LN := ml_wf_nv mydim g wf).
    assert (B0 : 0 <= B).
    { assert (P := nv_pos (topo_of (ml_id g) mydim)). eapply Rle_trans; [apply Rabs_pos|]. apply (HB (nth 0 (ml_corners g) vzero) k); [|assumption]. apply nth_In. lia. }
    assert (S1 : forall n, (n <= N)%nat -> Rabs (rsum n (fun i => shapeC tol L x i * nth i (ml_corners g) vzero k - shape (topo_of (ml_id g) mydim) x i * nth i (ml_corners g) vzero k))
      <= B * rsum n (fun i => Rabs (shapeC tol L x i - shape L x i))).
    { induction n; intro Hn; cbn [rsum]; [rewrite Rabs_R0; lra|]. eapply Rle_trans; [apply Rabs_triang|]. rewrite Rmult_plus_distr_l.
      apply Rplus_le_compat; [apply IHn; lia|]. unfold L at 2. rewrite <- shape_lt. fold L. rewrite <- Rmult_minus_distr_r, Rabs_mult, Rmult_comm.
      apply Rmult_le_compat_r; [apply Rabs_pos|]. apply HB; [|assumption]. apply nth_In. fold N in LN. lia. }
    eapply Rle_trans; [apply S1; apply le_n|]. rewrite Rmult_comm. apply Rmult_le_compat_r; [assumption|].
    unfold N. rewrite <- nv_lt. apply shapeC_error; [assumption|]. apply (proj1 (insideT_lt _ _ _ _)). now apply inside_T.
Qed.
Print Assumptions C30_near_apex_bound.

(** a pyramid with a non planar base: the point (1/4, 1/4, 1/2) is half way between the
    bilinear point of (1/2, 1/2) and the tip *)
Example C30_example : exists r y,
  let g := {| ml_id := 3; ml_ref := r; ml_corners := [(fun _ => 0); (fun k => if Nat.eqb k 0 then 1 else 0); (fun k => if Nat.eqb k 1 then 1 else 0);
     (fun k => if Nat.eqb k 2 then 4 else 1); (fun k => if Nat.eqb k 2 then 9 else 0)] |} in
  ml_wf 3 g /\ inside_ref 3 g (fun k => if Nat.eqb k 2 then 1/2 else 1/4) /\
  mlg_global 3 3 (1/1000) (fun _ => 77) g (fun k => if Nat.eqb k 2 then 1/2 else 1/4) = Some y /\
  y 0%nat = 1/4 /\ y 1%nat = 1/4 /\ y 2%nat = 5.
Proof.
  destruct (re_infos_spec 3 3 ltac:(reflexivity)) as (r & E & _). exists r.
  eexists. cbv zeta. set (g := Build_MLGeo _ _ _). assert (wf : ml_wf 3 g) by (repeat split; auto). split; [exact wf|]. split; [|split; [apply global_spec; exact wf|]].
  - apply inside_T. cbn. lra.
  - unfold vset, comb. cbn. assert (A : away (1 / 1000) (1 - 1 / 2) = true) by (apply away_true; [lra|]; rewrite Rabs_pos_eq; lra).
    rewrite A. lra.
Qed.

(** ** C31 the Jacobian is the derivative of global *)

(** chain rule along every differentiable curve through a smooth point *)
Theorem C31_derivative :
  forall mydim cdim tol jv jm jk g (c : R -> Vec) (v : Vec) t0, 0 <= tol -> ml_wf mydim g ->
    (forall k, (k < mydim)%nat -> is_derive (fun t => c t k) t0 (v k)) ->
    smooth tol (topo_of (ml_id g) mydim) (c t0) ->
    exists (G : Vec -> Vec) J, (forall x, mlg_global mydim cdim tol jv g x = Some (G x)) /\
      mlg_jacobianTransposed mydim cdim tol jm jk g (c t0) = Some J /\
      forall k, (k < cdim)%nat -> is_derive (fun t => G (c t) k) t0 (rsum mydim (fun j => v j * J j k)).
Proof.
  intros mydim cdim tol jv jm jk g c v t0 Ht wf D S. eexists. eexists. split; [intro x; now apply global_spec|]. split; [now apply jt_value|].
  intros k Hk. unfold vset. rewrite (proj2 (Nat.ltb_lt k cdim)) by assumption. unfold comb.
  set (L := lt (ml_id g) mydim). set (N := nv (topo_of (ml_id g) mydim)).
  rewrite (rsum_ext mydim _ (fun j => rsum N (fun i => nth i (ml_corners g) vzero k * (v j * dshapeC tol L (c t0) j i)))).
  2:{ intros j Hj. rewrite (proj2 (Nat.ltb_lt j mydim)) by assumption. cbn [andb]. rewrite <- rsum_scal. apply rsum_ext. intros; ring. }
  rewrite rsum_swap.
  assert (DI : forall i, (i < N)%nat -> is_derive (fun t => shapeC tol L (c t) i) t0 (rsum mydim (fun j => v j * dshapeC tol L (c t0) j i))).
  { intros i Hi. assert (Q := shapeC_derive tol L Ht c v t0). assert (EL : tdim L = mydim) by apply tdim_lt. rewrite EL in Q. apply Q; [exact D|now apply smooth_lt|]. unfold L. now rewrite nv_lt. }
  assert (GEN : forall n, (n <= N)%nat -> is_derive (fun t => rsum n (fun i => shapeC tol L (c t) i * nth i (ml_corners g) vzero k)) t0
     (rsum n (fun i => rsum mydim (fun j => nth i (ml_corners g) vzero k * (v j * dshapeC tol L (c t0) j i))))).
  { induction n; intro Hn; cbn [rsum]; [apply @is_derive_const|].
    apply @is_derive_plus; [apply IHn; lia|]. rewrite rsum_scal.
    apply (is_derive_ext (fun t => nth n (ml_corners g) vzero k * shapeC tol L (c t) n)); [intros; apply Rmult_comm|].
    apply (is_derive_scal (fun t => shapeC tol L (c t) n)). apply DI. lia. }
  apply GEN. apply le_n.
Qed.
Print Assumptions C31_derivative.

(** entry (i, k) is the partial derivative of component k in direction i *)
Corollary C31_partial_derivatives :
  forall mydim cdim tol jv jm jk g x, 0 <= tol -> ml_wf mydim g -> smooth tol (topo_of (ml_id g) mydim) x ->
    exists (G : Vec -> Vec) J, (forall x, mlg_global mydim cdim tol jv g x = Some (G x)) /\
      mlg_jacobianTransposed mydim cdim tol jm jk g x = Some J /\
      forall i k, (i < mydim)%nat -> (k < cdim)%nat -> is_derive (fun t => G (upd x i t) k) (x i) (J i k).
Proof.
  intros mydim cdim tol jv jm jk g x Ht wf S.
  eexists. eexists. split; [intro z; now apply global_spec|]. split; [now apply jt_value|]. intros i k Hi Hk.
  assert (UX : upd x i (x i) = x) by (apply functional_extensionality; intro l; unfold upd; destruct (Nat.eqb_spec l i); congruence).
  destruct (C31_derivative mydim cdim tol jv jm jk g (fun t => upd x i t) (fun l => if Nat.eqb l i then 1 else 0) (x i) Ht wf) as (G & J & EG & EJ & D).
  - intros l Hl. unfold upd. destruct (Nat.eqb l i); [apply @is_derive_id|apply @is_derive_const].
  - now rewrite UX.
  - specialize (D k Hk). rewrite UX in EJ. rewrite jt_value in EJ by assumption. injection EJ as EJ.
    apply (is_derive_ext (fun t => G (upd x i t) k)).
    + intro t. assert (Q := EG (upd x i t)). rewrite global_spec in Q by assumption. injection Q as <-. reflexivity.
    + assert (EJ' := f_equal (fun m => m i k) EJ). cbv beta in EJ'. rewrite EJ'. rewrite (rsum_ext mydim _ (fun j => if Nat.eqb j i then J j k else 0)) in D by (intros j Hj; destruct (Nat.eqb j i); ring).
      rewrite rsum_delta in D by assumption. exact D.
Qed.
Print Assumptions C31_partial_derivatives.

(** at the remaining points of the reference element the value is a limit of derivatives:
    there is a path of smooth points of the reference element with that limit *)
Theorem C31_apex_limit :
  forall mydim cdim jm jk g x, ml_wf mydim g -> inside_ref mydim g x ->
    exists J (y : R -> Vec) (Jy : R -> Mat), mlg_jacobianTransposed mydim cdim 0 jm jk g x = Some J /\
      (forall s, 0 < s <= 1 -> smooth 0 (topo_of (ml_id g) mydim) (y s) /\ inside_ref mydim g (y s) /\
         (forall k, (k < mydim)%nat -> Rabs (y s k - x k) <= s) /\
         mlg_jacobianTransposed mydim cdim 0 jm jk g (y s) = Some (Jy s)) /\
      (forall i k, (i < mydim)%nat -> (k < cdim)%nat -> filterlim (fun s => Jy s i k) (at_right 0) (locally (J i k))).
Proof.
  intros mydim cdim jm jk g x wf HI. set (L := lt (ml_id g) mydim).
  destruct (approach L x) as (y & A & _ & C); [apply (proj1 (insideT_lt _ _ _ _)); now apply inside_T|].
  unfold L in A, C. rewrite tdim_lt in A, C. rewrite nv_lt in C.
  eexists. exists y. eexists. split; [now apply jt_value|]. split.
  - intros s Hs. destruct (A s Hs) as (A1 & A2 & A3). split; [|split; [|split; [exact A3|now apply jt_value]]].
    + clear -A1. revert A1. generalize (y s). induction mydim; intros z H; [exact I|]. rewrite lt_S in H. rewrite topo_S.
      destruct (N.testbit (ml_id g) (N.of_nat mydim)); cbn [orb smoothC smooth] in *; [auto|].
      destruct mydim; [left; reflexivity|right]. cbn [Nat.eqb smoothC] in H. rewrite tdim_lt in H. rewrite tdim_topo. destruct H. auto.
    + apply inside_T. now apply (proj2 (insideT_lt _ _ _ _)).
  - intros i k Hi Hk. cbv beta. rewrite !(proj2 (Nat.ltb_lt i mydim)) by assumption. rewrite !(proj2 (Nat.ltb_lt k cdim)) by assumption. cbn [andb]. unfold comb.
    apply (lim0_rsum (nv (topo_of (ml_id g) mydim)) (fun l s => dshapeC 0 (lt (ml_id g) mydim) (y s) i l * nth l (ml_corners g) vzero k) (fun l => dshapeC 0 (lt (ml_id g) mydim) x i l * nth l (ml_corners g) vzero k)).
    intros l Hl. apply lim0_mult; [now apply C|apply lim0_const].
Qed.
Print Assumptions C31_apex_limit.

(** closer to the apex of a pyramid than the tolerance the Jacobian is the one on the axis *)
Theorem C31_near_apex :
  forall d cdim tol jm jk g x s, 0 <= tol -> ml_wf (S d) g -> (d > 0)%nat -> N.testbit (ml_id g) (N.of_nat d) = false ->
    Rabs (1 - x d) <= tol -> tol < Rabs (1 - s) ->
    exists J J', mlg_jacobianTransposed (S d) cdim tol jm jk g x = Some J /\
      mlg_jacobianTransposed (S d) cdim tol jm jk g (fun k => if Nat.eqb k d then s else 0) = Some J' /\ meq (S d) cdim J J'.
Proof.
  intros d cdim tol jm jk g x s Ht wf Hd HB Hx Hs. eexists. eexists. split; [now apply jt_value|]. split; [now apply jt_value|].
  intros i k Hi Hk. rewrite (proj2 (Nat.ltb_lt i (S d))), (proj2 (Nat.ltb_lt k cdim)) by assumption. cbn [andb]. unfold comb.
  apply rsum_ext. intros l Hl. f_equal. rewrite lt_S, HB. destruct d; [lia|]. cbn [orb Nat.eqb].
  assert (Q := apex_axis tol (lt (ml_id g) (S d)) x s Ht). rewrite tdim_lt in Q. exact (Q Hx Hs i l).
Qed.
Print Assumptions C31_near_apex.

(** the saddle (x0, x1, x0 x1): rows (1, 0, x1) and (0, 1, x0) *)
Example C31_example : exists r J, let g := quad (fun _ => 0) (fun k => if Nat.eqb k 0 then 1 else 0) (fun k => if Nat.eqb k 1 then 1 else 0) (fun _ => 1) r in
  ml_wf 2 g /\ mlg_jacobianTransposed 2 3 (1/1000) (fun _ _ => 5) (fun _ _ => 6) g (fun k => if Nat.eqb k 0 then 2 else 7) = Some J /\
  J 0%nat 0%nat = 1 /\ J 0%nat 2%nat = 7 /\ J 1%nat 1%nat = 1 /\ J 1%nat 2%nat = 2.
Proof.
  destruct (quad_wf (fun _ => 0) (fun k => if Nat.eqb k 0 then 1 else 0) (fun k => if Nat.eqb k 1 then 1 else 0) (fun _ => 1)) as (r & wf). exists r.
  eexists. cbv zeta. split; [exact wf|]. split; [apply jt_value; exact wf|]. unfold comb. cbn. lra.
Qed.

(** ** C32 affine() *)

(** the corners of a geometry are affine images of the reference corners exactly when global is affine *)
Theorem C32_global_affine :
  forall mydim cdim tol jv g, 0 <= tol < 1 -> ml_wf mydim g ->
    forall o M, corners_affine mydim cdim g o M <->
      (forall x, inside_ref mydim g x -> regular tol (topo_of (ml_id g) mydim) x ->
         exists y, mlg_global mydim cdim tol jv g x = Some y /\ forall k, (k < cdim)%nat -> y k = o k + rsum mydim (fun j => M j k * x j)).
Proof.
  intros mydim cdim tol jv g Ht wf o M. split.
  - intros HA x HI HR. apply affine_global; auto. now apply nice_inside.
  - intros H i c p Hc Hp k Hk. destruct (C30_corners mydim cdim tol jv g i p c Ht wf Hp Hc) as (y & E & V).
    destruct (H p) as (y' & E' & V').
    + now apply (corner_hull _ _ i).
    + assert (Hi : (i < nv (topo_of (ml_id g) mydim))%nat) by (rewrite nv_size; apply nth_error_Some; congruence).
      assert (EP : p = rc (lt (ml_id g) mydim) i) by (rewrite rc_lt, <- rc_corner by assumption; symmetry; now apply nth_error_nth).
      assert (Q := rc_regular tol (lt (ml_id g) mydim) Ht i ltac:(now rewrite nv_lt)). rewrite <- EP in Q. clear -Q. revert Q. generalize p.
      induction mydim; intros z H; [exact I|]. rewrite lt_S in H. rewrite topo_S.
      destruct (N.testbit (ml_id g) (N.of_nat mydim)); cbn [orb regularC regular] in *; [auto|].
      destruct mydim; [left; reflexivity|right]. cbn [Nat.eqb regularC] in H. rewrite tdim_lt in H. rewrite tdim_topo. destruct H as [H|[H1 H2]]; auto.
    + assert (y' = y) by congruence. subst y'. rewrite <- (V k Hk). now apply V'.
Qed.
Print Assumptions C32_global_affine.

(** every affine geometry is detected, and the matrix computed on the way is its Jacobian *)
Theorem C32_affine_detected :
  forall mydim cdim tol jm jk g o M, 0 < tol -> ml_wf mydim g -> corners_affine mydim cdim g o M ->
    exists jt, mlg_affine mydim cdim tol jm jk g = Some (true, jt) /\ meq mydim cdim jt M.
Proof. intros. now apply (affine_detect mydim cdim tol g H0 jm jk o M). Qed.
Print Assumptions C32_affine_detected.

(** the Jacobian of such a geometry is constant *)
Theorem C32_constant_jacobian :
  forall mydim cdim tol jm jk jm' jk' g o M x, 0 < tol < 1 -> ml_wf mydim g -> corners_affine mydim cdim g o M ->
    smooth tol (topo_of (ml_id g) mydim) x \/ (regular tol (topo_of (ml_id g) mydim) x /\ inside_ref mydim g x) ->
    exists J jt, mlg_jacobianTransposed mydim cdim tol jm jk g x = Some J /\
      mlg_affine mydim cdim tol jm' jk' g = Some (true, jt) /\ meq mydim cdim J M /\ meq mydim cdim jt J.
Proof.
  intros mydim cdim tol jm jk jm' jk' g o M x Ht wf HA HX.
  assert (N : nice mydim tol g x) by (destruct HX as [H|[H1 H2]]; [now apply nice_smooth|apply nice_inside; auto; lra]).
  destruct (affine_jt mydim cdim tol ltac:(lra) g wf jm jk o M x HA N) as (J & EJ & VJ).
  destruct (affine_detect mydim cdim tol g wf jm' jk' o M ltac:(lra) HA) as (jt & E & V). exists J, jt. repeat split; auto.
  eapply meq_trans; [exact V|]. now apply meq_sym.
Qed.
Print Assumptions C32_constant_jacobian.

(** affine() answers true for all positive tolerances exactly for the affine geometries *)
Theorem C32_characterisation :
  forall mydim cdim jm jk g, ml_wf mydim g ->
    ((forall tol, 0 < tol -> exists jt, mlg_affine mydim cdim tol jm jk g = Some (true, jt)) <->
     exists o M, corners_affine mydim cdim g o M).
Proof.
  intros mydim cdim jm jk g wf. split.
  - intro H. exists (nth 0 (ml_corners g) vzero), (edge (ml_id g) (fun i => nth i (ml_corners g) vzero)).
    apply affine_img; [assumption|]. intros i k Hi Hk. set (K := INR (mydim * (mydim - 1) / 2)).
    match goal with |- ?a = ?b => set (A := a); set (B := b) end.
    assert (B1 : forall e, 0 < e -> Rabs (A - B) <= K * e).
    { intros e He. destruct (H (e * e)) as (jt & E); [nra|]. destruct (affine_flag mydim cdim (e * e) g wf jm jk) as (jt' & E' & _).
      rewrite E' in E. injection E as EB _.
      exact (affB_error cdim (e * e) (ml_id g) e ltac:(lra) ltac:(lra) mydim _ EB i k Hi Hk). }
    assert (K0 : 0 <= K) by apply pos_INR.
    destruct (Req_dec A B) as [|NE]; [assumption|]. exfalso. assert (P : 0 < Rabs (A - B)) by (apply Rabs_pos_lt; lra).
    specialize (B1 (Rabs (A - B) / (2 * (K + 1)))). assert (Z : 0 < Rabs (A - B) / (2 * (K + 1))) by (apply Rdiv_lt_0_compat; lra).
    specialize (B1 Z). assert (K * (Rabs (A - B) / (2 * (K + 1))) < Rabs (A - B)); [|lra].
    apply (Rmult_lt_reg_r (2 * (K + 1))); [lra|]. field_simplify; [|lra]. nra.
  - intros (o & M & HA) tol Ht. destruct (affine_detect mydim cdim tol g wf jm jk o M Ht HA) as (jt & E & _). eauto.
Qed.
Print Assumptions C32_characterisation.

(** for one tolerance a positive answer means that no corner is further than
    dim (dim-1) / 2 * sqrt tol from the affine map spanned by the origin and the matrix *)
Theorem C32_quantitative :
  forall mydim cdim tol jm jk g jt o, 0 <= tol -> ml_wf mydim g -> mlg_affine mydim cdim tol jm jk g = Some (true, jt) ->
    mlg_corner g 0 = Some o ->
    forall i c p, mlg_corner g i = Some c -> nth_error (referenceCorners (ml_id g) mydim) i = Some p ->
      forall k, (k < cdim)%nat -> Rabs (c k - (o k + rsum mydim (fun j => jt j k * p j))) <= INR (mydim * (mydim - 1) / 2) * sqrt tol.
Proof.
  intros mydim cdim tol jm jk g jt o Ht wf E Ho i c p Hc Hp k Hk.
  assert (Hi : (i < nv (topo_of (ml_id g) mydim))%nat) by (rewrite nv_size; apply nth_error_Some; congruence).
  assert (EP : p = rc (lt (ml_id g) mydim) i) by (rewrite rc_lt, <- rc_corner by assumption; symmetry; now apply nth_error_nth).
  destruct (affine_flag mydim cdim tol g wf jm jk) as (jt' & E' & V). rewrite E' in E. injection E as EB <-.
  assert (Q := affB_error cdim tol (ml_id g) (sqrt tol) (sqrt_pos tol) ltac:(rewrite sqrt_sqrt; lra) mydim _ EB i k ltac:(now rewrite nv_lt) Hk).
  cbv beta in Q. unfold mlg_corner in *. rewrite (nth_error_nth _ _ vzero Hc), (nth_error_nth _ _ vzero Ho), <- EP in Q.
  rewrite (rsum_ext mydim _ (fun j => edge (ml_id g) (fun i => nth i (ml_corners g) vzero) j k * p j)); [exact Q|].
  intros j Hj. now rewrite V.
Qed.
Print Assumptions C32_quantitative.

(** simplices are always affine *)
Theorem C32_simplex :
  forall mydim cdim tol jm jk g, 0 < tol -> ml_wf mydim g -> isSimplex (GT2 (ml_id g) mydim) = true ->
    exists jt, mlg_affine mydim cdim tol jm jk g = Some (true, jt) /\
      forall o c j k, mlg_corner g 0 = Some o -> mlg_corner g (S j) = Some c -> (k < cdim)%nat -> jt j k = c k - o k.
Proof.
  intros mydim cdim tol jm jk g Ht wf HS. set (cs := fun i => nth i (ml_corners g) vzero).
  assert (LN := ml_wf_nv mydim g wf). assert (NV := simT_verts_length _ (proj1 (isSimplex_simT _ _ (proj1 wf)) HS)). rewrite nv_verts, tdim_topo in NV.
  assert (HA : corners_affine mydim cdim g (cs 0%nat) (fun j k => cs (S j) k - cs 0%nat k)).
  { intros i c p Hc Hp k Hk. assert (Hi : (i < S mydim)%nat) by (rewrite <- NV, <- LN; apply nth_error_Some; congruence).
    assert (EP := C16_simplex_corners (ml_id g) mydim i p ltac:(rewrite <- bit_pow; apply wf) HS Hp).
    replace c with (cs i) by (unfold cs; now apply nth_error_nth).
    destruct i as [|i].
    - rewrite rsum_0; [ring|]. intros j Hj. rewrite EP. cbn. ring.
    - rewrite (rsum_ext mydim _ (fun j => if Nat.eqb j i then cs (S j) k - cs 0%nat k else 0)).
      + rewrite rsum_delta by lia. ring.
      + intros j Hj. rewrite EP. cbn [Nat.eqb]. rewrite (Nat.eqb_sym i j). destruct (Nat.eqb j i); ring. }
  destruct (affine_detect mydim cdim tol g wf jm jk _ _ Ht HA) as (jt & E & V). exists jt. split; [exact E|].
  intros o c j k Ho Hc Hk. assert (Hj : (S j < S mydim)%nat) by (rewrite <- NV, <- LN; apply nth_error_Some; unfold mlg_corner in Hc; congruence).
  rewrite V by lia. unfold cs. unfold mlg_corner in *. now rewrite (nth_error_nth _ _ vzero Ho), (nth_error_nth _ _ vzero Hc).
Qed.
Print Assumptions C32_simplex.

(** the unit square with its last corner moved by e in the first direction *)
Definition skew (e : R) := quad (fun _ => 0) (fun k => if Nat.eqb k 0 then 1 else 0) (fun k => if Nat.eqb k 1 then 1 else 0) (fun k => if Nat.eqb k 0 then 1 + e else 1).
Lemma skew_wf e : exists r, ml_wf 2 (skew e r).
Proof. apply quad_wf. Qed.
Lemma skew_global e r tol jv x : ml_wf 2 (skew e r) -> exists y, mlg_global 2 2 tol jv (skew e r) x = Some y /\ y 0%nat = x 0%nat + e * x 0%nat * x 1%nat /\ y 1%nat = x 1%nat.
Proof. intro wf. eexists. split; [apply global_spec; exact wf|]. unfold vset, comb. cbn. lra. Qed.
Lemma skew_affine e r tol jm jk : 0 <= e <= 1/2 -> e < tol -> ml_wf 2 (skew e r) ->
  exists jt, mlg_affine 2 2 tol jm jk (skew e r) = Some (true, jt) /\ meq 2 2 jt mone.
Proof.
  intros He Ht wf. destruct (affine_flag 2 2 tol (skew e r) wf jm jk) as (jt & E & V).
  match type of E with _ = Some (?b, _) => assert (EB : b = true) end.
  - cbn. unfold edge, shift, norm2. cbn. rewrite !(proj2 (Rltb_true _ _)); [reflexivity| |]; nra.
  - rewrite EB in *. exists jt. split; [exact E|]. intros i j Hi Hj. rewrite V by auto. unfold edge, mone.
    destruct i as [|[|]]; [| |lia]; (destruct j as [|[|]]; [| |lia]); cbn; unfold vzero; lra.
Qed.
Lemma skew_eps tol : 0 < tol -> exists e, 0 < e <= 1/2 /\ e < tol.
Proof.
  intro H. exists (Rmin 1 tol / 2). assert (A := Rmin_l 1 tol). assert (B := Rmin_r 1 tol).
  assert (0 < Rmin 1 tol) by (apply Rmin_glb_lt; lra). lra.
Qed.
Lemma skew_inside e r a b : ml_wf 2 (skew e r) -> 0 <= a <= 1 -> 0 <= b <= 1 -> inside_ref 2 (skew e r) (fun k => if Nat.eqb k 0 then a else b).
Proof. intros wf Ha Hb. apply inside_T. cbn. lra. Qed.

(** no single positive tolerance is enough *)
Theorem C32_nearly_affine_refuted :
  forall tol jm jk, 0 < tol -> exists mydim cdim g jt, ml_wf mydim g /\ mlg_affine mydim cdim tol jm jk g = Some (true, jt) /\
    ~ exists o M, corners_affine mydim cdim g o M.
Proof.
  intros tol jm jk Ht. destruct (skew_eps tol Ht) as (e & He & Het). destruct (skew_wf e) as (r & wf).
  destruct (skew_affine e r tol jm jk ltac:(lra) Het wf) as (jt & E & _).
  exists 2%nat, 2%nat, (skew e r), jt. split; [exact wf|]. split; [exact E|]. intros (o & M & H).
  assert (G := proj1 (C32_global_affine 2 2 0 (fun _ => 0) (skew e r) ltac:(lra) wf o M) H).
  assert (P : forall a b, 0 <= a <= 1 -> 0 <= b <= 1 -> a + e * a * b = o 0%nat + (M 0%nat 0%nat * a + M 1%nat 0%nat * b)).
  { intros a b Ha Hb. destruct (G (fun k => if Nat.eqb k 0 then a else b)) as (y & EY & VY); [now apply skew_inside|cbn; auto|].
    destruct (skew_global e r 0 (fun _ => 0) (fun k => if Nat.eqb k 0 then a else b) wf) as (y' & EY' & V0 & _).
    assert (y' = y) by congruence. subst y'. specialize (VY 0%nat ltac:(lia)). rewrite V0 in VY. cbn in VY. lra. }
  assert (P00 := P 0 0 ltac:(lra) ltac:(lra)). assert (P10 := P 1 0 ltac:(lra) ltac:(lra)).
  assert (P01 := P 0 1 ltac:(lra) ltac:(lra)). assert (P11 := P 1 1 ltac:(lra) ltac:(lra)). lra.
Qed.
Print Assumptions C32_nearly_affine_refuted.

(** with tolerance zero not even a line is reported as affine: the comparison is norm >= tolerance *)
Theorem C32_zero_tolerance_refuted :
  exists mydim cdim g, ml_wf mydim g /\ (exists o M, corners_affine mydim cdim g o M) /\
    forall jm jk, exists jt, mlg_affine mydim cdim 0 jm jk g = Some (false, jt).
Proof.
  destruct (re_infos_spec 1 1 ltac:(reflexivity)) as (r & E & _). set (g := {| ml_id := 1; ml_ref := r; ml_corners := [(fun _ => 0); (fun _ => 1)] |}).
  assert (wf : ml_wf 1 g) by (repeat split; auto). exists 1%nat, 1%nat, g. split; [exact wf|]. split.
  - exists (fun _ => 0), (fun _ _ => 1). apply affine_img; [exact wf|]. intros i k Hi Hk. cbn in Hi. destruct i as [|[|]]; [| |lia]; cbn; unfold vzero; lra.
  - intros jm jk. destruct (affine_flag 1 1 0 g wf jm jk) as (jt & EJ & _). exists jt. rewrite EJ. do 2 f_equal.
    cbn. destruct (Rltb 0 0) eqn:Q; [|reflexivity]. apply Rltb_true in Q. lra.
Qed.
Print Assumptions C32_zero_tolerance_refuted.

(** a parallelogram is affine *)
Example C32_example : exists r jt, let g := quad (fun _ => 5) (fun k => if Nat.eqb k 0 then 7 else 6) (fun k => if Nat.eqb k 0 then 5 else 9) (fun k => if Nat.eqb k 0 then 7 else 10) r in
  ml_wf 2 g /\ mlg_affine 2 2 (1/1000) (fun _ _ => 3) (fun _ _ => 4) g = Some (true, jt) /\
  jt 0%nat 0%nat = 2 /\ jt 0%nat 1%nat = 1 /\ jt 1%nat 0%nat = 0 /\ jt 1%nat 1%nat = 4.
Proof.
  match goal with |- exists r jt, let g := quad ?a ?b ?c ?d r in _ => destruct (quad_wf a b c d) as (r & wf) end. exists r.
  match type of wf with ml_wf 2 ?G => assert (HA : corners_affine 2 2 G (fun _ => 5) (fun i j => match i, j with 0%nat, 0%nat => 2 | 0%nat, 1%nat => 1 | 1%nat, 1%nat => 4 | _, _ => 0 end)) end.
  - apply affine_img; [exact wf|]. intros i k Hi Hk. cbn in Hi. destruct i as [|[|[|[|]]]]; try lia; (destruct k as [|[|]]; [| |lia]); cbn; unfold vzero; lra.
  - destruct (affine_detect 2 2 (1/1000) _ wf (fun _ _ => 3) (fun _ _ => 4) _ _ ltac:(lra) HA) as (jt & E & V). exists jt. cbv zeta. split; [exact wf|]. split; [exact E|].
    rewrite !V by lia. auto.
Qed.

(** ** C33 the cached geometry *)

(** not detected as affine: the cache is never written and every call is forwarded *)
Theorem C33_not_affine :
  forall mydim cdim tol jv jm jk j1 j2 g jt jit0 d0, mlg_affine mydim cdim tol jm jk g = Some (false, jt) ->
    exists c, cm_make mydim cdim tol jm jk g jit0 d0 = Some c /\
      forall fuel qs rs c', cm_run mydim cdim tol jv jm jk j1 j2 fuel g c qs = Some (rs, c') <->
        c' = c /\ Forall2 (fun q r => ml_call mydim cdim tol jv jm jk j1 j2 fuel g q = Some r) qs rs.
Proof.
  intros mydim cdim tol jv jm jk j1 j2 g jt jit0 d0 E. eexists. split; [unfold cm_make; rewrite E; reflexivity|]. intros fuel qs rs c'.
  apply run_uncached; auto.
Qed.
Print Assumptions C33_not_affine.

(** affine and not degenerate: every history of calls gets the replies of the uncached geometry *)
Theorem C33_affine :
  forall mydim cdim tol jv jm jk j1 j2 g o M jit0 d0, 0 < tol < 1/2 -> ml_wf mydim g -> (mydim <= cdim)%nat ->
    corners_affine mydim cdim g o M -> row_independent mydim cdim M ->
    exists c, cm_make mydim cdim tol jm jk g jit0 d0 = Some c /\
      forall fuel qs, List.Forall (call_regular mydim tol g) qs ->
        exists rs rs' c', cm_run mydim cdim tol jv jm jk j1 j2 (S fuel) g c qs = Some (rs, c') /\
          Forall2 (fun q r => ml_call mydim cdim tol jv jm jk j1 j2 (S fuel) g q = Some r) qs rs' /\
          Forall2 (reply_eq mydim cdim) rs rs'.
Proof.
  intros mydim cdim tol jv jm jk j1 j2 g o M jit0 d0 Ht wf Hd HA HR.
  destruct (make_ok mydim cdim tol jm jk j1 j2 g Ht wf o M HA jit0 d0) as (c & E & OK). exists c. split; [exact E|].
  intros fuel qs HQ. apply (run_eq mydim cdim tol jv jm jk j1 j2 ltac:(lra) g Ht wf Hd o M HA HR fuel qs c OK).
  eapply Forall_impl; [|exact HQ]. intros [x|y|x| |x|x|] H; cbn in *; auto;
    (destruct H as [H|[H1 H2]]; [now apply nice_smooth|apply nice_inside; auto; lra]).
Qed.
Print Assumptions C33_affine.

(** detected as affine within the tolerance: global may be off by dim (dim-1) / 2 * sqrt tol *)
Theorem C33_nearly_affine_bound :
  forall mydim cdim tol jv jm jk g jit0 d0 c x, 0 <= tol -> ml_wf mydim g -> cm_make mydim cdim tol jm jk g jit0 d0 = Some c ->
    regular tol (topo_of (ml_id g) mydim) x -> inside_ref mydim g x ->
    exists u v, cm_global mydim cdim tol jv g c x = Some u /\ mlg_global mydim cdim tol jv g x = Some v /\
      forall k, (k < cdim)%nat -> Rabs (u k - v k) <= INR (mydim * (mydim - 1) / 2) * sqrt tol.
Proof.
  intros mydim cdim tol jv jm jk g jit0 d0 c x Ht wf Hm HR HI.
  destruct (global_regular mydim cdim tol Ht g wf jv x HR) as (v & EV & VV).
  assert (B0 : 0 <= INR (mydim * (mydim - 1) / 2) * sqrt tol) by (apply Rmult_le_pos; [apply pos_INR|apply sqrt_pos]).
  unfold cm_make in Hm. destruct (mlg_affine mydim cdim tol jm jk g) as [[b jt]|] eqn:EA; [|discriminate]. injection Hm as <-.
  unfold cm_global. cbn [ca_affine ca_jt]. destruct b.
  2:{ exists v, v. repeat split; auto. intros k _. rewrite Rminus_diag_eq, Rabs_R0 by reflexivity. exact B0. }
  assert (LN := ml_wf_nv mydim g wf). assert (NP := nv_pos (topo_of (ml_id g) mydim)).
  set (T := topo_of (ml_id g) mydim) in *.
  assert (E0 : mlg_corner g 0 = Some (nth 0 (ml_corners g) vzero)) by (apply nth_error_nth'; lia).
  rewrite E0. eexists. exists v. split; [reflexivity|]. split; [exact EV|]. intros k Hk. cbv beta.
  rewrite VV by assumption.
  assert (G : good tol (lt (ml_id g) mydim) x).
  { apply regular_inside_good; [assumption|now apply regular_lt|]. apply (proj1 (insideT_lt _ _ _ _)). now apply inside_T. }
  rewrite (rsum_ext mydim _ (fun j => rsum (nv T) (fun i => shape T x i * (jt j k * rc (lt (ml_id g) mydim) i j)))).
  2:{ intros j Hj. rewrite <- (good_0_smooth_or tol _ _ Ht G j) at 1 by now rewrite tdim_lt. rewrite nv_lt. fold T. rewrite <- rsum_scal. apply rsum_ext. intros i Hi. rewrite shape_lt. fold T. ring. }
  rewrite rsum_swap.
  set (c0 := nth 0 (ml_corners g) vzero k). 
  assert (S1 : rsum (nv T) (shape T x) = 1) by (rewrite <- (shape_sum T x); apply rsum_ext; intros; ring).
  assert (C0 : rsum (nv T) (fun i => shape T x i * c0) = c0) by (rewrite rsum_scal_r, S1; ring).
  rewrite <- C0 at 1. rewrite <- rsum_plus, <- rsum_minus.
  set (B := INR (mydim * (mydim - 1) / 2) * sqrt tol).
  assert (ER : forall i, (i < nv T)%nat -> Rabs (nth i (ml_corners g) vzero k - (c0 + rsum mydim (fun j => jt j k * rc (lt (ml_id g) mydim) i j))) <= B).
  { intros i Hi. rewrite rc_lt, <- rc_corner by assumption.
    apply (C32_quantitative mydim cdim tol jm jk g jt (nth 0 (ml_corners g) vzero) Ht wf EA E0 i); [apply nth_error_nth'; lia| |assumption].
    apply nth_error_nth'. rewrite <- nv_size. exact Hi. }
  assert (SN : forall i, 0 <= shape T x i) by (intro i; apply shape_nonneg; now apply inside_T).
  rewrite <- (Rmult_1_l B), <- S1.
  assert (GEN : forall n, (n <= nv T)%nat -> Rabs (rsum n (fun i => shape T x i * c0 + rsum mydim (fun j => shape T x i * (jt j k * rc (lt (ml_id g) mydim) i j)) - shape T x i * nth i (ml_corners g) vzero k)) <= rsum n (shape T x) * B).
  { induction n; intro Hn; cbn [rsum]; [rewrite Rabs_R0; lra|]. eapply Rle_trans; [apply Rabs_triang|]. rewrite Rmult_plus_distr_r. apply Rplus_le_compat; [apply IHn; lia|].
    rewrite rsum_scal. replace (_ - _) with (shape T x n * - (nth n (ml_corners g) vzero k - (c0 + rsum mydim (fun j => jt j k * rc (lt (ml_id g) mydim) n j)))) by ring.
    rewrite Rabs_mult, (Rabs_pos_eq (shape T x n)), Rabs_Ropp by auto. apply Rmult_le_compat_l; [auto|]. apply ER. lia. }
  apply GEN. apply le_n.
Qed.
Print Assumptions C33_nearly_affine_bound.

(** and it is off, for every positive tolerance *)
Theorem C33_nearly_affine_refuted :
  forall tol jv jm jk jit0 d0, 0 < tol -> exists mydim cdim g c x u v, ml_wf mydim g /\ inside_ref mydim g x /\
    regular tol (topo_of (ml_id g) mydim) x /\ (0 < cdim)%nat /\
    cm_make mydim cdim tol jm jk g jit0 d0 = Some c /\ cm_global mydim cdim tol jv g c x = Some u /\
    mlg_global mydim cdim tol jv g x = Some v /\ u 0%nat <> v 0%nat.
Proof.
  intros tol jv jm jk jit0 d0 Ht. destruct (skew_eps tol Ht) as (e & He & Het). destruct (skew_wf e) as (r & wf).
  destruct (skew_affine e r tol jm jk ltac:(lra) Het wf) as (jt & E & V).
  destruct (skew_global e r tol jv (fun k => if Nat.eqb k 0 then 1/2 else 1/2) wf) as (v & EV & V0 & _).
  exists 2%nat, 2%nat, (skew e r). eexists. exists (fun k => if Nat.eqb k 0 then 1/2 else 1/2). eexists. exists v.
  split; [exact wf|]. split; [apply skew_inside; auto; lra|]. split; [cbn; auto|]. split; [lia|].
  split; [unfold cm_make; rewrite E; reflexivity|]. split; [reflexivity|]. split; [exact EV|].
  rewrite V0. cbn. rewrite !V by lia. unfold mone. cbn. lra.
Qed.
Print Assumptions C33_nearly_affine_refuted.

(** a degenerate line: the uncached local reports it, the cached one does not *)
Theorem C33_singular_local_refuted :
  forall tol jv jm jk j1 j2 jit0 d0 fuel y, 0 < tol < 1/2 -> exists mydim cdim g c z, ml_wf mydim g /\
    (exists o M, corners_affine mydim cdim g o M) /\
    cm_make mydim cdim tol jm jk g jit0 d0 = Some c /\
    mlg_local mydim cdim tol jv jm jk j1 j2 (S fuel) g y = Done LocMax /\
    cm_local mydim cdim tol jv jm jk j1 j2 (S fuel) g c y = Done (LocPt z).
Proof.
  intros tol jv jm jk j1 j2 jit0 d0 fuel y Ht.
  destruct (re_infos_spec 1 1 ltac:(reflexivity)) as (r & E & _). set (g := {| ml_id := 1; ml_ref := r; ml_corners := [vzero; vzero] |}).
  assert (wf : ml_wf 1 g) by (repeat split; auto).
  assert (HA : corners_affine 1 1 g vzero (fun _ _ => 0)).
  { apply affine_img; [exact wf|]. intros i k Hi Hk. cbn in Hi. destruct i as [|[|]]; [| |lia]; cbn; unfold vzero; lra. }
  destruct (make_ok 1 1 tol jm jk j1 j2 g Ht wf _ _ HA jit0 d0) as (c & EC & OK).
  destruct (center_nice 1 tol g Ht wf) as (p & EP & NP).
  assert (NI : forall J, meq 1 1 J (fun _ _ => 0) -> ~ row_independent 1 1 J).
  { intros J HJ HI. assert (Q := HI (fun _ => 1)). assert (1 = 0); [|lra]. apply (Q ltac:(intros j Hj; unfold mvec, mtr; cbn; rewrite HJ by lia; ring) 0%nat ltac:(lia)). }
  destruct (affine_jt 1 1 tol ltac:(lra) g wf jm jk _ _ p HA NP) as (J & EJ & VJ).
  destruct (affine_global 1 1 tol ltac:(lra) g wf jv _ _ p HA NP) as (gp & EG & _).
  destruct (affine_detect 1 1 tol g wf jm jk _ _ ltac:(lra) HA) as (jt & EA & _).
  assert (CM : ca_affine c = true /\ ca_jt c = jt /\ ca_jitComputed c = false).
  { unfold cm_make in EC. rewrite EA in EC. cbn in EC. injection EC as <-. auto. }
  destruct CM as (C1 & C2 & C3).
  assert (VT : meq 1 1 (ca_jt c) (fun _ _ => 0)) by apply (co_jt _ _ _ _ _ _ OK).
  destruct (proj2 (C25_xTRightInvA 1 1 (ca_jt c) (fun k => y k - vzero k) j1 j2 (le_n 1)) (NI _ VT)) as (z & EZ).
  exists 1%nat, 1%nat, g, c, z. split; [exact wf|]. split; [eauto|]. split; [exact EC|]. split.
  - unfold mlg_local. rewrite EP, EA. cbn [ml_newton]. unfold ml_step. rewrite EG, EJ. cbn [obind].
    destruct (proj2 (C25_xTRightInvA 1 1 J (fun k => gp k - y k) j1 j2 (le_n 1)) (NI _ VJ)) as (w & ->). reflexivity.
  - unfold cm_local. rewrite C1, C3. cbn [mlg_corner nth_error ml_corners g]. rewrite EZ. reflexivity.
Qed.
Print Assumptions C33_singular_local_refuted.

(** a 2 x 3 rectangle: local after jacobianInverseTransposed uses the cached matrix *)
Example C33_example : forall jv jm jk j1 j2 jit0 d0, exists r c rs c',
  let g := quad (fun _ => 0) (fun k => if Nat.eqb k 0 then 2 else 0) (fun k => if Nat.eqb k 1 then 3 else 0) (fun k => if Nat.eqb k 0 then 2 else 3) r in
  ml_wf 2 g /\ cm_make 2 2 (1/1000) jm jk g jit0 d0 = Some c /\
  cm_run 2 2 (1/1000) jv jm jk j1 j2 1 g c [CJIT (fun _ => 0); CLocal (fun k => if Nat.eqb k 0 then 4 else 3); CIntEl (fun _ => 5)] = Some (rs, c') /\
  match rs with [RDetMat d m; RLoc (LocPt z); RNum e] => d = 6 /\ m 0%nat 0%nat = 1/2 /\ m 1%nat 1%nat = 1/3 /\ z 0%nat = 2 /\ z 1%nat = 1 /\ e = 6 | _ => False end.
Proof.
  intros. match goal with |- exists r c rs c', let g := quad ?a ?b ?c ?d r in _ => destruct (quad_wf a b c d) as (r & wf) end. exists r.
  match type of wf with ml_wf 2 ?G => assert (HA : corners_affine 2 2 G (fun _ => 0) (fun i j => match i, j with 0%nat, 0%nat => 2 | 1%nat, 1%nat => 3 | _, _ => 0 end)) end.
  - apply affine_img; [exact wf|]. intros i k Hi Hk. cbn in Hi. destruct i as [|[|[|[|]]]]; try lia; (destruct k as [|[|]]; [| |lia]); cbn; unfold vzero; lra.
  - destruct (affine_detect 2 2 (1/1000) _ wf jm jk _ _ ltac:(lra) HA) as (jt & E & V). 
    assert (V00 := V 0%nat 0%nat ltac:(lia) ltac:(lia)). assert (V01 := V 0%nat 1%nat ltac:(lia) ltac:(lia)).
    assert (V10 := V 1%nat 0%nat ltac:(lia) ltac:(lia)). assert (V11 := V 1%nat 1%nat ltac:(lia) ltac:(lia)). cbn in V00, V01, V10, V11.
    eexists. eexists. eexists. cbv zeta. split; [exact wf|]. split; [unfold cm_make; rewrite E; reflexivity|].
    split; [reflexivity|]. cbn -[Rmult Rdiv Rabs]. unfold mtv. cbn -[Rmult Rdiv Rabs]. unfold mupd. cbn -[Rmult Rdiv Rabs]. rewrite V00, V01, V10, V11.
    replace (2 * 3 - 0 * 0) with 6 by ring. rewrite Rabs_pos_eq by lra. repeat split; field.
Qed.

(** ** C34 local *)

(** local inverts global on affine geometries, with a single step *)
Theorem C34_affine_exact :
  forall mydim cdim tol jv jm jk j1 j2 g o M x y fuel, 0 < tol < 1/2 -> ml_wf mydim g -> (mydim <= cdim)%nat ->
    corners_affine mydim cdim g o M -> row_independent mydim cdim M ->
    smooth tol (topo_of (ml_id g) mydim) x \/ (regular tol (topo_of (ml_id g) mydim) x /\ inside_ref mydim g x) ->
    mlg_global mydim cdim tol jv g x = Some y ->
    exists z, mlg_local mydim cdim tol jv jm jk j1 j2 (S fuel) g y = Done (LocPt z) /\ veq mydim z x.
Proof.
  intros mydim cdim tol jv jm jk j1 j2 g o M x y fuel Ht wf Hd HA HR HX Hy.
  assert (N : nice mydim tol g x) by (destruct HX as [H|[H1 H2]]; [now apply nice_smooth|apply nice_inside; auto; lra]).
  destruct (local_sol mydim cdim tol jv jm jk j1 j2 ltac:(lra) g Ht wf Hd o M HA HR fuel y) as (z & E & S). exists z. split; [exact E|].
  destruct (affine_global mydim cdim tol ltac:(lra) g wf jv o M x HA N) as (y' & E' & V). assert (y' = y) by congruence. subst y'.
  eapply sol_unique; [exact HR|exact S|]. intros i Hi. rewrite mvec_mmul. apply rsum_ext. intros k Hk. f_equal. rewrite V by assumption. unfold mvec, mtr. ring.
Qed.
Print Assumptions C34_affine_exact.

(** the start does not matter *)
Theorem C34_affine_any_start :
  forall mydim cdim tol jv jm jk j1 j2 g o M x y x0, 0 <= tol < 1 -> ml_wf mydim g -> (mydim <= cdim)%nat ->
    corners_affine mydim cdim g o M -> row_independent mydim cdim M ->
    inside_ref mydim g x -> regular tol (topo_of (ml_id g) mydim) x ->
    inside_ref mydim g x0 -> regular tol (topo_of (ml_id g) mydim) x0 ->
    mlg_global mydim cdim tol jv g x = Some y ->
    exists dx, ml_step mydim cdim tol jv jm jk j1 j2 g y x0 = Some (true, dx) /\ veq mydim (fun k => x0 k - dx k) x.
Proof.
  intros mydim cdim tol jv jm jk j1 j2 g o M x y x0 Ht wf Hd HA HR HI HG HI0 HG0 Hy.
  destruct (step_affine mydim cdim tol Ht g wf jv jm jk j1 j2 o M x0 y Hd HA HR ltac:(now apply nice_inside)) as (dx & E & S). exists dx. split; [exact E|].
  destruct (affine_global mydim cdim tol Ht g wf jv o M x HA ltac:(now apply nice_inside)) as (y' & E' & V). assert (y' = y) by congruence. subst y'.
  apply (gram_inj mydim cdim M); [exact HR|]. intros i Hi. rewrite S by assumption. rewrite mvec_mmul. apply rsum_ext. intros k Hk. f_equal. rewrite V by assumption. unfold mvec, mtr. ring.
Qed.
Print Assumptions C34_affine_any_start.

(** for any target the result minimises the distance, also off the image and outside the reference element *)
Theorem C34_affine_least_squares :
  forall mydim cdim tol jv jm jk j1 j2 g o M y fuel, 0 < tol < 1/2 -> ml_wf mydim g -> (mydim <= cdim)%nat ->
    corners_affine mydim cdim g o M -> row_independent mydim cdim M ->
    exists z, mlg_local mydim cdim tol jv jm jk j1 j2 (S fuel) g y = Done (LocPt z) /\
      forall w, norm2 cdim (fun k => o k + rsum mydim (fun j => M j k * z j) - y k) <= norm2 cdim (fun k => o k + rsum mydim (fun j => M j k * w j) - y k).
Proof.
  intros mydim cdim tol jv jm jk j1 j2 g o M y fuel Ht wf Hd HA HR.
  destruct (local_sol mydim cdim tol jv jm jk j1 j2 ltac:(lra) g Ht wf Hd o M HA HR fuel y) as (z & E & S). exists z. split; [exact E|].
  intro w. assert (Q := normal_equations cdim mydim (mtr M) (fun k => y k - o k) z S w). unfold residual, mvec, mtr in Q. unfold norm2.
  eapply Rle_trans; [|eapply Rle_trans; [exact Q|]]; right; apply rsum_ext; intros k Hk; ring.
Qed.
Print Assumptions C34_affine_least_squares.

Lemma newton_pt mydim cdim tol jv jm jk j1 j2 g aff y z : forall fuel x, ml_newton mydim cdim tol jv jm jk j1 j2 fuel g aff y x = Done (LocPt z) ->
  exists x dx, ml_step mydim cdim tol jv jm jk j1 j2 g y x = Some (true, dx) /\ z = (fun k => x k - dx k) /\ (aff = true \/ norm2 mydim dx <= tol).
Proof.
  induction fuel; intros x H; cbn [ml_newton] in H; [discriminate|].
  destruct (ml_step mydim cdim tol jv jm jk j1 j2 g y x) as [[[] dx]|] eqn:E; try discriminate.
  destruct aff; [injection H as <-; eauto 6|]. destruct (Rltb tol (norm2 mydim dx)) eqn:R; [eauto|]. injection H as <-. exists x, dx. repeat split; auto.
  right. destruct (Rle_lt_dec (norm2 mydim dx) tol) as [|L]; [assumption|]. apply Rltb_true in L. congruence.
Qed.
Lemma newton_max mydim cdim tol jv jm jk j1 j2 g aff y : forall fuel x, ml_newton mydim cdim tol jv jm jk j1 j2 fuel g aff y x = Done LocMax ->
  exists x dx, ml_step mydim cdim tol jv jm jk j1 j2 g y x = Some (false, dx).
Proof.
  induction fuel; intros x H; cbn [ml_newton] in H; [discriminate|].
  destruct (ml_step mydim cdim tol jv jm jk j1 j2 g y x) as [[[] dx]|] eqn:E; try discriminate; [|eauto].
  destruct aff; [discriminate|]. destruct (Rltb tol (norm2 mydim dx)); [eauto|discriminate].
Qed.

(** a point returned for any geometry: the last update solved the linearised problem and was
    not longer than the tolerance, unless affine() was true *)
Theorem C34_finite :
  forall mydim cdim tol jv jm jk j1 j2 g y z fuel, (mydim <= cdim)%nat ->
    mlg_local mydim cdim tol jv jm jk j1 j2 fuel g y = Done (LocPt z) ->
    exists x dx G J aff jt, mlg_affine mydim cdim tol jm jk g = Some (aff, jt) /\
      mlg_global mydim cdim tol jv g x = Some G /\ mlg_jacobianTransposed mydim cdim tol jm jk g x = Some J /\
      row_independent mydim cdim J /\
      (forall w, residual cdim mydim (mtr J) (fun k => G k - y k) dx <= residual cdim mydim (mtr J) (fun k => G k - y k) w) /\
      (forall k, z k = x k - dx k) /\ (aff = true \/ norm2 mydim dx <= tol).
Proof.
  intros mydim cdim tol jv jm jk j1 j2 g y z fuel Hd H. unfold mlg_local in H.
  destruct (re_position (ml_id g) mydim (ml_ref g) 0 0) as [x0|]; [|discriminate].
  destruct (mlg_affine mydim cdim tol jm jk g) as [[aff jt]|] eqn:EA; [|discriminate].
  destruct (newton_pt _ _ _ _ _ _ _ _ _ _ _ _ _ _ H) as (x & dx & S & -> & B).
  unfold ml_step in S. destruct (mlg_global mydim cdim tol jv g x) as [G|] eqn:EG; [|discriminate]. cbn [obind] in S.
  destruct (mlg_jacobianTransposed mydim cdim tol jm jk g x) as [J|] eqn:EJ; [|discriminate]. cbn [obind] in S.
  destruct (C25_xTRightInvA mydim cdim J (fun k => G k - y k) j1 j2 Hd) as [H1 H2].
  destruct (Classical_Prop.classic (row_independent mydim cdim J)) as [HR|HR].
  2:{ destruct (H2 HR) as (w & Q). rewrite Q in S. discriminate. }
  destruct (H1 HR) as (w & Q & _ & LS). rewrite Q in S. injection S as ->.
  exists x, dx, G, J, aff, jt. repeat split; auto.
Qed.
Print Assumptions C34_finite.

(** the largest number is returned only after a degenerate Jacobian, and always if the one at
    the centre is degenerate *)
Theorem C34_degenerate :
  forall mydim cdim tol jv jm jk j1 j2 g y fuel, (mydim <= cdim)%nat -> ml_wf mydim g ->
    (mlg_local mydim cdim tol jv jm jk j1 j2 fuel g y = Done LocMax ->
       exists x J, mlg_jacobianTransposed mydim cdim tol jm jk g x = Some J /\ ~ row_independent mydim cdim J) /\
    (forall x0 J, re_position (ml_id g) mydim (ml_ref g) 0 0 = Some x0 -> mlg_jacobianTransposed mydim cdim tol jm jk g x0 = Some J ->
       ~ row_independent mydim cdim J -> mlg_local mydim cdim tol jv jm jk j1 j2 (S fuel) g y = Done LocMax).
Proof.
  intros mydim cdim tol jv jm jk j1 j2 g y fuel Hd wf. split.
  - intro H. unfold mlg_local in H.
    destruct (re_position (ml_id g) mydim (ml_ref g) 0 0) as [x0|]; [|discriminate].
    destruct (mlg_affine mydim cdim tol jm jk g) as [[aff jt]|] eqn:EA; [|discriminate].
    destruct (newton_max _ _ _ _ _ _ _ _ _ _ _ _ _ H) as (x & dx & S).
    unfold ml_step in S. destruct (mlg_global mydim cdim tol jv g x) as [G|] eqn:EG; [|discriminate]. cbn [obind] in S.
    destruct (mlg_jacobianTransposed mydim cdim tol jm jk g x) as [J|] eqn:EJ; [|discriminate]. cbn [obind] in S.
    exists x, J. split; [exact EJ|]. intro HR. destruct (proj1 (C25_xTRightInvA mydim cdim J (fun k => G k - y k) j1 j2 Hd) HR) as (w & Q & _).
    rewrite Q in S. discriminate.
  - intros x0 J E EJ HR. unfold mlg_local. rewrite E. destruct (affine_flag mydim cdim tol g wf jm jk) as (jt & -> & _).
    cbn [ml_newton]. unfold ml_step. rewrite (global_spec mydim cdim tol g wf jv x0), EJ. cbn [obind].
    match goal with |- context [xTRightInvA mydim cdim J ?v j1 j2] => destruct (proj2 (C25_xTRightInvA mydim cdim J v j1 j2 Hd) HR) as (w & ->) end. reflexivity.
Qed.
Print Assumptions C34_degenerate.

(** no call of local is undefined *)
Theorem C34_defined :
  forall mydim cdim tol jv jm jk j1 j2 g y fuel, (mydim <= cdim)%nat -> ml_wf mydim g ->
    mlg_local mydim cdim tol jv jm jk j1 j2 fuel g y <> Undefined.
Proof.
  intros mydim cdim tol jv jm jk j1 j2 g y fuel Hd wf. unfold mlg_local.
  destruct (center_spec mydim g wf) as (p & -> & _). destruct (affine_flag mydim cdim tol g wf jm jk) as (jt & -> & _).
  match goal with |- ml_newton _ _ _ _ _ _ _ _ _ _ ?b _ _ <> _ => generalize b end. clear jt. intro b. revert p. induction fuel; intro p; cbn [ml_newton]; [discriminate|].
  unfold ml_step. rewrite (global_spec mydim cdim tol g wf jv p), (jt_value mydim cdim tol g wf jm jk p). cbn [obind].
  match goal with |- context [xTRightInvA mydim cdim ?J ?v j1 j2] => assert (Q := C25_xTRightInvA mydim cdim J v j1 j2 Hd); destruct (Classical_Prop.classic (row_independent mydim cdim J)) as [HR|HR] end.
  - destruct (proj1 Q HR) as (dx & -> & _). destruct b; [discriminate|]. destruct (Rltb tol (norm2 mydim dx)); [apply IHfuel|discriminate].
  - destruct (proj2 Q HR) as (dx & ->). discriminate.
Qed.
Print Assumptions C34_defined.

(** one step is not enough for a geometry that is affine only within the tolerance *)
Theorem C34_nearly_affine_refuted :
  forall tol jv jm jk j1 j2 fuel, 0 < tol -> exists mydim cdim g x y z, ml_wf mydim g /\ (mydim <= cdim)%nat /\ inside_ref mydim g x /\
    mlg_global mydim cdim tol jv g x = Some y /\ mlg_local mydim cdim tol jv jm jk j1 j2 (S fuel) g y = Done (LocPt z) /\ ~ veq mydim z x.
Proof.
  intros tol jv jm jk j1 j2 fuel Ht. destruct (skew_eps tol Ht) as (e & He & Het). destruct (skew_wf e) as (r & wf).
  destruct (skew_affine e r tol jm jk ltac:(lra) Het wf) as (jt & E & _).
  destruct (skew_global e r tol jv (fun k => if Nat.eqb k 0 then 1 else 1) wf) as (y & EY & Y0 & Y1). cbn in Y0, Y1.
  destruct (center_spec 2 (skew e r) wf) as (p & EP & VP).
  assert (P0 : p 0%nat = 1/2) by (rewrite VP by lia; cbn; unfold meanT; cbn; unfold vzero; lra).
  assert (P1 : p 1%nat = 1/2) by (rewrite VP by lia; cbn; unfold meanT; cbn; unfold vzero; lra).
  destruct (skew_global e r tol jv p wf) as (gp & EG & G0 & G1). rewrite P0, P1 in G0. rewrite P1 in G1.
  assert (EJ := jt_value 2 2 tol (skew e r) wf jm jk p). destruct (mlg_jacobianTransposed 2 2 tol jm jk (skew e r) p) as [J|] eqn:EJ'; [|discriminate].
  injection EJ as EJ. assert (J00 := f_equal (fun m => m 0%nat 0%nat) EJ). assert (J01 := f_equal (fun m => m 0%nat 1%nat) EJ).
  assert (J10 := f_equal (fun m => m 1%nat 0%nat) EJ). assert (J11 := f_equal (fun m => m 1%nat 1%nat) EJ).
  unfold comb in J00, J01, J10, J11. cbn in J00, J01, J10, J11. rewrite ?P0, ?P1 in J00, J01, J10, J11. clear EJ.
  assert (HR : row_independent 2 2 J).
  { intros v Hv. assert (A := Hv 0%nat ltac:(lia)). assert (B := Hv 1%nat ltac:(lia)). unfold mvec, mtr in A, B. cbn in A, B. rewrite J00, J10 in A. rewrite J01, J11 in B.
    assert (v 1%nat = 0) by lra. assert (v 0%nat = 0) by nra. intros i Hi. destruct i as [|[|]]; [assumption|assumption|lia]. }
  destruct (proj1 (C25_xTRightInvA 2 2 J (fun k => gp k - y k) j1 j2 (le_n 2)) HR) as (dx & ED & NE & _).
  exists 2%nat, 2%nat, (skew e r), (fun k => if Nat.eqb k 0 then 1 else 1), y, (fun k => p k - dx k).
  split; [exact wf|]. split; [lia|]. split; [apply skew_inside; auto; lra|]. split; [exact EY|]. split.
  - unfold mlg_local. rewrite EP, E. cbn [ml_newton]. unfold ml_step. rewrite EG, EJ'. cbn [obind]. rewrite ED. reflexivity.
  - intro H. assert (H0 := H 0%nat ltac:(lia)). assert (H1 := H 1%nat ltac:(lia)). cbn in H0, H1. rewrite P0 in H0. rewrite P1 in H1.
    assert (N0 := NE 0%nat ltac:(lia)). unfold mvec, mmul, mtr in N0. cbn in N0. rewrite J00, J01, J10, J11, G0, G1, Y0, Y1 in N0.
    replace (dx 0%nat) with (-1/2) in N0 by lra. replace (dx 1%nat) with (-1/2) in N0 by lra. nra.
Qed.
Print Assumptions C34_nearly_affine_refuted.

(** the segment from (1, 1) to (4, 5) in the plane: (4, 1) is closest to the point 9/25 along it *)
Example C34_example : exists r z, let g := {| ml_id := 1; ml_ref := r; ml_corners := [(fun _ => 1); (fun k => if Nat.eqb k 0 then 4 else 5)] |} in
  ml_wf 1 g /\ mlg_local 1 2 (1/1000) (fun _ => 7) (fun _ _ => 8) (fun _ _ => 9) (fun _ _ => 10) (fun _ _ => 11) 1 g (fun k => if Nat.eqb k 0 then 4 else 1) = Done (LocPt z) /\ z 0%nat = 9/25.
Proof.
  destruct (re_infos_spec 1 1 ltac:(reflexivity)) as (r & E & _). exists r. set (g := Build_MLGeo _ _ _). assert (wf : ml_wf 1 g) by (repeat split; auto).
  assert (HA : corners_affine 1 2 g (fun _ => 1) (fun _ k => if Nat.eqb k 0 then 3 else 4)).
  { apply affine_img; [exact wf|]. intros i k Hi Hk. cbn in Hi. destruct i as [|[|]]; [| |lia]; (destruct k as [|[|]]; [| |lia]); cbn; unfold vzero; lra. }
  assert (HR : row_independent 1 2 (fun _ k => if Nat.eqb k 0 then 3 else 4)).
  { intros v Hv i Hi. assert (A := Hv 0%nat ltac:(lia)). unfold mvec, mtr in A. cbn in A. replace i with 0%nat by lia. lra. }
  destruct (local_sol 1 2 (1/1000) (fun _ => 7) (fun _ _ => 8) (fun _ _ => 9) (fun _ _ => 10) (fun _ _ => 11) ltac:(lra) g ltac:(lra) wf ltac:(lia) _ _ HA HR 0 (fun k => if Nat.eqb k 0 then 4 else 1)) as (z & EZ & S).
  exists z. split; [exact wf|]. split; [exact EZ|]. assert (Q := S 0%nat ltac:(lia)). unfold mvec, mmul, mtr in Q. cbn in Q. lra.
Qed.
