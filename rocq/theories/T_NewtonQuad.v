(** Property theorems C90: for which targets MultiLinearGeometry::local terminates on a quadrilateral.
    C63 (T_Newton.v) has the convergence for points of convex quadrilaterals. *)
From Coq Require Import PeanoNat NArith ZArith Bool List Reals Lia Lra Psatz.
From Flocq Require Import IEEE754.BinarySingleNaN.
From Verif Require Import M_Type M_RefTopo M_RefGeo M_Matrix M_Affine M_MultiLinear M_Float M_FloatGlobal M_FloatLocal
  S_Topo S_RefGeo S_Matrix S_MultiLinear S_NewtonQuad P_RSum P_RefGeo P_Matrix P_Matrix2 P_ML1 P_ML2 P_ML3 P_ML4 P_ML5 P_NewtonQuad T_Matrix T_MultiLinear T_Float T_FloatLocal.
Import ListNotations.
Local Open Scope R_scope.
Notation bilinear := S_NewtonQuad.bilinear.

(** affine() compares the squared length of the deviation from a parallelogram with the tolerance *)
Lemma flag_value tol jm jk c0 c1 c2 c3 r : 0 < tol -> ml_wf 2 (quad c0 c1 c2 c3 r) -> exists jt, mlg_affine 2 2 tol jm jk (quad c0 c1 c2 c3 r) = Some (Rltb (norm2 2 (mixed c0 c1 c2 c3)) tol, jt).
Proof.
  intros Ht wf. destruct (affine_flag 2 2 tol (quad c0 c1 c2 c3 r) wf jm jk) as (jt & EA & _). exists jt. rewrite EA. do 2 f_equal.
  cbn. unfold P_ML4.edge, P_ML4.shift, mixed, norm2. cbn. rewrite (proj2 (Rltb_true 0 tol) Ht). cbn [andb]. f_equal. ring.
Qed.
(** the exact model on a quadrilateral in the plane: what is used of it below *)
Lemma local_unfold tol jv jm jk j1 j2 c0 c1 c2 c3 r (b : bool) jt : ml_wf 2 (quad c0 c1 c2 c3 r) -> mlg_affine 2 2 tol jm jk (quad c0 c1 c2 c3 r) = Some (b, jt) ->
  exists p, p 0%nat = 1 / 2 /\ p 1%nat = 1 / 2 /\ forall fuel y, mlg_local 2 2 tol jv jm jk j1 j2 fuel (quad c0 c1 c2 c3 r) y = ml_newton 2 2 tol jv jm jk j1 j2 fuel (quad c0 c1 c2 c3 r) b y p.
Proof.
  intros wf E. destruct (quad_start c0 c1 c2 c3 r wf) as (p & EP & P0 & P1). exists p. split; [exact P0|]. split; [exact P1|]. intros fuel y.
  unfold mlg_local. now rewrite EP, E.
Qed.

(** a returned point is a solution up to half the tolerance times the deviation from a parallelogram *)
Lemma residual_component :
  forall tol jv jm jk j1 j2 c0 c1 c2 c3 r y fuel z, 0 < tol -> ml_wf 2 (quad c0 c1 c2 c3 r) ->
    tol <= norm2 2 (mixed c0 c1 c2 c3) ->
    mlg_local 2 2 tol jv jm jk j1 j2 fuel (quad c0 c1 c2 c3 r) y = Done (LocPt z) ->
    forall k, (k < 2)%nat -> Rabs (bilinear c0 c1 c2 c3 z k - y k) <= tol / 2 * Rabs (mixed c0 c1 c2 c3 k).
Proof.
  intros tol jv jm jk j1 j2 c0 c1 c2 c3 r y fuel z Ht wf HM EL k Hk. destruct (flag_value tol jm jk c0 c1 c2 c3 r Ht wf) as (jt & EA). rewrite (proj2 (Rltb_false _ _) HM) in EA.
  destruct (local_unfold tol jv jm jk j1 j2 c0 c1 c2 c3 r false jt wf EA) as (p & _ & _ & U). rewrite U in EL.
  destruct (newton_pt _ _ _ _ _ _ _ _ _ _ _ _ _ _ EL) as (x & dx & S' & -> & [B|B]); [discriminate|].
  assert (HD : jdet c0 c1 c2 c3 x <> 0) by (intro Q; destruct (step_singular tol jv jm jk j1 j2 c0 c1 c2 c3 r wf y x Q) as (w & W); rewrite W in S'; discriminate).
  destruct (step_regular tol jv jm jk j1 j2 c0 c1 c2 c3 r wf y x HD) as (dx' & W & V). rewrite W in S'. injection S' as <-.
  rewrite (step_residual c0 c1 c2 c3 y x dx' k Hk (V k Hk)). rewrite Rabs_mult. apply Rmult_le_compat_r; [apply Rabs_pos|].
  unfold norm2 in B. cbn in B. apply Rabs_le. set (a := dx' 0%nat) in *. set (b := dx' 1%nat) in *.
  assert (0 <= (a - b) * (a - b)) by apply Rle_0_sqr. assert (0 <= (a + b) * (a + b)) by apply Rle_0_sqr. lra.
Qed.
(** hence no point is returned for a target away from the image of the plane *)
Corollary C90_no_solution :
  forall tol jv jm jk j1 j2 c0 c1 c2 c3 r y fuel z, 0 < tol -> ml_wf 2 (quad c0 c1 c2 c3 r) ->
    tol <= norm2 2 (mixed c0 c1 c2 c3) ->
    (forall x, exists k, (k < 2)%nat /\ tol / 2 * Rabs (mixed c0 c1 c2 c3 k) < Rabs (bilinear c0 c1 c2 c3 x k - y k)) ->
    mlg_local 2 2 tol jv jm jk j1 j2 fuel (quad c0 c1 c2 c3 r) y <> Done (LocPt z).
Proof.
  intros tol jv jm jk j1 j2 c0 c1 c2 c3 r y fuel z Ht wf HM H EL. destruct (H z) as (k & Hk & L).
  assert (Q := residual_component _ _ _ _ _ _ _ _ _ _ _ _ _ _ Ht wf HM EL k Hk). lra.
Qed.
Print Assumptions C90_no_solution.

(** local terminates for every target in the image of the plane, inside the quadrilateral or not *)
Theorem C90_terminates :
  forall tol jv jm jk j1 j2 c0 c1 c2 c3 r xs y, 0 < tol -> ml_wf 2 (quad c0 c1 c2 c3 r) ->
    (forall k, (k < 2)%nat -> y k = bilinear c0 c1 c2 c3 xs k) ->
    exists n, forall fuel, (n <= fuel)%nat -> exists res, mlg_local 2 2 tol jv jm jk j1 j2 fuel (quad c0 c1 c2 c3 r) y = Done res.
Proof.
  intros tol jv jm jk j1 j2 c0 c1 c2 c3 r xs y Ht wf Hy.
  destruct (quad_flag tol jm jk c0 c1 c2 c3 r wf) as (b & jt & EA).
  destruct (local_unfold tol jv jm jk j1 j2 c0 c1 c2 c3 r b jt wf EA) as (p & P0 & P1 & U).
  destruct (Req_dec (jdet c0 c1 c2 c3 center) 0) as [Z|NZ].
  - exists 1%nat. intros fuel Hf. rewrite U. destruct fuel as [|fuel]; [lia|]. cbn [ml_newton].
    assert (ZP : jdet c0 c1 c2 c3 p = 0) by (rewrite <- Z; unfold jdet, bx, by_, center, pt; rewrite P0, P1; reflexivity).
    destruct (step_singular tol jv jm jk j1 j2 c0 c1 c2 c3 r wf y p ZP) as (w & ->). eauto.
  - destruct (newton_image tol jv jm jk j1 j2 c0 c1 c2 c3 r wf NZ Ht b xs y p ltac:(intros k Hk; symmetry; auto) P0 P1) as (n & H).
    exists n. intros fuel Hf. rewrite U. destruct (H fuel Hf) as (res & E & _). eauto.
Qed.
Print Assumptions C90_terminates.

Lemma convex_mu c0 c1 c2 c3 m : convex c0 c1 c2 c3 m -> det0 c0 c1 c2 c3 <> 0 /\ 0 < m / Rabs (det0 c0 c1 c2 c3) /\ m / Rabs (det0 c0 c1 c2 c3) <= 1 /\
  Rabs (d1 c0 c1 c2 c3) + Rabs (d2 c0 c1 c2 c3) <= 2 * (1 - m / Rabs (det0 c0 c1 c2 c3)).
Proof.
  intros [M H]. set (A := jdet c0 c1 c2 c3 (pt 0 0)) in *. set (B := jdet c0 c1 c2 c3 (pt 1 0)) in *.
  set (C := jdet c0 c1 c2 c3 (pt 0 1)) in *. set (E := jdet c0 c1 c2 c3 (pt 1 1)) in *.
  assert (EC : det0 c0 c1 c2 c3 = (A + B + C + E) / 4) by (unfold det0, A, B, C, E, jdet, bx, by_, center, pt; field).
  assert (NZ : det0 c0 c1 c2 c3 <> 0) by (rewrite EC; destruct H as [H|H]; lra).
  assert (AP : 0 < Rabs (det0 c0 c1 c2 c3)) by now apply Rabs_pos_lt.
  set (mu := m / Rabs (det0 c0 c1 c2 c3)). assert (MU : 0 < mu) by (apply Rdiv_lt_0_compat; lra).
  assert (K : forall a b, m <= Rabs (jdet c0 c1 c2 c3 (pt a b)) -> 0 <= jdet c0 c1 c2 c3 (pt a b) * det0 c0 c1 c2 c3 -> mu <= 1 + d1 c0 c1 c2 c3 * (b - 1 / 2) + d2 c0 c1 c2 c3 * (a - 1 / 2)).
  { intros a b H1 H2. rewrite (det_delta c0 c1 c2 c3 NZ) in H1, H2. unfold delta in H1, H2. cbn [pt] in H1, H2.
    set (w := 1 + d1 c0 c1 c2 c3 * (b - 1 / 2) + d2 c0 c1 c2 c3 * (a - 1 / 2)) in *. 
    assert (W : 0 <= w).
    { destruct (Rle_lt_dec 0 w) as [|L]; [assumption|]. assert (0 < det0 c0 c1 c2 c3 * det0 c0 c1 c2 c3) by nra.
      assert (0 < (- w) * (det0 c0 c1 c2 c3 * det0 c0 c1 c2 c3)) by (apply Rmult_lt_0_compat; lra). nra. }
    rewrite Rabs_mult, (Rabs_pos_eq w W) in H1. unfold mu. apply (Rmult_le_reg_r (Rabs (det0 c0 c1 c2 c3))); [exact AP|].
    unfold Rdiv. rewrite Rmult_assoc, Rinv_l, Rmult_1_r by lra. lra. }
  assert (K00 := K 0 0). assert (K10 := K 1 0). assert (K01 := K 0 1). assert (K11 := K 1 1).
  fold A in K00. fold B in K10. fold C in K01. fold E in K11.
  assert (G : mu <= 1 + d1 c0 c1 c2 c3 * (0 - 1 / 2) + d2 c0 c1 c2 c3 * (0 - 1 / 2) /\ mu <= 1 + d1 c0 c1 c2 c3 * (0 - 1 / 2) + d2 c0 c1 c2 c3 * (1 - 1 / 2) /\
    mu <= 1 + d1 c0 c1 c2 c3 * (1 - 1 / 2) + d2 c0 c1 c2 c3 * (0 - 1 / 2) /\ mu <= 1 + d1 c0 c1 c2 c3 * (1 - 1 / 2) + d2 c0 c1 c2 c3 * (1 - 1 / 2)).
  { destruct H as [(HA & HB & HC & HE)|(HA & HB & HC & HE)].
    - assert (0 < det0 c0 c1 c2 c3) by lra. repeat split; [apply K00|apply K10|apply K01|apply K11]; try (rewrite Rabs_pos_eq; lra); apply Rmult_le_pos; lra.
    - assert (det0 c0 c1 c2 c3 < 0) by lra. repeat split; [apply K00|apply K10|apply K01|apply K11]; try (rewrite Rabs_left1; lra); nra. }
  split; [exact NZ|]. split; [exact MU|]. split; [lra|]. fold mu. unfold Rabs. destruct (Rcase_abs (d1 c0 c1 c2 c3)), (Rcase_abs (d2 c0 c1 c2 c3)); lra.
Qed.

(** for a convex quadrilateral one number of iterations suffices for all targets in it, a point is
    returned, and its distance to the exact one is at most sqrt(tol) times the quotient of the
    determinant at the centre and the smallest one *)
Theorem C90_uniform :
  forall tol jv jm jk j1 j2 c0 c1 c2 c3 r m, 0 < tol -> ml_wf 2 (quad c0 c1 c2 c3 r) -> convex c0 c1 c2 c3 m ->
    exists n, forall xs y fuel, in_square xs -> (forall k, (k < 2)%nat -> y k = bilinear c0 c1 c2 c3 xs k) -> (n <= fuel)%nat ->
      exists z, mlg_local 2 2 tol jv jm jk j1 j2 fuel (quad c0 c1 c2 c3 r) y = Done (LocPt z) /\
        (tol <= norm2 2 (mixed c0 c1 c2 c3) ->
          norm2 2 (fun k => z k - xs k) <= tol * Rsqr (jdet c0 c1 c2 c3 center / m)).
Proof.
  intros tol jv jm jk j1 j2 c0 c1 c2 c3 r m Ht wf HC. destruct (convex_mu c0 c1 c2 c3 m HC) as (NZ & M0 & M1 & HD).
  destruct (newton_convex tol jv jm jk j1 j2 c0 c1 c2 c3 r wf NZ Ht _ M0 M1 HD) as (n & H). exists n. intros xs y fuel Hs Hy Hf.
  destruct (flag_value tol jm jk c0 c1 c2 c3 r Ht wf) as (jt & EA). set (b := Rltb _ _) in EA.
  destruct (local_unfold tol jv jm jk j1 j2 c0 c1 c2 c3 r b jt wf EA) as (p & P0 & P1 & U). 
  destruct (H b xs y p fuel Hs ltac:(intros k Hk; symmetry; auto) P0 P1 Hf) as (z & E & V). exists z. split; [now rewrite U|].
  intro HM. specialize (V (proj2 (Rltb_false _ _) HM)). unfold norm2. cbn. rewrite Rplus_0_l. fold (dist2 xs z).
  destruct HC as [MP _]. fold (det0 c0 c1 c2 c3).
  assert (Q : m / Rabs (det0 c0 c1 c2 c3) * (m / Rabs (det0 c0 c1 c2 c3)) * Rsqr (det0 c0 c1 c2 c3 / m) = 1).
  { unfold Rsqr. assert (Rabs (det0 c0 c1 c2 c3) * Rabs (det0 c0 c1 c2 c3) = det0 c0 c1 c2 c3 * det0 c0 c1 c2 c3) by (unfold Rabs; destruct (Rcase_abs (det0 c0 c1 c2 c3)); ring).
    assert (0 < Rabs (det0 c0 c1 c2 c3)) by now apply Rabs_pos_lt.
    replace (m / Rabs (det0 c0 c1 c2 c3) * (m / Rabs (det0 c0 c1 c2 c3)) * (det0 c0 c1 c2 c3 / m * (det0 c0 c1 c2 c3 / m))) with ((det0 c0 c1 c2 c3 * det0 c0 c1 c2 c3) / (Rabs (det0 c0 c1 c2 c3) * Rabs (det0 c0 c1 c2 c3))) by (field; lra).
    rewrite H0. field. exact NZ. }
  assert (0 <= Rsqr (det0 c0 c1 c2 c3 / m)) by apply Rle_0_sqr.
  apply Rle_trans with (dist2 xs z * (m / Rabs (det0 c0 c1 c2 c3) * (m / Rabs (det0 c0 c1 c2 c3))) * Rsqr (det0 c0 c1 c2 c3 / m)); [rewrite Rmult_assoc, Q; lra|].
  now apply Rmult_le_compat_r.
Qed.
Print Assumptions C90_uniform.

(** below the tolerance affine() is true, one step is made and the point is not exact *)
Theorem C90_nearly_affine :
  forall tol jv jm jk j1 j2 c0 c1 c2 c3 r, 0 < tol -> ml_wf 2 (quad c0 c1 c2 c3 r) -> norm2 2 (mixed c0 c1 c2 c3) < tol -> jdet c0 c1 c2 c3 center <> 0 ->
    forall xs y, in_square xs -> (forall k, (k < 2)%nat -> y k = bilinear c0 c1 c2 c3 xs k) ->
    exists z, (forall fuel, mlg_local 2 2 tol jv jm jk j1 j2 (S fuel) (quad c0 c1 c2 c3 r) y = Done (LocPt z)) /\
      norm2 2 (fun k => z k - xs k) <= tol / 16 * (norm2 2 (bx c0 c1 c2 c3 center) + norm2 2 (by_ c0 c1 c2 c3 center)) / Rsqr (jdet c0 c1 c2 c3 center).
Proof.
  intros tol jv jm jk j1 j2 c0 c1 c2 c3 r Ht wf HM NZ xs y [S1 S2] Hy.
  destruct (flag_value tol jm jk c0 c1 c2 c3 r Ht wf) as (jt & EA). rewrite (proj2 (Rltb_true _ _) HM) in EA.
  destruct (local_unfold tol jv jm jk j1 j2 c0 c1 c2 c3 r true jt wf EA) as (p & P0 & P1 & U).
  destruct (first_step tol jv jm jk j1 j2 c0 c1 c2 c3 r wf NZ y xs p ltac:(intros k Hk; symmetry; auto) P0 P1) as (dx & E & R').
  exists (fun k => p k - dx k). split; [intro fuel; rewrite U; cbn [ml_newton]; now rewrite E|].
  assert (Q := dist_ray c0 c1 c2 c3 _ _ _ R'). unfold dist2 in Q. unfold norm2 at 1. cbn [rsum]. rewrite Rplus_0_l, Q.
  set (st := (xs 0%nat - 1 / 2) * (xs 1%nat - 1 / 2)).
  assert (ST : st * st <= 1 / 16).
  { assert ((xs 0%nat - 1 / 2) * (xs 0%nat - 1 / 2) <= 1 / 4) by nra. assert ((xs 1%nat - 1 / 2) * (xs 1%nat - 1 / 2) <= 1 / 4) by nra.
    unfold st. replace ((xs 0%nat - 1 / 2) * (xs 1%nat - 1 / 2) * ((xs 0%nat - 1 / 2) * (xs 1%nat - 1 / 2))) with ((xs 0%nat - 1 / 2) * (xs 0%nat - 1 / 2) * ((xs 1%nat - 1 / 2) * (xs 1%nat - 1 / 2))) by ring.
    apply Rle_trans with (1 / 4 * (1 / 4)); [|lra]. apply Rmult_le_compat; try assumption; apply Rle_0_sqr. }
  assert (D2 : 0 < Rsqr (jdet c0 c1 c2 c3 center)) by now apply Rlt_0_sqr.
  assert (CS : forall a b c d, (a * d - b * c) * (a * d - b * c) <= (a * a + b * b) * (c * c + d * d)).
  { intros a b c d. assert (0 <= (a * c + b * d) * (a * c + b * d)) by apply Rle_0_sqr. nra. }
  assert (B1 : d1 c0 c1 c2 c3 * d1 c0 c1 c2 c3 * Rsqr (jdet c0 c1 c2 c3 center) <= norm2 2 (mixed c0 c1 c2 c3) * norm2 2 (by_ c0 c1 c2 c3 center)).
  { unfold d1, det0. match goal with |- ?a / _ * _ * _ <= _ => set (u := a) end. replace (u / jdet c0 c1 c2 c3 center * (u / jdet c0 c1 c2 c3 center) * Rsqr (jdet c0 c1 c2 c3 center)) with (u * u) by (unfold Rsqr; field; exact NZ).
    eapply Rle_trans; [apply CS|]. unfold norm2. cbn [rsum]. rewrite !Rplus_0_l. apply Rle_refl. }
  assert (B2 : d2 c0 c1 c2 c3 * d2 c0 c1 c2 c3 * Rsqr (jdet c0 c1 c2 c3 center) <= norm2 2 (mixed c0 c1 c2 c3) * norm2 2 (bx c0 c1 c2 c3 center)).
  { unfold d2, det0. match goal with |- ?a / _ * _ * _ <= _ => set (u := a) end. replace (u / jdet c0 c1 c2 c3 center * (u / jdet c0 c1 c2 c3 center) * Rsqr (jdet c0 c1 c2 c3 center)) with (u * u) by (unfold Rsqr; field; exact NZ).
    eapply Rle_trans; [apply CS|]. rewrite Rmult_comm. unfold norm2. cbn [rsum]. rewrite !Rplus_0_l. apply Rle_refl. }
  set (nb := norm2 2 (bx c0 c1 c2 c3 center)) in *. set (nc := norm2 2 (by_ c0 c1 c2 c3 center)) in *. set (nm := norm2 2 (mixed c0 c1 c2 c3)) in *.
  assert (0 <= nb) by (unfold nb, norm2; cbn [rsum]; rewrite Rplus_0_l; apply Rplus_le_le_0_compat; apply Rle_0_sqr).
  assert (0 <= nc) by (unfold nc, norm2; cbn [rsum]; rewrite Rplus_0_l; apply Rplus_le_le_0_compat; apply Rle_0_sqr).
  set (sq := Rsqr (jdet c0 c1 c2 c3 center)) in *. set (dd := d1 c0 c1 c2 c3 * d1 c0 c1 c2 c3 + d2 c0 c1 c2 c3 * d2 c0 c1 c2 c3).
  assert (B3 : dd * sq <= tol * (nb + nc)) by (unfold dd; apply Rle_trans with (nm * (nb + nc)); [lra|apply Rmult_le_compat_r; lra]).
  apply (Rmult_le_reg_r sq); [exact D2|]. replace (tol / 16 * (nb + nc) / sq * sq) with (1 / 16 * (tol * (nb + nc))) by (field; lra).
  rewrite Rmult_assoc. apply Rmult_le_compat; [apply Rle_0_sqr| |exact ST|exact B3]. apply Rmult_le_pos; [unfold dd; apply Rplus_le_le_0_compat; apply Rle_0_sqr|lra].
Qed.
Print Assumptions C90_nearly_affine.

(** trapezoids: at most three iterations, the second one gives the solution *)
Definition parallel (u v w z : Vec) : Prop := (v 0%nat - u 0%nat) * (z 1%nat - w 1%nat) = (v 1%nat - u 1%nat) * (z 0%nat - w 0%nat).
Theorem C90_trapezoid :
  forall tol jv jm jk j1 j2 c0 c1 c2 c3 r xs y, 0 < tol -> ml_wf 2 (quad c0 c1 c2 c3 r) ->
    parallel c0 c1 c2 c3 \/ parallel c0 c2 c1 c3 ->
    jdet c0 c1 c2 c3 center <> 0 -> jdet c0 c1 c2 c3 xs <> 0 ->
    (forall k, (k < 2)%nat -> y k = bilinear c0 c1 c2 c3 xs k) ->
    exists z, (forall fuel, (3 <= fuel)%nat -> mlg_local 2 2 tol jv jm jk j1 j2 fuel (quad c0 c1 c2 c3 r) y = Done (LocPt z)) /\
      (tol <= norm2 2 (mixed c0 c1 c2 c3) -> veq 2 z xs \/ norm2 2 (fun k => z k - 1 / 2) <= tol).
Proof.
  intros tol jv jm jk j1 j2 c0 c1 c2 c3 r xs y Ht wf HT NZ NX Hy.
  destruct (flag_value tol jm jk c0 c1 c2 c3 r Ht wf) as (jt & EA). remember (Rltb _ _) as b eqn:Eb in EA.
  destruct (local_unfold tol jv jm jk j1 j2 c0 c1 c2 c3 r b jt wf EA) as (p & P0 & P1 & U).
  assert (Hy' : forall k, (k < 2)%nat -> bilinear c0 c1 c2 c3 xs k = y k) by (intros k Hk; symmetry; auto).
  assert (D12 : d1 c0 c1 c2 c3 * d2 c0 c1 c2 c3 = 0).
  { destruct HT as [HT|HT]; unfold parallel in HT.
    - replace (d2 c0 c1 c2 c3) with 0; [ring|]. unfold d2. unfold det0. 
      match goal with |- 0 = ?a / _ => replace a with 0 end; [field; exact NZ|]. unfold bx, mixed, center, pt. nra.
    - replace (d1 c0 c1 c2 c3) with 0; [ring|]. unfold d1, det0.
      match goal with |- 0 = ?a / _ => replace a with 0 end; [field; exact NZ|]. unfold by_, mixed, center, pt. nra. }
  destruct (first_step tol jv jm jk j1 j2 c0 c1 c2 c3 r wf NZ y xs p Hy' P0 P1) as (dx & E & R').
  set (x1 := fun k => p k - dx k) in *.
  assert (DX : delta c0 c1 c2 c3 xs <> 0) by (intro Q; apply NX; rewrite (det_delta c0 c1 c2 c3 NZ), Q; ring).
  assert (K1 : delta c0 c1 c2 c3 x1 = delta c0 c1 c2 c3 xs) by (rewrite (delta_ray c0 c1 c2 c3 _ _ _ R'), D12; ring).
  destruct (step_ray tol jv jm jk j1 j2 c0 c1 c2 c3 r wf NZ y xs x1 _ Hy' ltac:(rewrite K1; exact DX) R') as (dx1 & E1 & R1 & _).
  cbv zeta in R1. set (e := (xs 0%nat - 1 / 2) * (xs 1%nat - 1 / 2)) in *.
  assert (Z1 : e * (d1 c0 c1 c2 c3 * d2 c0 c1 c2 c3 * e / delta c0 c1 c2 c3 x1) = 0) by (rewrite D12; unfold Rdiv; ring).
  rewrite Z1 in R1. set (x2 := fun k => x1 k - dx1 k) in *.
  assert (V2 : veq 2 x2 xs) by (destruct R1 as [A B]; intros k Hk; destruct k as [|[|]]; [lra|lra|lia]).
  assert (K2 : delta c0 c1 c2 c3 x2 = delta c0 c1 c2 c3 xs) by (rewrite (delta_ray c0 c1 c2 c3 _ _ _ R1); ring).
  destruct (step_ray tol jv jm jk j1 j2 c0 c1 c2 c3 r wf NZ y xs x2 0 Hy' ltac:(rewrite K2; exact DX) R1) as (dx2 & E2 & R2 & N2).
  cbv zeta in R2, N2. rewrite Rmult_0_l in R2. set (x3 := fun k => x2 k - dx2 k) in *.
  assert (V3 : veq 2 x3 xs) by (destruct R2 as [A B]; intros k Hk; destruct k as [|[|]]; [lra|lra|lia]).
  assert (L2 : Rltb tol (norm2 2 dx2) = false) by (apply Rltb_false; rewrite N2; lra).
  destruct b.
  - exists x1. split.
    + intros fuel Hf. rewrite U. destruct fuel as [|fuel]; [lia|]. cbn [ml_newton]. now rewrite E.
    + intro HM. rewrite (proj2 (Rltb_false _ _) HM) in Eb. discriminate.
  - destruct (Rltb tol (norm2 2 dx)) eqn:Q0; [destruct (Rltb tol (norm2 2 dx1)) eqn:Q1|].
    + exists x3. split; [|intros _; now left]. intros fuel Hf. rewrite U. destruct fuel as [|[|[|fuel]]]; [lia..|]. cbn [ml_newton].
      rewrite E, Q0. fold x1. rewrite E1, Q1. change (fun k => p k - dx k - dx1 k) with x2. now rewrite E2, L2.
    + exists x2. split; [|intros _; now left]. intros fuel Hf. rewrite U. destruct fuel as [|[|[|fuel]]]; [lia..|]. cbn [ml_newton].
      rewrite E, Q0. fold x1. now rewrite E1, Q1.
    + exists x1. split.
      * intros fuel Hf. rewrite U. destruct fuel as [|[|[|fuel]]]; [lia..|]. cbn [ml_newton]. now rewrite E, Q0.
      * intros _. right. apply Rltb_false in Q0. unfold norm2 in *. cbn in *. unfold x1. rewrite P0, P1. lra.
Qed.
Print Assumptions C90_trapezoid.

(** ** a convex quadrilateral and a target for which local never returns in floating point *)
Definition kite0 : Vec := pt (-3) (-3).
Definition kite1 : Vec := pt 3 (-5).
Definition kite2 : Vec := pt (-5) 3.
Definition kite3 : Vec := pt 5 5.
(** the iterates are the centre and (-3/2, -3/2); no rounding takes place, in any precision *)
Lemma sf_value_s : forall prec emax (x : binary_float prec emax) s m e, B2SF x = SpecFloat.S754_finite s m e -> B2R x = IZR (if s : bool then Z.neg m else Z.pos m) * Raux.bpow Zaux.radix2 e.
Proof. intros prec emax [s|s| |s m' e' p] s' m e E; try discriminate E. injection E as -> -> ->. destruct s'; reflexivity. Qed.
Theorem C90_double_refuted : exists (c0 c1 c2 c3 y : nat -> binary_float 53 1024), convex (rvec c0) (rvec c1) (rvec c2) (rvec c3) 32 /\ forall jv jm jk j1 j2 fuel,
  fmlg_local 53 1024 p53 e1024 2 3 2 jv jm jk j1 j2 [c0; c1; c2; c3] fuel (fcenter 53 1024 p53 e1024 3 2) y = NwLoop 53 1024.
Proof.
  exists (two (dbl (-3) 0) (dbl (-3) 0)), (two (dbl 3 0) (dbl (-5) 0)), (two (dbl (-5) 0) (dbl 3 0)), (two (dbl 5 0) (dbl 5 0)), (fun _ => dbl (-16) 0). split.
  - assert (V3 : B2R (dbl 3 0) = 3) by (rewrite (sf_value_s _ _ _ false 6755399441055744 (-51)) by (vm_compute; reflexivity); cbn; lra).
    assert (W3 : B2R (dbl (-3) 0) = -3) by (rewrite (sf_value_s _ _ _ true 6755399441055744 (-51)) by (vm_compute; reflexivity); cbn; lra).
    assert (V5 : B2R (dbl 5 0) = 5) by (rewrite (sf_value_s _ _ _ false 5629499534213120 (-50)) by (vm_compute; reflexivity); cbn; lra).
    assert (W5 : B2R (dbl (-5) 0) = -5) by (rewrite (sf_value_s _ _ _ true 5629499534213120 (-50)) by (vm_compute; reflexivity); cbn; lra).
    unfold convex, jdet, bx, by_, pt, rvec, two. rewrite V3, W3, V5, W5. split; [lra|]. left. repeat split; lra.
  - intros jv jm jk j1 j2 fuel. rewrite local_false by (vm_compute; reflexivity).
    apply (cycle 53 1024 p53 e1024 jv jm jk j1 j2 _ _ (two (dbl 1 (-1)) (dbl 1 (-1))) (two (dbl (-3) (-1)) (dbl (-3) (-1))) (two (dbl 1 (-1)) (dbl 1 (-1))) (two (dbl (-3) (-1)) (dbl (-3) (-1))));
      [vm_compute; reflexivity..|apply B2SF_inj; vm_compute; reflexivity|apply B2SF_inj; vm_compute; reflexivity].
Qed.
Print Assumptions C90_double_refuted.
Theorem C90_single_refuted : exists (c0 c1 c2 c3 y : nat -> binary_float 24 128), convex (rvec c0) (rvec c1) (rvec c2) (rvec c3) 32 /\ forall jv jm jk j1 j2 fuel,
  fmlg_local 24 128 p24 e128 2 3 2 jv jm jk j1 j2 [c0; c1; c2; c3] fuel (fcenter 24 128 p24 e128 3 2) y = NwLoop 24 128.
Proof.
  exists (two (sgl (-3) 0) (sgl (-3) 0)), (two (sgl 3 0) (sgl (-5) 0)), (two (sgl (-5) 0) (sgl 3 0)), (two (sgl 5 0) (sgl 5 0)), (fun _ => sgl (-16) 0). split.
  - assert (V3 : B2R (sgl 3 0) = 3) by (rewrite (sf_value_s _ _ _ false 12582912 (-22)) by (vm_compute; reflexivity); cbn; lra).
    assert (W3 : B2R (sgl (-3) 0) = -3) by (rewrite (sf_value_s _ _ _ true 12582912 (-22)) by (vm_compute; reflexivity); cbn; lra).
    assert (V5 : B2R (sgl 5 0) = 5) by (rewrite (sf_value_s _ _ _ false 10485760 (-21)) by (vm_compute; reflexivity); cbn; lra).
    assert (W5 : B2R (sgl (-5) 0) = -5) by (rewrite (sf_value_s _ _ _ true 10485760 (-21)) by (vm_compute; reflexivity); cbn; lra).
    unfold convex, jdet, bx, by_, pt, rvec, two. rewrite V3, W3, V5, W5. split; [lra|]. left. repeat split; lra.
  - intros jv jm jk j1 j2 fuel. rewrite local_false by (vm_compute; reflexivity).
    apply (cycle 24 128 p24 e128 jv jm jk j1 j2 _ _ (two (sgl 1 (-1)) (sgl 1 (-1))) (two (sgl (-3) (-1)) (sgl (-3) (-1))) (two (sgl 1 (-1)) (sgl 1 (-1))) (two (sgl (-3) (-1)) (sgl (-3) (-1))));
      [vm_compute; reflexivity..|apply B2SF_inj; vm_compute; reflexivity|apply B2SF_inj; vm_compute; reflexivity].
Qed.
Print Assumptions C90_single_refuted.

(** the kite is convex, is not a trapezoid, and local is defined for its corners *)
Example C90_example : convex kite0 kite1 kite2 kite3 32 /\ jdet kite0 kite1 kite2 kite3 center = 64 /\ ~ parallel kite0 kite1 kite2 kite3 /\ ~ parallel kite0 kite2 kite1 kite3 /\
  norm2 2 (mixed kite0 kite1 kite2 kite3) = 32 /\ exists r, ml_wf 2 (quad kite0 kite1 kite2 kite3 r).
Proof.
  split; [|split; [|split; [|split; [|split]]]].
  - unfold convex, jdet, bx, by_, kite0, kite1, kite2, kite3, pt. split; [lra|]. left. repeat split; lra.
  - unfold jdet, bx, by_, center, kite0, kite1, kite2, kite3, pt. lra.
  - unfold parallel, kite0, kite1, kite2, kite3, pt. lra.
  - unfold parallel, kite0, kite1, kite2, kite3, pt. lra.
  - unfold norm2, mixed, kite0, kite1, kite2, kite3, pt. cbn. lra.
  - apply quad_wf.
Qed.
