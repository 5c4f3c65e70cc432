(** C63: the iteration in MultiLinearGeometry::local (multilineargeometry.hh:312-334). *)
From Coq Require Import PeanoNat NArith Lia Bool List Reals Lra FunctionalExtensionality.
From Coquelicot Require Import Coquelicot.
From Verif Require Import M_Type M_RefTopo M_RefGeo M_Matrix M_MultiLinear S_Topo S_RefGeo S_Matrix S_MultiLinear P_Topo P_RSum P_RefGeo P_RefGeo2 P_RefGeo3
  P_Det P_MxBridge P_DetInv P_Matrix P_Matrix3 P_Matrix4 P_RefVol P_ML1 P_ML2 P_ML3 P_ML5 P_RefTopo2 P_Volume T_RefGeo T_Matrix T_MultiLinear T_Volume M_GaussNewton P_GaussNewton P_Newton P_Newton2.
Import ListNotations.
Local Open Scope R_scope.

Lemma amgm a b t : a * a + b * b <= t -> 2 * (Rabs a * Rabs b) <= t.
Proof.
  intro H. assert (0 <= (Rabs a - Rabs b) * (Rabs a - Rabs b)) by apply Rle_0_sqr.
  replace (a * a) with (Rabs a * Rabs a) in H by exact (eq_sym (Rsqr_abs a)). replace (b * b) with (Rabs b * Rabs b) in H by exact (eq_sym (Rsqr_abs b)). lra.
Qed.

Lemma ratio1 al be p q Ds U : Ds <> 0 -> U <> 0 -> al * be * (p * q / (Ds * U)) / Ds = al * p / Ds * (be * q / Ds) / U.
Proof. intros. field. auto. Qed.
Lemma ratio2 be p q Ds U : Ds <> 0 -> U <> 0 -> p * q / (Ds * U) * be = p * (be * q / Ds) / U.
Proof. intros. field. auto. Qed.
Lemma ratio3 al be p q Ds U V : Ds <> 0 -> U <> 0 -> V <> 0 ->
  p * q / (Ds * U) * (al * p / Ds * (be * q / Ds)) / V * (p * q / (Ds * U) * (al * p / Ds * (be * q / Ds)) / V) * Ds ^ 6 * (V * V) * (U * U) = (p * q) ^ 4 * (al * be) ^ 2.
Proof. intros. field. auto. Qed.

(** A planar quadrilateral whose Jacobian determinant has one sign at the corners, and a point
    of it with a nonzero determinant.  local() returns after finitely many steps, and the
    returned coordinates are off by at most the tolerance times the relative change of the
    determinant, whatever the shape. *)
Theorem C63_convex_quadrilateral :
  forall tol jv jm jk j1 j2 g s xs y Js aff jt, 0 < tol -> ml_wf 2 g -> ml_id g = 2%N \/ ml_id g = 3%N -> s = 1 \/ s = -1 ->
    (forall p J, In p (referenceCorners (ml_id g) 2) -> mlg_jacobianTransposed 2 2 tol jm jk g p = Some J -> 0 <= s * detR 2 J) ->
    inside_ref 2 g xs -> mlg_global 2 2 tol jv g xs = Some y ->
    mlg_jacobianTransposed 2 2 tol jm jk g xs = Some Js -> detR 2 Js <> 0 ->
    mlg_affine 2 2 tol jm jk g = Some (aff, jt) ->
    exists D1 D2 z,
      (forall x J, mlg_jacobianTransposed 2 2 tol jm jk g x = Some J -> detR 2 J = detR 2 Js + D1 * (x 0%nat - xs 0%nat) + D2 * (x 1%nat - xs 1%nat)) /\
      (aff = false ->
         (forall n fuel, (D1 * D2) ^ 2 * (D1 ^ 2 + D2 ^ 2) <= 16 * tol * 4 ^ n * detR 2 Js ^ 6 -> (n + 3 <= fuel)%nat ->
            mlg_local 2 2 tol jv jm jk j1 j2 fuel g y = Done (LocPt z)) /\
         sqrt (norm2 2 (fun k => z k - xs k)) * Rabs (detR 2 Js) <= tol * sqrt (D1 ^ 2 + D2 ^ 2)) /\
      (aff = true ->
         (forall fuel, mlg_local 2 2 tol jv jm jk j1 j2 (S fuel) g y = Done (LocPt z)) /\
         sqrt (norm2 2 (fun k => z k - xs k)) * Rabs (detR 2 Js) <= / 2 * sqrt (D1 ^ 2 + D2 ^ 2)).
Proof.
  intros tol jv jm jk j1 j2 g s xs y Js aff jt Ht wf Hid Hs HC HI Hy EJs HDs EA. assert (Ht0 : 0 <= tol) by lra.
  destruct (quad_corners g wf Hid) as (c0 & c1 & c2 & c3 & EC). set (al := qal c0 c1 c2 c3). set (be := qbe c0 c1 c2 c3). set (f := qdet c0 c1 c2 c3).
  assert (JD : forall x J, mlg_jacobianTransposed 2 2 tol jm jk g x = Some J -> detR 2 J = f (x 0%nat) (x 1%nat)).
  { intros x J EJ. destruct (quad_jt g tol jm jk x c0 c1 c2 c3 Ht0 wf Hid EC) as (J' & E' & V). assert (J' = J) by congruence. now subst J'. }
  rewrite (JD xs Js EJs) in *. set (Ds := f (xs 0%nat) (xs 1%nat)) in *.
  assert (CM : forall u v, (u = 0 \/ u = 1) -> (v = 0 \/ v = 1) -> 0 <= s * f u v).
  { intros u v Hu Hv. assert (exists p, In p (referenceCorners (ml_id g) 2) /\ p 0%nat = u /\ p 1%nat = v) as (p & Hp & <- & <-).
    - destruct Hid as [H|H]; rewrite H; cbn; destruct Hu as [-> | ->], Hv as [-> | ->];
      first [eexists; split; [left; reflexivity|cbn; unfold vzero; split; reflexivity]|eexists; split; [right; left; reflexivity|cbn; unfold vzero; split; reflexivity]|eexists; split; [right; right; left; reflexivity|cbn; unfold vzero; split; reflexivity]|eexists; split; [right; right; right; left; reflexivity|cbn; unfold vzero; split; reflexivity]].
    - destruct (quad_jt g tol jm jk p c0 c1 c2 c3 Ht0 wf Hid EC) as (J & EJ & VJ). unfold f. rewrite <- VJ. now apply (HC p J). }
  assert (AF : forall u v p q, f (u + p) (v + q) = f u v + al * p + be * q) by (intros; apply qdet_affine).
  assert (NN : forall u v, 0 <= u <= 1 -> 0 <= v <= 1 -> 0 <= s * f u v).
  { intros u v Hu Hv. assert (E1 := AF 0 0 1 0). assert (E2 := AF 0 0 0 1). assert (E3 := AF 0 0 1 1). assert (E4 := AF 0 0 u v).
    rewrite !Rplus_0_l, ?Rmult_0_r, ?Rmult_1_r, ?Rplus_0_r in *.
    assert (P0 := CM 0 0 ltac:(lra) ltac:(lra)). assert (P1 := CM 1 0 ltac:(lra) ltac:(lra)). assert (P2 := CM 0 1 ltac:(lra) ltac:(lra)). assert (P3 := CM 1 1 ltac:(lra) ltac:(lra)).
    replace (s * f u v) with ((1 - u) * (1 - v) * (s * f 0 0) + u * (1 - v) * (s * f 1 0) + (1 - u) * v * (s * f 0 1) + u * v * (s * f 1 1)) by (rewrite E4, E3, E2, E1; ring).
    repeat apply Rplus_le_le_0_compat; apply Rmult_le_pos; auto; apply Rmult_le_pos; lra. }
  destruct (quad_centre g wf Hid) as (x0 & EP & X0 & X1). apply (quad_in g Hid) in HI.
  set (p := x0 0%nat - xs 0%nat). set (q := x0 1%nat - xs 1%nat). assert (Rp : Rabs p <= 1/2) by (unfold p; rewrite X0; apply Rabs_le; lra). assert (Rq : Rabs q <= 1/2) by (unfold q; rewrite X1; apply Rabs_le; lra).
  set (A := al * p / Ds). set (B := be * q / Ds).
  assert (PS : 0 < s * Ds).
  { assert (0 <= s * Ds) by (apply NN; tauto). assert (s * Ds <> 0) by (apply Rmult_integral_contrapositive_currified; [destruct Hs; lra|exact HDs]). lra. }
  assert (RT : forall r u v, f u v = Ds * r -> 0 <= u <= 1 -> 0 <= v <= 1 -> 0 <= r).
  { intros r u v E Hu Hv. assert (N := NN u v Hu Hv). rewrite E in N. replace (s * (Ds * r)) with (s * Ds * r) in N by ring.
    destruct (Rle_lt_dec 0 r) as [|L]; [assumption|]. assert (0 < s * Ds * - r) by (apply Rmult_lt_0_compat; lra). lra. }
  assert (HA : 0 <= 1 + 2 * A).
  { apply (RT _ (xs 0%nat + 2 * p) (xs 1%nat + 0)); [rewrite AF; fold Ds; unfold A; field; exact HDs|unfold p; lra|lra]. }
  assert (HB : 0 <= 1 + 2 * B).
  { apply (RT _ (xs 0%nat + 0) (xs 1%nat + 2 * q)); [rewrite AF; fold Ds; unfold B; field; exact HDs|lra|unfold q; lra]. }
  assert (HAB : 0 <= 1 + 2 * A + 2 * B).
  { apply (RT _ (xs 0%nat + 2 * p) (xs 1%nat + 2 * q)); [rewrite AF; fold Ds; unfold A, B; field; exact HDs|unfold p; lra|unfold q; lra]. }
  assert (W : 1/2 <= 1 + A + B + 2 * (A * B)) by nra.
  assert (D0 : f (x0 0%nat) (x0 1%nat) = Ds * (1 + A + B)).
  { replace (x0 0%nat) with (xs 0%nat + p) by (unfold p; ring). replace (x0 1%nat) with (xs 1%nat + q) by (unfold q; ring). rewrite AF. fold Ds. unfold A, B. field. exact HDs. }
  assert (NZ0 : f (x0 0%nat) (x0 1%nat) <> 0) by (rewrite D0; apply Rmult_integral_contrapositive_currified; [exact HDs|lra]).
  assert (Hxs : forall k, (k < 2)%nat -> qmap c0 c1 c2 c3 xs k = y k).
  { destruct (quad_global 2 tol jv g c0 c1 c2 c3 wf Hid EC xs) as (G & EG & VG). assert (G = y) by congruence. subst G. intros k Hk. symmetry. now apply VG. }
  destruct (proj1 (step_spec tol jv jm jk j1 j2 g c0 c1 c2 c3 Ht0 wf Hid EC y x0) NZ0) as (dx & E & _).
  destruct (step_error tol jv jm jk j1 j2 g c0 c1 c2 c3 Ht0 wf Hid EC y x0 xs dx NZ0 Hxs E) as [E0 E1]. fold p q al be f in E0, E1.
  set (t := p * q / f (x0 0%nat) (x0 1%nat)) in *.
  assert (AL : along c0 c1 c2 c3 xs t (fun k => x0 k - dx k)) by (split; assumption).
  assert (TD : Rabs t * Rabs Ds = Rabs p * Rabs q / (1 + A + B)).
  { unfold t. rewrite D0. rewrite <- Rabs_mult. replace (p * q / (Ds * (1 + A + B)) * Ds) with (p * q * / (1 + A + B)) by (field; split; [lra|exact HDs]).
    rewrite !Rabs_mult. rewrite (Rabs_pos_eq (/ (1 + A + B))) by (apply Rlt_le, Rinv_0_lt_compat; lra). reflexivity. }
  assert (MQ : al ^ 2 + be ^ 2 = be * be + al * al) by ring.
  assert (PQ : Rabs p * Rabs q <= 1/4).
  { replace (1/4) with (1/2 * (1/2)) by lra. apply Rmult_le_compat; auto; apply Rabs_pos. }
  exists al, be. destruct aff.
  - exists (fun k => x0 k - dx k). split; [|split; [discriminate|intros _; split]].
    + intros x J EJ. rewrite (JD x J EJ). unfold Ds. rewrite <- AF. f_equal; ring.
    + intro fuel. unfold mlg_local. rewrite EP, EA. cbn [ml_newton]. rewrite E. reflexivity.
    + rewrite (along_norm c0 c1 c2 c3 xs t _ AL), sqrt_sq_mul, MQ. replace (Rabs t * sqrt (qbe c0 c1 c2 c3 * qbe c0 c1 c2 c3 + qal c0 c1 c2 c3 * qal c0 c1 c2 c3) * Rabs Ds) with (Rabs t * Rabs Ds * sqrt (be * be + al * al)) by (unfold al, be; ring).
      apply Rmult_le_compat_r; [apply sqrt_pos|]. rewrite TD. apply (Rmult_le_reg_r (1 + A + B)); [lra|]. unfold Rdiv. rewrite Rmult_assoc, Rinv_l by lra. lra.
  - assert (SG : 0 < 1 + 2 * sg c0 c1 c2 c3 xs t /\ sg c0 c1 c2 c3 xs t = A * B / (1 + A + B)).
    { assert (ES : sg c0 c1 c2 c3 xs t = A * B / (1 + A + B)).
      { unfold sg, t. rewrite D0. fold al be f Ds. assert (NU : 1 + A + B <> 0) by lra. exact (ratio1 al be p q Ds _ HDs NU). }
      split; [|exact ES]. rewrite ES. replace (1 + 2 * (A * B / (1 + A + B))) with ((1 + A + B + 2 * (A * B)) * / (1 + A + B)) by (field; lra).
      apply Rmult_lt_0_compat; [lra|]. apply Rinv_0_lt_compat. lra. }
    destruct SG as [SG ES].
    assert (T2 : forall n, (al * be) ^ 2 * (al ^ 2 + be ^ 2) <= 16 * tol * 4 ^ n * Ds ^ 6 ->
      let t' := t * sg c0 c1 c2 c3 xs t / (1 + 2 * sg c0 c1 c2 c3 xs t) in t' * t' * (be * be + al * al) <= tol * 4 ^ n).
    { intros n Hn t'. assert (Et : t' = t * (A * B) / (1 + A + B + 2 * (A * B))).
      { unfold t'. rewrite ES. field. repeat split; lra. }
      set (V := 1 + A + B + 2 * (A * B)) in *. set (U := 1 + A + B) in *.
      assert (Et2 : t' * t' * Ds ^ 6 * (V * V) * (U * U) = (p * q) ^ 4 * (al * be) ^ 2).
      { rewrite Et. unfold t. rewrite D0. fold U. apply (ratio3 al be p q Ds U V HDs); unfold U; lra. }
      assert (P4 : (p * q) ^ 4 <= 1 / 256).
      { replace ((p * q) ^ 4) with ((Rabs p * Rabs q) ^ 4).
        - replace (1/256) with ((1/4) ^ 4) by lra. apply pow_incr. split; [|exact PQ]. apply Rmult_le_pos; apply Rabs_pos.
        - rewrite <- Rabs_mult. rewrite RPow_abs. apply Rabs_pos_eq. replace ((p * q) ^ 4) with (Rsqr ((p * q) ^ 2)) by (unfold Rsqr; ring). apply Rle_0_sqr. }
      assert (PD : 0 < Ds ^ 6) by (replace (Ds ^ 6) with (Rsqr (Ds ^ 3)) by (unfold Rsqr; ring); apply Rsqr_pos_lt; now apply pow_nonzero).
      assert (VU : 1/16 <= (V * V) * (U * U)).
      { assert (1/2 <= U) by (unfold U; lra). assert (1/4 <= V * V) by nra. assert (1/4 <= U * U) by nra. nra. }
      assert (PM : 0 <= be * be + al * al) by (assert (0 <= be * be) by apply Rle_0_sqr; assert (0 <= al * al) by apply Rle_0_sqr; lra).
      apply (Rmult_le_reg_r (Ds ^ 6)); [exact PD|].
      set (m := be * be + al * al) in *. rewrite MQ in Hn. set (ab := (al * be) ^ 2) in *. assert (0 <= ab) by (unfold ab; rewrite <- Rsqr_pow2; apply Rle_0_sqr).
      assert (Q1 : t' * t' * m * Ds ^ 6 * (1/16) <= (p * q) ^ 4 * ab * m).
      { apply Rle_trans with (t' * t' * m * Ds ^ 6 * (V * V * (U * U))).
        - apply Rmult_le_compat_l; [|exact VU]. apply Rmult_le_pos; [|lra]. apply Rmult_le_pos; [apply Rle_0_sqr|exact PM].
        - right. rewrite <- Et2. ring. }
      assert (Q2 : (p * q) ^ 4 * ab * m <= 1/256 * (ab * m)).
      { replace ((p * q) ^ 4 * ab * m) with ((p * q) ^ 4 * (ab * m)) by ring. apply Rmult_le_compat_r; [apply Rmult_le_pos; assumption|exact P4]. }
      lra. }
    assert (GO : forall n, (al * be) ^ 2 * (al ^ 2 + be ^ 2) <= 16 * tol * 4 ^ n * Ds ^ 6 ->
      exists z, ml_newton 2 2 tol jv jm jk j1 j2 (S (S (S n))) g false y x0 = Done (LocPt z) /\ close tol c0 c1 c2 c3 xs z).
    { intros n Hn. remember (S (S n)) as m. cbn [ml_newton]. rewrite E. destruct (Rltb tol (norm2 2 dx)) eqn:L.
      - subst m. apply (along_start tol jv jm jk j1 j2 g c0 c1 c2 c3 Ht0 wf Hid EC y xs Hxs HDs n t); [exact AL|exact SG|]. now apply T2.
      - eexists. split; [reflexivity|]. unfold close. rewrite (along_norm c0 c1 c2 c3 xs t _ AL), sqrt_sq_mul. fold al be f Ds.
        assert (LE : norm2 2 dx <= tol) by (destruct (Rle_lt_dec (norm2 2 dx) tol) as [|Q]; [assumption|]; apply Rltb_true in Q; congruence).
        unfold norm2 in LE. cbn [rsum] in LE. rewrite Rplus_0_l in LE. apply amgm in LE.
        assert (X : dx 0%nat = p * (1 + A) / (1 + A + B)).
        { transitivity (p - t * be); [unfold p; lra|]. replace (t * be) with (p * B / (1 + A + B)) by (unfold t; rewrite D0; symmetry; apply (ratio2 be p q Ds _ HDs); lra). field. lra. }
        assert (Y : dx 1%nat = q * (1 + B) / (1 + A + B)).
        { transitivity (q - t * al); [unfold q; lra|]. replace (t * al) with (q * A / (1 + A + B)) by (unfold t; rewrite D0, (Rmult_comm p q); symmetry; apply (ratio2 al q p Ds _ HDs); lra). field. lra. }
        rewrite X, Y in LE. unfold Rdiv in LE. rewrite !Rabs_mult in LE. rewrite (Rabs_pos_eq (1 + A)), (Rabs_pos_eq (1 + B)), (Rabs_pos_eq (/ (1 + A + B))) in LE by (try lra; apply Rlt_le, Rinv_0_lt_compat; lra).
        replace (Rabs t * sqrt (be * be + al * al) * Rabs Ds) with (Rabs t * Rabs Ds * sqrt (be * be + al * al)) by ring.
        apply Rmult_le_compat_r; [apply sqrt_pos|]. rewrite TD. eapply Rle_trans; [|exact LE]. set (U := 1 + A + B) in *.
        assert (0 < U) by (unfold U; lra). replace (2 * (Rabs p * (1 + A) * / U * (Rabs q * (1 + B) * / U))) with (Rabs p * Rabs q / U * ((2 * ((1 + A) * (1 + B))) * / U)) by (field; lra).
        rewrite <- (Rmult_1_r (Rabs p * Rabs q / U)) at 1. apply Rmult_le_compat_l.
        + apply Rmult_le_pos; [apply Rmult_le_pos; apply Rabs_pos|apply Rlt_le, Rinv_0_lt_compat; lra].
        + apply (Rmult_le_reg_r U); [lra|]. rewrite Rmult_assoc, Rinv_l by lra. unfold U in *. lra. }
    assert (EX : exists n, (al * be) ^ 2 * (al ^ 2 + be ^ 2) <= 16 * tol * 4 ^ n * Ds ^ 6).
    { assert (PD : 0 < 16 * tol * Ds ^ 6).
      { apply Rmult_lt_0_compat; [lra|]. replace (Ds ^ 6) with (Rsqr (Ds ^ 3)) by (unfold Rsqr; ring). apply Rsqr_pos_lt. now apply pow_nonzero. }
      destruct (Pow_x_infinity 4 ltac:(rewrite Rabs_pos_eq; lra) ((al * be) ^ 2 * (al ^ 2 + be ^ 2) / (16 * tol * Ds ^ 6))) as (n & Hn).
      exists n. specialize (Hn n (le_n n)). rewrite Rabs_pos_eq in Hn by (apply pow_le; lra). apply Rge_le in Hn.
      apply (Rmult_le_compat_r (16 * tol * Ds ^ 6)) in Hn; [|lra]. unfold Rdiv in Hn. rewrite Rmult_assoc, Rinv_l in Hn by lra. lra. }
    destruct EX as (n0 & Hn0). destruct (GO n0 Hn0) as (z & Hz & Cz). exists z. split; [|split; [intros _; split|discriminate]].
    + intros x J EJ. rewrite (JD x J EJ). unfold Ds. rewrite <- AF. f_equal; ring.
    + intros n fuel Hn Hf. destruct (GO n Hn) as (z' & Hz' & _). unfold mlg_local. rewrite EP, EA.
      assert (ND : forall w, Done (LocPt w) <> OutOfFuel) by discriminate.
      assert (M1 := newton_mono 2 2 tol jv jm jk j1 j2 g false y _ (ND z) (S (S (S n0))) (fuel + S (S (S n0))) x0 ltac:(lia) Hz).
      assert (M2 := newton_mono 2 2 tol jv jm jk j1 j2 g false y _ (ND z') (S (S (S n))) fuel x0 ltac:(lia) Hz').
      assert (M3 := newton_mono 2 2 tol jv jm jk j1 j2 g false y _ (ND z') (S (S (S n))) (fuel + S (S (S n0))) x0 ltac:(lia) Hz'). rewrite M2. congruence.
    + unfold close in Cz. fold al be f Ds in Cz. now rewrite MQ.
Qed.
Print Assumptions C63_convex_quadrilateral.

(** in particular it returns *)
Corollary C63_convex_returns :
  forall tol jv jm jk j1 j2 g xs y, 0 < tol -> ml_wf 2 g -> ml_id g = 2%N \/ ml_id g = 3%N ->
    (forall x, inside_ref 2 g x -> exists d, mlg_integrationElement 2 2 tol jm jk j1 j2 g x = Some d /\ 0 < d) ->
    inside_ref 2 g xs -> mlg_global 2 2 tol jv g xs = Some y ->
    exists N z, forall fuel, (N <= fuel)%nat -> mlg_local 2 2 tol jv jm jk j1 j2 fuel g y = Done (LocPt z).
Proof.
  intros tol jv jm jk j1 j2 g xs y Ht wf Hid HI Hx Hy. assert (Ht0 : 0 <= tol) by lra.
  destruct (proj1 (C62_regular tol jm jk j1 j2 g Ht0 wf Hid) HI) as (s & Hs & HC).
  destruct (quad_corners g wf Hid) as (c0 & c1 & c2 & c3 & EC).
  destruct (quad_jt g tol jm jk xs c0 c1 c2 c3 Ht0 wf Hid EC) as (Js & EJ & VJ).
  assert (NZ : detR 2 Js <> 0).
  { destruct (HI xs Hx) as (d & Ed & Pd). rewrite (quad_intEl g tol jm jk j1 j2 xs c0 c1 c2 c3 Ht0 wf Hid EC) in Ed. rewrite VJ. intro Z. rewrite Z, Rabs_R0 in Ed. injection Ed as <-. lra. }
  destruct (affine_flag 2 2 tol g wf jm jk) as (jt & EA & _). match type of EA with _ = Some (?b, _) => remember b as aff end.
  destruct (C63_convex_quadrilateral tol jv jm jk j1 j2 g s xs y Js aff jt Ht wf Hid Hs ltac:(intros p J Hp E; apply Rlt_le; exact (HC p J Hp E)) Hx Hy EJ NZ EA) as (D1 & D2 & z & _ & HF & HT).
  destruct aff.
  - exists 1%nat, z. intros [|fuel] L; [lia|]. now apply (proj1 (HT eq_refl)).
  - assert (PD : 0 < 16 * tol * detR 2 Js ^ 6).
    { apply Rmult_lt_0_compat; [lra|]. replace (detR 2 Js ^ 6) with (Rsqr (detR 2 Js ^ 3)) by (unfold Rsqr; ring). apply Rsqr_pos_lt. now apply pow_nonzero. }
    destruct (Pow_x_infinity 4 ltac:(rewrite Rabs_pos_eq; lra) ((D1 * D2) ^ 2 * (D1 ^ 2 + D2 ^ 2) / (16 * tol * detR 2 Js ^ 6))) as (n & Hn).
    exists (n + 3)%nat, z. intros fuel L. apply (proj1 (HF eq_refl) n); [|exact L]. specialize (Hn n (le_n n)). rewrite Rabs_pos_eq in Hn by (apply pow_le; lra). apply Rge_le in Hn.
    apply (Rmult_le_compat_r (16 * tol * detR 2 Js ^ 6)) in Hn; [|lra]. unfold Rdiv in Hn. rewrite Rmult_assoc, Rinv_l in Hn by lra. lra.
Qed.
Print Assumptions C63_convex_returns.

(** Any planar quadrilateral and any target: a returned point is mapped to the target up to
    half the tolerance times the length of c0 - c1 - c2 + c3. *)
Theorem C63_residual :
  forall tol jv jm jk j1 j2 g c0 c1 c2 c3 y z fuel jt, 0 <= tol -> ml_wf 2 g -> ml_id g = 2%N \/ ml_id g = 3%N -> ml_corners g = [c0; c1; c2; c3] ->
    mlg_affine 2 2 tol jm jk g = Some (false, jt) ->
    mlg_local 2 2 tol jv jm jk j1 j2 fuel g y = Done (LocPt z) ->
    exists G, mlg_global 2 2 tol jv g z = Some G /\
      two_norm 2 (fun k => G k - y k) <= tol / 2 * two_norm 2 (fun k => c0 k - c1 k - c2 k + c3 k).
Proof.
  intros tol jv jm jk j1 j2 g c0 c1 c2 c3 y z fuel jt Ht wf Hid EC EA H. unfold mlg_local in H.
  destruct (re_position (ml_id g) 2 (ml_ref g) 0 0) as [x0|]; [|discriminate]. rewrite EA in H.
  destruct (newton_pt _ _ _ _ _ _ _ _ _ _ _ _ _ _ H) as (x & dx & S & Ez & B). destruct B as [B|B]; [discriminate|].
  destruct (step_spec tol jv jm jk j1 j2 g c0 c1 c2 c3 Ht wf Hid EC y x) as [H1 H2].
  assert (NZ : qdet c0 c1 c2 c3 (x 0%nat) (x 1%nat) <> 0) by (intro Z; destruct (H2 Z) as (w & Q); congruence).
  destruct (H1 NZ) as (dx' & Q & V). assert (dx' = dx) by congruence. subst dx'.
  destruct (quad_global 2 tol jv g c0 c1 c2 c3 wf Hid EC z) as (G & EG & VG). exists G. split; [exact EG|].
  assert (GY : veq 2 (fun k => G k - y k) (fun k => (dx 0%nat * dx 1%nat) * (c0 k - c1 k - c2 k + c3 k))).
  { intros k Hk. rewrite (VG k Hk), Ez. assert (W := V k Hk).
    replace (qmap c0 c1 c2 c3 (fun k0 => x k0 - dx k0) k) with (qmap c0 c1 c2 c3 x k - ((c1 k - c0 k + x 1%nat * qd c0 c1 c2 c3 k) * dx 0%nat + (c2 k - c0 k + x 0%nat * qd c0 c1 c2 c3 k) * dx 1%nat) + dx 0%nat * dx 1%nat * qd c0 c1 c2 c3 k) by (unfold qmap, qd; ring).
    rewrite W. unfold qd. ring. }
  change (nrm 2 (fun k => G k - y k) <= tol / 2 * nrm 2 (fun k => c0 k - c1 k - c2 k + c3 k)).
  rewrite (nrm_ext _ _ _ GY), nrm_scal. apply Rmult_le_compat_r; [apply nrm_nonneg|].
  unfold norm2 in B. cbn [rsum] in B. rewrite Rplus_0_l in B. apply amgm in B. rewrite Rabs_mult. lra.
Qed.
Print Assumptions C63_residual.

(** Any geometry, in any dimension: if around a solution the Jacobians are bounded below and
    the first order expansion has a quadratic remainder, and the centre is in that
    neighbourhood, the number of correct digits doubles in every step. *)
Theorem C63_quadratic :
  forall mydim cdim tol jv jm jk j1 j2 g y xs c r beta K jt, (mydim <= cdim)%nat -> 0 < tol ->
    re_position (ml_id g) mydim (ml_ref g) 0 0 = Some c -> mlg_affine mydim cdim tol jm jk g = Some (false, jt) ->
    two_norm mydim (fun k => c k - xs k) <= r -> 0 <= beta -> 0 <= K -> beta * K * r < 1 ->
    (forall x, two_norm mydim (fun k => x k - xs k) <= r ->
       exists G J, mlg_global mydim cdim tol jv g x = Some G /\ mlg_jacobianTransposed mydim cdim tol jm jk g x = Some J /\
         (forall z, two_norm mydim z <= beta * two_norm cdim (mvec mydim (mtr J) z)) /\
         two_norm cdim (fun k => G k - y k - mvec mydim (mtr J) (fun j => x j - xs j) k) <= K * norm2 mydim (fun j => x j - xs j)) ->
    exists z,
      (forall n fuel, 4 * r ^ 2 * (beta * K * r) ^ (2 * (2 ^ n - 1)) <= tol -> (n < fuel)%nat ->
         mlg_local mydim cdim tol jv jm jk j1 j2 fuel g y = Done (LocPt z)) /\
      (exists n, 4 * r ^ 2 * (beta * K * r) ^ (2 * (2 ^ n - 1)) <= tol) /\
      two_norm mydim (fun k => z k - xs k) * (1 - beta * K * r) ^ 2 <= beta * K * tol.
Proof.
  intros mydim cdim tol jv jm jk j1 j2 g y xs c r beta K jt Hd Ht EP EA Hc Hb HK Hq HX. assert (Ht0 : 0 <= tol) by lra.
  assert (Hr : 0 <= r) by (eapply Rle_trans; [apply two_norm_nonneg|exact Hc]).
  assert (Hbk : 0 <= beta * K * r) by (apply Rmult_le_pos; [apply Rmult_le_pos|]; assumption).
  assert (GO : forall n, 4 * r ^ 2 * (beta * K * r) ^ (2 * (2 ^ n - 1)) <= tol -> exists z, ml_newton mydim cdim tol jv jm jk j1 j2 (S n) g false y c = Done (LocPt z) /\
     two_norm mydim (fun k => z k - xs k) * (1 - beta * K * r) ^ 2 <= beta * K * tol).
  { intros n Hn. apply (local_loop mydim cdim tol jv jm jk j1 j2 g y xs r beta K Hd Hb HK Ht0 Hq HX n c r Hc (Rle_refl r) Hn). }
  assert (EX : exists n, 4 * r ^ 2 * (beta * K * r) ^ (2 * (2 ^ n - 1)) <= tol).
  { set (q := beta * K * r) in *. assert (PR : 0 < 4 * r ^ 2 + 1) by (assert (0 <= r ^ 2) by (apply pow_le; exact Hr); lra).
    destruct (pow_lt_1_zero q ltac:(rewrite Rabs_pos_eq; assumption) (tol / (4 * r ^ 2 + 1)) ltac:(apply Rdiv_lt_0_compat; assumption)) as (n & Hn).
    exists n. assert (L : (n <= 2 * (2 ^ n - 1))%nat) by (clear; assert (n + 1 <= 2 ^ n)%nat by (induction n; cbn; lia); lia).
    specialize (Hn _ L). rewrite Rabs_pos_eq in Hn by (apply pow_le; exact Hbk). set (w := q ^ (2 * (2 ^ n - 1))) in *. assert (0 <= w) by (apply pow_le; exact Hbk).
    apply Rlt_le, (Rmult_le_compat_l (4 * r ^ 2 + 1)) in Hn; [|lra]. replace ((4 * r ^ 2 + 1) * (tol / (4 * r ^ 2 + 1))) with tol in Hn by (field; lra). lra. }
  destruct EX as (n0 & Hn0). destruct (GO n0 Hn0) as (z & Hz & Bz). exists z. split; [|split; [exists n0; exact Hn0|exact Bz]].
  intros n fuel Hn Hf. destruct (GO n Hn) as (z' & Hz' & _). unfold mlg_local. rewrite EP, EA.
  assert (ND : forall w, Done (LocPt w) <> OutOfFuel) by discriminate.
  assert (M1 := newton_mono mydim cdim tol jv jm jk j1 j2 g false y _ (ND z) (S n0) (fuel + S n0) c ltac:(lia) Hz).
  assert (M2 := newton_mono mydim cdim tol jv jm jk j1 j2 g false y _ (ND z') (S n) fuel c ltac:(lia) Hz').
  assert (M3 := newton_mono mydim cdim tol jv jm jk j1 j2 g false y _ (ND z') (S n) (fuel + S n0) c ltac:(lia) Hz'). rewrite M2. congruence.
Qed.
Print Assumptions C63_quadratic.

(** Quadrilaterals in a space of any dimension, from the Jacobian at the solution alone: [h]
    below 2/3, where h = beta * twist * distance of the solution to the centre *)
Theorem C63_bilinear_surface :
  forall cdim tol jv jm jk j1 j2 g c0 c1 c2 c3 y xs c Js beta r jt, (2 <= cdim)%nat -> 0 < tol -> ml_wf 2 g -> ml_id g = 2%N \/ ml_id g = 3%N ->
    ml_corners g = [c0; c1; c2; c3] ->
    re_position (ml_id g) 2 (ml_ref g) 0 0 = Some c -> mlg_affine 2 cdim tol jm jk g = Some (false, jt) ->
    mlg_global 2 cdim tol jv g xs = Some y -> mlg_jacobianTransposed 2 cdim tol jm jk g xs = Some Js ->
    0 <= beta -> (forall z, two_norm 2 z <= beta * two_norm cdim (mvec 2 (mtr Js) z)) ->
    two_norm 2 (fun k => c k - xs k) <= r ->
    let h := beta * two_norm cdim (fun k => c0 k - c1 k - c2 k + c3 k) * r in
    h < 2/3 ->
    exists z,
      (forall n fuel, 4 * r ^ 2 * (h / (2 * (1 - h))) ^ (2 * (2 ^ n - 1)) <= tol -> (n < fuel)%nat ->
         mlg_local 2 cdim tol jv jm jk j1 j2 fuel g y = Done (LocPt z)) /\
      (exists n, 4 * r ^ 2 * (h / (2 * (1 - h))) ^ (2 * (2 ^ n - 1)) <= tol) /\
      r * (two_norm 2 (fun k => z k - xs k) * (1 - h / (2 * (1 - h))) ^ 2) <= h / (2 * (1 - h)) * tol.
Proof.
  intros cdim tol jv jm jk j1 j2 g c0 c1 c2 c3 y xs c Js beta r jt Hd Ht wf Hid EC EP EA Hy EJs Hb LB Hc h Hh. assert (Ht0 : 0 <= tol) by lra.
  assert (Hr : 0 <= r) by (eapply Rle_trans; [apply two_norm_nonneg|exact Hc]).
  set (dn := two_norm cdim (fun k => c0 k - c1 k - c2 k + c3 k)) in *. assert (Pd : 0 <= dn) by apply two_norm_nonneg.
  assert (H0 : 0 <= h) by (unfold h; apply Rmult_le_pos; [apply Rmult_le_pos|]; assumption).
  set (b := beta / (1 - h)). assert (Hb' : 0 <= b) by (apply Rmult_le_pos; [exact Hb|apply Rlt_le, Rinv_0_lt_compat; lra]).
  assert (EQ : b * (dn / 2) * r = h / (2 * (1 - h))) by (unfold b; replace (h / (2 * (1 - h))) with (beta * dn * r / (2 * (1 - h))) by reflexivity; field; lra).
  assert (Hq : h / (2 * (1 - h)) < 1) by (apply (Rmult_lt_reg_r (2 * (1 - h))); [lra|]; unfold Rdiv; rewrite Rmult_assoc, Rinv_l by lra; lra).
  destruct (C63_quadratic 2 cdim tol jv jm jk j1 j2 g y xs c r b (dn / 2) jt Hd Ht EP EA Hc Hb' ltac:(lra) ltac:(rewrite EQ; exact Hq)) as (z & Z1 & Z2 & Z3).
  2:{ rewrite EQ in *. exists z. split; [exact Z1|]. split; [exact Z2|].
      rewrite <- EQ at 2. replace (b * (dn / 2) * r * tol) with (r * (b * (dn / 2) * tol)) by ring. apply Rmult_le_compat_l; assumption. }
  intros x Hx. destruct (quad_global cdim tol jv g c0 c1 c2 c3 wf Hid EC x) as (G & EG & VG). destruct (quad_jac cdim tol jm jk g c0 c1 c2 c3 Ht0 wf Hid EC x) as (J & EJ & VJ).
  destruct (quad_global cdim tol jv g c0 c1 c2 c3 wf Hid EC xs) as (Y & EY & VY). assert (Y = y) by congruence. subst Y.
  destruct (quad_jac cdim tol jm jk g c0 c1 c2 c3 Ht0 wf Hid EC xs) as (J' & EJ' & VS). assert (J' = Js) by congruence. subst J'.
  exists G, J. split; [exact EG|]. split; [exact EJ|]. set (p := x 0%nat - xs 0%nat). set (q := x 1%nat - xs 1%nat). split.
  - intro w. set (dv := fun k => c0 k - c1 k - c2 k + c3 k).
    assert (T : two_norm cdim (mvec 2 (mtr Js) w) <= two_norm cdim (mvec 2 (mtr J) w) + Rabs (- (q * w 0%nat + p * w 1%nat)) * dn).
    { unfold dn. fold dv. change (nrm cdim (mvec 2 (mtr Js) w) <= nrm cdim (mvec 2 (mtr J) w) + Rabs (- (q * w 0%nat + p * w 1%nat)) * nrm cdim dv). rewrite <- nrm_scal. eapply Rle_trans; [|apply nrm_add]. right. apply nrm_ext. intros k Hk. unfold mvec, mtr. cbn [rsum].
      destruct (VJ k Hk) as [-> ->]. destruct (VS k Hk) as [-> ->]. unfold qd, dv, p, q. ring. }
    assert (CS : Rabs (- (q * w 0%nat + p * w 1%nat)) <= r * two_norm 2 w).
    { rewrite Rabs_Ropp. assert (N := nrm_dot 2 (fun k => match k with O => q | _ => p end) w). cbn [rsum] in N. rewrite Rplus_0_l in N. eapply Rle_trans; [exact N|]. apply Rmult_le_compat_r; [apply nrm_nonneg|].
      eapply Rle_trans; [|exact Hx]. right. unfold nrm, two_norm, norm2. cbn [rsum]. f_equal. fold p q. ring. }
    assert (N0 := two_norm_nonneg 2 w). assert (L := LB w). apply (Rmult_le_reg_l (1 - h)); [lra|].
    replace ((1 - h) * (b * two_norm cdim (mvec 2 (mtr J) w))) with (beta * two_norm cdim (mvec 2 (mtr J) w)) by (unfold b; field; lra).
    apply (Rmult_le_compat_l beta) in T; [|exact Hb]. apply (Rmult_le_compat_r dn) in CS; [|exact Pd]. apply (Rmult_le_compat_l beta) in CS; [|exact Hb].
    assert (EH : beta * (r * two_norm 2 w * dn) = h * two_norm 2 w) by (unfold h; ring). rewrite EH in CS. lra.
  - change (nrm cdim (fun k => G k - y k - mvec 2 (mtr J) (fun j => x j - xs j) k) <= nrm cdim (fun k => c0 k - c1 k - c2 k + c3 k) / 2 * norm2 2 (fun j => x j - xs j)).
    rewrite (nrm_ext cdim _ (fun k => - (p * q) * (c0 k - c1 k - c2 k + c3 k))).
    + rewrite nrm_scal, Rabs_Ropp, Rabs_mult. assert (N := amgm p q (norm2 2 (fun j => x j - xs j)) ltac:(right; unfold norm2; cbn [rsum]; unfold p, q; ring)).
      assert (0 <= nrm cdim (fun k => c0 k - c1 k - c2 k + c3 k)) by apply nrm_nonneg. nra.
    + intros k Hk. rewrite (VG k Hk), (VY k Hk). unfold mvec, mtr. cbn [rsum]. destruct (VJ k Hk) as [-> ->]. unfold qmap, qd, p, q. ring.
Qed.
Print Assumptions C63_bilinear_surface.

(** ** Where it fails *)
(** the quadrilateral (0,0), (1,a), (-1,a), (0,1+2a): the determinant is u + v + 2 a *)
Definition kite (a : R) (r : RefElement) : MLGeo :=
  quad (fun _ => 0) (fun k => if Nat.eqb k 0 then 1 else a) (fun k => if Nat.eqb k 0 then -1 else a) (fun k => if Nat.eqb k 0 then 0 else 1 + 2 * a) r.
Lemma kite_flag a r tol jm jk : 0 <= tol <= 1 -> ml_wf 2 (kite a r) -> exists jt, mlg_affine 2 2 tol jm jk (kite a r) = Some (false, jt).
Proof.
  intros Ht wf. destruct (affine_flag 2 2 tol (kite a r) wf jm jk) as (jt & E & _). exists jt. rewrite E. do 2 f_equal.
  cbn. unfold P_ML4.edge, P_ML4.shift, norm2. cbn.
  match goal with |- (?b && _)%bool = false => destruct b; [|reflexivity] end. cbn [andb].
  match goal with |- ?b && _ = false => destruct b; [|reflexivity] | |- _ => idtac end.
  rewrite rltb_le; [reflexivity|]. lra.
Qed.
Lemma kite_step a r tol jv jm jk j1 j2 y x : 0 <= tol -> ml_wf 2 (kite a r) -> x 0%nat + x 1%nat + 2 * a <> 0 ->
  exists dx, ml_step 2 2 tol jv jm jk j1 j2 (kite a r) y x = Some (true, dx) /\
    dx 0%nat - dx 1%nat = x 0%nat - x 1%nat - y 0%nat /\
    (x 1%nat + a) * dx 0%nat + (x 0%nat + a) * dx 1%nat = x 0%nat * x 1%nat + a * (x 0%nat + x 1%nat) - y 1%nat.
Proof.
  intros Ht wf NZ. destruct (proj1 (step_spec tol jv jm jk j1 j2 (kite a r) _ _ _ _ Ht wf (or_intror eq_refl) eq_refl y x)) as (dx & E & V).
  { unfold qdet. cbn. intro Z. apply NZ. lra. }
  exists dx. split; [exact E|]. assert (V0 := V 0%nat ltac:(lia)). assert (V1 := V 1%nat ltac:(lia)). unfold qmap, qd in V0, V1. cbn in V0, V1. lra.
Qed.

(** A convex quadrilateral with positive determinant on the whole square, and a point outside:
    the loop never ends. *)
Theorem C63_outside_refuted :
  forall tol jv jm jk j1 j2, 0 < tol <= 1 -> exists g y, ml_wf 2 g /\ ml_id g = 3%N /\
    (forall x, inside_ref 2 g x -> exists d, mlg_integrationElement 2 2 tol jm jk j1 j2 g x = Some d /\ 0 < d) /\
    forall fuel, mlg_local 2 2 tol jv jm jk j1 j2 fuel g y = OutOfFuel.
Proof.
  intros tol jv jm jk j1 j2 Ht. assert (Ht0 : 0 <= tol) by lra. destruct (quad_wf (fun _ => 0) (fun k => if Nat.eqb k 0 then 1 else 1/2) (fun k => if Nat.eqb k 0 then -1 else 1/2) (fun k => if Nat.eqb k 0 then 0 else 1 + 2 * (1/2))) as (r & wf).
  change (ml_wf 2 (kite (1/2) r)) in wf. set (y := fun k : nat => match k with O => 0 | _ => -13/4 end). exists (kite (1/2) r), y.
  split; [exact wf|]. split; [reflexivity|]. split.
  - intros x Hx. apply (quad_in (kite (1/2) r) (or_intror eq_refl)) in Hx. eexists. split; [apply (quad_intEl (kite (1/2) r) tol jm jk j1 j2 x _ _ _ _ Ht0 wf (or_intror eq_refl) eq_refl)|].
    apply Rabs_pos_lt. unfold qdet. cbn. lra.
  - intro fuel. destruct (quad_centre (kite (1/2) r) wf (or_intror eq_refl)) as (p & EP & P0 & P1). destruct (kite_flag (1/2) r tol jm jk ltac:(lra) wf) as (jt & EA).
    unfold mlg_local. rewrite EP, EA.
    assert (Q : (p 0%nat = 1/2 /\ p 1%nat = 1/2) \/ (p 0%nat = -3/2 /\ p 1%nat = -3/2)) by (left; auto). clear EP P0 P1.
    revert p Q. induction fuel as [|fuel IH]; intros p Q; [reflexivity|]. cbn [ml_newton].
    destruct (kite_step (1/2) r tol jv jm jk j1 j2 y p Ht0 wf) as (dx & E & A & B); [lra|]. rewrite E. cbn in A, B.
    assert (DX : (p 0%nat = 1/2 /\ p 1%nat = 1/2 /\ dx 0%nat = 2 /\ dx 1%nat = 2) \/ (p 0%nat = -3/2 /\ p 1%nat = -3/2 /\ dx 0%nat = -2 /\ dx 1%nat = -2)).
    { destruct Q as [[Q0 Q1]|[Q0 Q1]]; rewrite Q0, Q1 in A, B; [left|right]; repeat split; auto; lra. }
    rewrite (proj2 (Rltb_true tol (norm2 2 dx))).
    + apply IH. destruct DX as [(-> & -> & -> & ->)|(-> & -> & -> & ->)]; [right|left]; split; lra.
    + unfold norm2. cbn [rsum]. destruct DX as [(_ & _ & -> & ->)|(_ & _ & -> & ->)]; lra.
Qed.
Print Assumptions C63_outside_refuted.

(** A quadrilateral whose determinant changes sign: local of the first corner is the centre. *)
Theorem C63_folded_refuted :
  forall tol jv jm jk j1 j2, 0 < tol <= 1 -> exists g xs y z, ml_wf 2 g /\ ml_id g = 3%N /\
    inside_ref 2 g xs /\ mlg_global 2 2 tol jv g xs = Some y /\
    (exists d, mlg_integrationElement 2 2 tol jm jk j1 j2 g xs = Some d /\ 0 < d) /\
    (forall fuel, mlg_local 2 2 tol jv jm jk j1 j2 (S fuel) g y = Done (LocPt z)) /\ inside_ref 2 g z /\
    1/2 <= norm2 2 (fun k => z k - xs k).
Proof.
  intros tol jv jm jk j1 j2 Ht. assert (Ht0 : 0 <= tol) by lra. destruct (quad_wf (fun _ => 0) (fun k => if Nat.eqb k 0 then 1 else -1/4) (fun k => if Nat.eqb k 0 then -1 else -1/4) (fun k => if Nat.eqb k 0 then 0 else 1 + 2 * (-1/4))) as (r & wf).
  change (ml_wf 2 (kite (-1/4) r)) in wf.
  destruct (quad_global 2 tol jv (kite (-1/4) r) _ _ _ _ wf (or_intror eq_refl) eq_refl vzero) as (y & EY & VY).
  destruct (quad_centre (kite (-1/4) r) wf (or_intror eq_refl)) as (p & EP & P0 & P1). destruct (kite_flag (-1/4) r tol jm jk ltac:(lra) wf) as (jt & EA).
  destruct (kite_step (-1/4) r tol jv jm jk j1 j2 y p Ht0 wf) as (dx & E & A & B); [lra|].
  assert (Y0 : y 0%nat = 0) by (rewrite VY by lia; unfold qmap, vzero; cbn; lra). assert (Y1 : y 1%nat = 0) by (rewrite VY by lia; unfold qmap, vzero; cbn; lra).
  rewrite P0, P1, Y0 in A. rewrite P0, P1, Y1 in B. assert (D0 : dx 0%nat = 0) by lra. assert (D1 : dx 1%nat = 0) by lra.
  exists (kite (-1/4) r), vzero, y, (fun k => p k - dx k).
  split; [exact wf|]. split; [reflexivity|]. split; [apply (quad_in (kite (-1/4) r) (or_intror eq_refl)); unfold vzero; lra|]. split; [exact EY|]. split; [|split; [|split]].
  - eexists. split; [apply (quad_intEl (kite (-1/4) r) tol jm jk j1 j2 vzero _ _ _ _ Ht0 wf (or_intror eq_refl) eq_refl)|]. apply Rabs_pos_lt. unfold qdet, vzero. cbn. lra.
  - intro fuel. unfold mlg_local. rewrite EP, EA. cbn [ml_newton]. rewrite E, rltb_le; [reflexivity|]. unfold norm2. cbn [rsum]. rewrite D0, D1. lra.
  - apply (quad_in (kite (-1/4) r) (or_intror eq_refl)). rewrite P0, P1, D0, D1. lra.
  - unfold norm2, vzero. cbn [rsum]. rewrite P0, P1, D0, D1. lra.
Qed.
Print Assumptions C63_folded_refuted.

(** the quadrilateral (0,0), (2,0), (0,1), (1,1) and the point (1, 1/4), the image
    of (4/7, 1/4): a trapezoid, exact after two steps *)
Example C63_example : forall jv jm jk j1 j2, exists r z,
  let g := quad (fun _ => 0) (fun k => if Nat.eqb k 0 then 2 else 0) (fun k => if Nat.eqb k 0 then 0 else 1) (fun _ => 1) r in
  ml_wf 2 g /\ mlg_local 2 2 (1/1000) jv jm jk j1 j2 3 g (fun k => if Nat.eqb k 0 then 1 else 1/4) = Done (LocPt z) /\
  z 0%nat = 4/7 /\ z 1%nat = 1/4.
Proof.
  intros jv jm jk j1 j2. match goal with |- exists r z, let g := quad ?a ?b ?c ?d r in _ => destruct (quad_wf a b c d) as (r & wf); set (ca := a) in *; set (cb := b) in *; set (cc := c) in *; set (cd := d) in * end.
  set (g := quad ca cb cc cd r) in *. set (y := fun k => if Nat.eqb k 0 then 1 else 1/4). set (tol := 1/1000). assert (Ht : 0 <= tol) by (unfold tol; lra).
  destruct (quad_centre g wf (or_intror eq_refl)) as (p & EP & P0 & P1).
  destruct (proj1 (step_spec tol jv jm jk j1 j2 g ca cb cc cd Ht wf (or_intror eq_refl) eq_refl y p)) as (dx & E & V).
  { rewrite P0, P1. unfold qdet, ca, cb, cc, cd. cbn. lra. }
  assert (V0 := V 0%nat ltac:(lia)). assert (V1 := V 1%nat ltac:(lia)). unfold qmap, qd, ca, cb, cc, cd, y in V0, V1. cbn in V0, V1. rewrite P0, P1 in V0, V1. clear V.
  set (x1 := fun k => p k - dx k). assert (X0 : x1 0%nat = 7/12) by (unfold x1; rewrite P0; lra). assert (X1 : x1 1%nat = 1/4) by (unfold x1; rewrite P1; lra).
  destruct (proj1 (step_spec tol jv jm jk j1 j2 g ca cb cc cd Ht wf (or_intror eq_refl) eq_refl y x1)) as (dy & E' & V').
  { rewrite X0, X1. unfold qdet, ca, cb, cc, cd. cbn. lra. }
  assert (V0' := V' 0%nat ltac:(lia)). assert (V1' := V' 1%nat ltac:(lia)). unfold qmap, qd, ca, cb, cc, cd, y in V0', V1'. cbn in V0', V1'. rewrite X0, X1 in V0', V1'. clear V'.
  exists r, (fun k => x1 k - dy k). cbv zeta. fold g. split; [exact wf|]. split; [|split].
  - unfold mlg_local. rewrite EP. destruct (affine_flag 2 2 tol g wf jm jk) as (jt & EA & _). rewrite EA.
    match type of EA with _ = Some (?b, _) => replace b with false end.
    + cbn [ml_newton]. rewrite E. fold x1. rewrite (proj2 (Rltb_true tol (norm2 2 dx))).
      * rewrite E'. rewrite rltb_le; [reflexivity|]. unfold norm2, tol. cbn [rsum]. replace (dy 1%nat) with 0 by lra. replace (dy 0%nat) with (1/84) by lra. lra.
      * unfold norm2, tol. cbn [rsum]. replace (dx 1%nat) with (1/4) by lra. assert (0 <= dx 0%nat * dx 0%nat) by apply Rle_0_sqr. lra.
    + symmetry. cbn. unfold P_ML4.edge, P_ML4.shift, norm2, ca, cb, cc, cd. cbn. 
      match goal with |- (?b && _)%bool = false => destruct b; [|reflexivity] end. cbn [andb].
      rewrite rltb_le; [reflexivity|]. unfold tol. lra.
  - rewrite X0. replace (dy 0%nat) with (1/84) by lra. lra.
  - rewrite X1. replace (dy 1%nat) with 0 by lra. lra.
Qed.
