(** Lemmas for C90: Newton's method in MultiLinearGeometry::local on quadrilaterals. *)
From Coq Require Import PeanoNat NArith ZArith Bool List Reals Lia Lra Psatz.
From Verif Require Import M_Type M_RefTopo M_RefGeo M_Matrix M_Affine M_MultiLinear
  S_Topo S_RefGeo S_Matrix S_MultiLinear S_NewtonQuad P_RSum P_RefGeo P_RefGeo3 P_Matrix P_Matrix2 P_ML1 P_ML2 P_ML3 P_ML4 P_ML5 T_Matrix T_MultiLinear.
Import ListNotations.
Local Open Scope R_scope.

Lemma quarter a b : 0 <= a -> 0 <= b -> a + b <= 1 -> a * b <= 1 / 4.
Proof. intros A B C. assert (0 <= (a - b) * (a - b)) by apply Rle_0_sqr. nra. Qed.
Lemma cramer0 a b c d p q : a * p + b * q = 0 -> c * p + d * q = 0 -> a * d - b * c <> 0 -> p = 0 /\ q = 0.
Proof.
  intros A B D. split; apply (Rmult_eq_reg_l (a * d - b * c)); try exact D.
  - replace ((a * d - b * c) * p) with ((a * p + b * q) * d - (c * p + d * q) * b) by ring. rewrite A, B. ring.
  - replace ((a * d - b * c) * q) with ((c * p + d * q) * a - (a * p + b * q) * c) by ring. rewrite A, B. ring.
Qed.

Section Step.
Variables (tol : R) (jv : Vec) (jm jk j1 j2 : Mat) (c0 c1 c2 c3 : Vec) (r : RefElement).
Let g := quad c0 c1 c2 c3 r.
Hypothesis wf : ml_wf 2 g.
Notation F := (bilinear c0 c1 c2 c3).
Notation Fx := (bx c0 c1 c2 c3).
Notation Fy := (by_ c0 c1 c2 c3).
Notation det := (jdet c0 c1 c2 c3).
Notation step := (ml_step 2 2 tol jv jm jk j1 j2 g).

Lemma quad_global x : exists y, mlg_global 2 2 tol jv g x = Some y /\ forall k, (k < 2)%nat -> y k = F x k.
Proof.
  eexists. split; [apply global_spec; exact wf|]. intros k Hk. unfold vset, comb, bilinear. destruct k as [|[|]]; [| |lia]; cbn; ring.
Qed.
Lemma quad_jacobian x : exists J, mlg_jacobianTransposed 2 2 tol jm jk g x = Some J /\ forall k, (k < 2)%nat -> J 0%nat k = Fx x k /\ J 1%nat k = Fy x k.
Proof.
  eexists. split; [apply jt_value; exact wf|]. intros k Hk. unfold comb, bx, by_. destruct k as [|[|]]; [| |lia]; cbn; split; ring.
Qed.
Lemma step_regular y x : det x <> 0 -> exists dx, step y x = Some (true, dx) /\ forall k, (k < 2)%nat -> Fx x k * dx 0%nat + Fy x k * dx 1%nat = F x k - y k.
Proof.
  intro D. destruct (quad_global x) as (G & EG & VG). destruct (quad_jacobian x) as (J & EJ & VJ).
  destruct (VJ 0%nat ltac:(lia)) as [J00 J10]. destruct (VJ 1%nat ltac:(lia)) as [J01 J11].
  unfold jdet in D. rewrite <- J00, <- J01, <- J10, <- J11 in D.
  assert (HR : row_independent 2 2 J).
  { intros v Hv. assert (A := Hv 0%nat ltac:(lia)). assert (B := Hv 1%nat ltac:(lia)). unfold mvec, mtr in A, B. cbn in A, B.
    destruct (cramer0 (J 0%nat 0%nat) (J 1%nat 0%nat) (J 0%nat 1%nat) (J 1%nat 1%nat) (v 0%nat) (v 1%nat)) as [V0 V1]; [lra|lra|lra|].
    intros i Hi. destruct i as [|[|]]; [assumption|assumption|lia]. }
  destruct (proj1 (C25_xTRightInvA 2 2 J (fun k => G k - y k) j1 j2 (le_n 2)) HR) as (dx & ED & NE & _).
  exists dx. split; [unfold ml_step; rewrite EG, EJ; exact ED|].
  assert (N0 := NE 0%nat ltac:(lia)). assert (N1 := NE 1%nat ltac:(lia)). unfold mvec, mmul, mtr in N0, N1. cbn in N0, N1. rewrite !VG in N0, N1 by lia.
  set (w0 := J 0%nat 0%nat * dx 0%nat + J 1%nat 0%nat * dx 1%nat - (F x 0%nat - y 0%nat)).
  set (w1 := J 0%nat 1%nat * dx 0%nat + J 1%nat 1%nat * dx 1%nat - (F x 1%nat - y 1%nat)).
  assert (Q0 : J 0%nat 0%nat * w0 + J 0%nat 1%nat * w1 = 0) by (unfold w0, w1; lra).
  assert (Q1 : J 1%nat 0%nat * w0 + J 1%nat 1%nat * w1 = 0) by (unfold w0, w1; lra).
  destruct (cramer0 _ _ _ _ _ _ Q0 Q1 D) as [W0 W1].
  intros k Hk. destruct k as [|[|]]; [| |lia]; rewrite <- ?J00, <- ?J01, <- ?J10, <- ?J11; unfold w0, w1 in *; lra.
Qed.
Lemma step_singular y x : det x = 0 -> exists dx, step y x = Some (false, dx).
Proof.
  intro D. destruct (quad_global x) as (G & EG & VG). destruct (quad_jacobian x) as (J & EJ & VJ).
  destruct (VJ 0%nat ltac:(lia)) as [J00 J10]. destruct (VJ 1%nat ltac:(lia)) as [J01 J11].
  unfold jdet in D. rewrite <- J00, <- J01, <- J10, <- J11 in D.
  assert (HR : ~ row_independent 2 2 J).
  { intro H.
    assert (Z : forall a b, (J 0%nat 0%nat * a + J 1%nat 0%nat * b = 0) -> (J 0%nat 1%nat * a + J 1%nat 1%nat * b = 0) -> a = 0 /\ b = 0).
    { intros a b A B. assert (K0 : forall i, (i < 2)%nat -> pt a b i = 0).
      { apply H. intros i Hi. unfold mvec, mtr. destruct i as [|[|]]; [| |lia]; cbn; lra. }
      split; [apply (K0 0%nat); lia|apply (K0 1%nat); lia]. }
    destruct (Z (J 1%nat 1%nat) (- J 0%nat 1%nat)) as [Z1 Z2]; [lra|lra|].
    destruct (Z (J 1%nat 0%nat) (- J 0%nat 0%nat)) as [Z3 Z4]; [lra|lra|].
    destruct (Z 1 0) as [Z5 _]; lra. }
  destruct (proj2 (C25_xTRightInvA 2 2 J (fun k => G k - y k) j1 j2 (le_n 2)) HR) as (dx & ED).
  exists dx. unfold ml_step. rewrite EG, EJ. exact ED.
Qed.
(** the new residual *)
Lemma step_residual y x dx k : (k < 2)%nat -> Fx x k * dx 0%nat + Fy x k * dx 1%nat = F x k - y k ->
  F (fun k => x k - dx k) k - y k = dx 0%nat * dx 1%nat * mixed c0 c1 c2 c3 k.
Proof. intros _. unfold bilinear, bx, by_, mixed. intro H. ring_simplify in H. ring_simplify. lra. Qed.

(** ** coordinates in which the determinant is 1 at the centre *)
Notation cen := center.
Notation D := (mixed c0 c1 c2 c3).
Definition det0 : R := det cen.
Definition d1 : R := (D 0%nat * Fy cen 1%nat - D 1%nat * Fy cen 0%nat) / det0.
Definition d2 : R := (Fx cen 0%nat * D 1%nat - Fx cen 1%nat * D 0%nat) / det0.
Definition delta (x : Vec) : R := 1 + d1 * (x 1%nat - 1 / 2) + d2 * (x 0%nat - 1 / 2).
Hypothesis D0 : det0 <> 0.

Lemma D_d k : (k < 2)%nat -> d1 * Fx cen k + d2 * Fy cen k = D k.
Proof.
  intro Hk. unfold d1, d2. assert (H := D0). unfold det0, jdet in *. 
  set (b0 := Fx cen 0%nat) in *. set (b1 := Fx cen 1%nat) in *. set (e0 := Fy cen 0%nat) in *. set (e1 := Fy cen 1%nat) in *.
  destruct k as [|[|]]; [| |lia]; fold b0 b1 e0 e1; field; exact H.
Qed.
Lemma det_delta x : det x = det0 * delta x.
Proof.
  assert (E : forall k, Fx x k = Fx cen k + (x 1%nat - 1/2) * D k) by (intro k; unfold bx, mixed, cen, pt; field).
  assert (G : forall k, Fy x k = Fy cen k + (x 0%nat - 1/2) * D k) by (intro k; unfold by_, mixed, cen, pt; field).
  unfold delta, d1, d2. replace (det x) with ((Fx x 0%nat * Fy x 1%nat - Fx x 1%nat * Fy x 0%nat)) by reflexivity. rewrite !E, !G.
  assert (H := D0). replace det0 with (Fx cen 0%nat * Fy cen 1%nat - Fx cen 1%nat * Fy cen 0%nat) in * by reflexivity. field. exact H.
Qed.
Lemma J_d x k : (k < 2)%nat -> Fx x k * d1 + Fy x k * d2 = delta x * D k.
Proof.
  intro Hk. assert (H := D_d k Hk).
  assert (E : Fx x k = Fx cen k + (x 1%nat - 1/2) * D k) by (unfold bx, mixed, cen, pt; field).
  assert (G : Fy x k = Fy cen k + (x 0%nat - 1/2) * D k) by (unfold by_, mixed, cen, pt; field).
  rewrite E, G. unfold delta. replace ((Fx cen k + (x 1%nat - 1 / 2) * D k) * d1 + (Fy cen k + (x 0%nat - 1 / 2) * D k) * d2)
    with ((d1 * Fx cen k + d2 * Fy cen k) + (d1 * (x 1%nat - 1/2) + d2 * (x 0%nat - 1/2)) * D k) by ring. rewrite H. ring.
Qed.
(** one step of the iteration towards xs *)
Lemma step_error y xs x : (forall k, (k < 2)%nat -> F xs k = y k) -> delta x <> 0 ->
  exists dx, step y x = Some (true, dx) /\
    x 0%nat - dx 0%nat - xs 0%nat = (x 0%nat - xs 0%nat) * (x 1%nat - xs 1%nat) / delta x * d1 /\
    x 1%nat - dx 1%nat - xs 1%nat = (x 0%nat - xs 0%nat) * (x 1%nat - xs 1%nat) / delta x * d2.
Proof.
  intros Hy Hd. assert (HD : det x <> 0) by (rewrite det_delta; now apply Rmult_integral_contrapositive_currified).
  destruct (step_regular y x HD) as (dx & E & V). exists dx. split; [exact E|].
  set (es := x 0%nat - xs 0%nat). set (et := x 1%nat - xs 1%nat).
  assert (K : forall k, (k < 2)%nat -> Fx x k * (delta x * (es - dx 0%nat) - es * et * d1) + Fy x k * (delta x * (et - dx 1%nat) - es * et * d2) = 0).
  { intros k Hk. assert (A := V k Hk). assert (B := J_d x k Hk). rewrite <- (Hy k Hk) in A.
    assert (G : F x k - F xs k = Fx x k * es + Fy x k * et - es * et * D k) by (unfold bilinear, bx, by_, mixed, es, et; ring).
    replace (_ + _) with (delta x * (Fx x k * es + Fy x k * et - (Fx x k * dx 0%nat + Fy x k * dx 1%nat)) - es * et * (Fx x k * d1 + Fy x k * d2)) by ring.
    rewrite A, G, B. ring. }
  destruct (cramer0 _ _ _ _ _ _ (K 0%nat ltac:(lia)) (K 1%nat ltac:(lia))) as [K0 K1]; [unfold jdet in HD; lra|].
  split; apply (Rmult_eq_reg_l (delta x)); try exact Hd.
  - replace (delta x * (x 0%nat - dx 0%nat - xs 0%nat)) with (delta x * (es - dx 0%nat)) by (unfold es; ring). replace (delta x * (es * et / delta x * d1)) with (es * et * d1) by (field; exact Hd). lra.
  - replace (delta x * (x 1%nat - dx 1%nat - xs 1%nat)) with (delta x * (et - dx 1%nat)) by (unfold et; ring). replace (delta x * (es * et / delta x * d2)) with (es * et * d2) by (field; exact Hd). lra.
Qed.
Lemma step_stop y x : delta x = 0 -> exists dx, step y x = Some (false, dx).
Proof. intro H. apply step_singular. rewrite det_delta, H. ring. Qed.

(** ** from the second iterate on: the error is a multiple of (d1, d2) *)
Definition onray (xs x : Vec) (e : R) : Prop := x 0%nat - xs 0%nat = e * d1 /\ x 1%nat - xs 1%nat = e * d2.
Lemma delta_ray xs x e : onray xs x e -> delta x = delta xs + 2 * (d1 * d2 * e).
Proof. intros [A B]. unfold delta. replace (x 1%nat) with (xs 1%nat + e * d2) by lra. replace (x 0%nat) with (xs 0%nat + e * d1) by lra. ring. Qed.
Lemma step_ray y xs x e : (forall k, (k < 2)%nat -> F xs k = y k) -> delta x <> 0 -> onray xs x e ->
  exists dx, step y x = Some (true, dx) /\ let rho := d1 * d2 * e / delta x in
    onray xs (fun k => x k - dx k) (e * rho) /\ norm2 2 dx = e * e * (d1 * d1 + d2 * d2) * ((1 - rho) * (1 - rho)).
Proof.
  intros Hy Hd [A B]. destruct (step_error y xs x Hy Hd) as (dx & E & V0 & V1). exists dx. split; [exact E|]. intro rho.
  rewrite A, B in V0, V1.
  assert (W0 : x 0%nat - dx 0%nat - xs 0%nat = e * rho * d1) by (rewrite V0; unfold rho; field; exact Hd).
  assert (W1 : x 1%nat - dx 1%nat - xs 1%nat = e * rho * d2) by (rewrite V1; unfold rho; field; exact Hd).
  split; [split; assumption|]. unfold norm2. cbn. replace (dx 0%nat) with (e * (1 - rho) * d1) by lra. replace (dx 1%nat) with (e * (1 - rho) * d2) by lra. ring.
Qed.
Notation newton := (ml_newton 2 2 tol jv jm jk j1 j2).
Hypothesis T0 : 0 < tol.
Definition dist2 (x z : Vec) : R := (z 0%nat - x 0%nat) * (z 0%nat - x 0%nat) + (z 1%nat - x 1%nat) * (z 1%nat - x 1%nat).
Lemma dist_ray xs x e : onray xs x e -> dist2 xs x = e * e * (d1 * d1 + d2 * d2).
Proof. intros [A B]. unfold dist2. rewrite A, B. ring. Qed.

Lemma ray_run y xs (aff : bool) : (forall k, (k < 2)%nat -> F xs k = y k) -> forall n x e fuel, (n < fuel)%nat ->
  onray xs x e -> delta x <> 0 -> 0 <= d1 * d2 * e * delta x -> 0 <= delta x * delta xs ->
  e * e * (d1 * d1 + d2 * d2) <= tol * 4 ^ n ->
  exists z, newton fuel g aff y x = Done (LocPt z) /\ (aff = false -> dist2 xs z <= tol).
Proof.
  intro Hy. induction n; intros x e fuel Hf Hr Hd H1 H2 Hb; destruct fuel as [|fuel]; try lia; cbn [ml_newton];
    destruct (step_ray y xs x e Hy Hd Hr) as (dx & E & R' & NV); cbv zeta in *; rewrite E;
    set (rho := d1 * d2 * e / delta x) in *; assert (DX := delta_ray xs x e Hr);
    (assert (P2 : 0 < delta x * delta x) by nra);
    (assert (RE : d1 * d2 * e = rho * delta x) by (unfold rho; field; exact Hd));
    (assert (R0 : 0 <= rho) by (rewrite RE in H1; replace (rho * delta x * delta x) with (rho * (delta x * delta x)) in H1 by ring; destruct (Rle_lt_dec 0 rho); [assumption|exfalso; assert (0 < (- rho) * (delta x * delta x)) by (apply Rmult_lt_0_compat; lra); lra]));
    (assert (R1 : rho <= 1 / 2) by (rewrite RE in DX; replace (delta xs) with ((1 - 2 * rho) * delta x) in H2 by lra; replace (delta x * ((1 - 2 * rho) * delta x)) with ((1 - 2 * rho) * (delta x * delta x)) in H2 by ring;
       destruct (Rle_lt_dec rho (1/2)); [assumption|exfalso; assert (0 < (2 * rho - 1) * (delta x * delta x)) by (apply Rmult_lt_0_compat; lra); lra]));
    set (q := e * e * (d1 * d1 + d2 * d2)) in *; (assert (Q0 : 0 <= q) by (unfold q; nra));
    (assert (L1 : (1 - rho) * (1 - rho) <= 1) by nra); (assert (L2 : rho * rho <= (1 - rho) * (1 - rho)) by nra);
    assert (DZ := dist_ray xs _ _ R'); replace (e * rho * (e * rho) * (d1 * d1 + d2 * d2)) with (q * (rho * rho)) in DZ by (unfold q; ring).
  - exists (fun k => x k - dx k). destruct aff; [split; [reflexivity|discriminate]|].
    assert (norm2 2 dx <= tol) by (rewrite NV; cbn in Hb; apply Rle_trans with (q * 1); [apply Rmult_le_compat_l; lra|lra]).
    destruct (Rltb tol (norm2 2 dx)) eqn:Q; [apply Rltb_true in Q; lra|]. split; [reflexivity|]. intros _. rewrite DZ. apply Rle_trans with (norm2 2 dx); [|assumption]. rewrite NV. now apply Rmult_le_compat_l.
  - destruct aff; [eexists; split; [reflexivity|discriminate]|].
    destruct (Rltb tol (norm2 2 dx)) eqn:Q.
    + set (x' := fun k => x k - dx k) in *. assert (DX' := delta_ray xs x' (e * rho) R').
      replace (d1 * d2 * (e * rho)) with (d1 * d2 * e * rho) in DX' by ring. rewrite RE in DX', DX.
      assert (E' : delta x' = (1 - 2 * rho + 2 * rho * rho) * delta x) by lra.
      assert (C : 0 < 1 - 2 * rho + 2 * rho * rho) by nra.
      apply (IHn x' (e * rho)); [lia|exact R'| | | |].
      * rewrite E'. apply Rmult_integral_contrapositive_currified; [lra|exact Hd].
      * replace (d1 * d2 * (e * rho) * delta x') with ((d1 * d2 * e) * rho * delta x') by ring. rewrite RE, E'.
        replace (rho * delta x * rho * ((1 - 2 * rho + 2 * rho * rho) * delta x)) with ((1 - 2 * rho + 2 * rho * rho) * (rho * rho) * (delta x * delta x)) by ring.
        apply Rmult_le_pos; [apply Rmult_le_pos; [lra|nra]|lra].
      * rewrite E'. replace ((1 - 2 * rho + 2 * rho * rho) * delta x * delta xs) with ((1 - 2 * rho + 2 * rho * rho) * (delta x * delta xs)) by ring. apply Rmult_le_pos; lra.
      * replace (e * rho * (e * rho) * (d1 * d1 + d2 * d2)) with (q * (rho * rho)) by (unfold q; ring). cbn in Hb.
        assert (rho * rho <= 1 / 4) by nra. apply Rle_trans with (q * (1/4)); [now apply Rmult_le_compat_l|lra].
    + eexists. split; [reflexivity|]. intros _. rewrite DZ. apply Rle_trans with (norm2 2 dx); [rewrite NV; now apply Rmult_le_compat_l|].
      destruct (Rle_lt_dec (norm2 2 dx) tol); [assumption|]. exfalso. assert (Rltb tol (norm2 2 dx) = true) by (now apply Rltb_true). congruence.
Qed.
Lemma second_run y xs (aff : bool) : (forall k, (k < 2)%nat -> F xs k = y k) -> forall n x e fuel, (S n < fuel)%nat ->
  onray xs x e -> delta x <> 0 -> 0 <= delta x * delta xs ->
  let rho := d1 * d2 * e / delta x in e * rho * (e * rho) * (d1 * d1 + d2 * d2) <= tol * 4 ^ n ->
  exists z, newton fuel g aff y x = Done (LocPt z) /\ (aff = false -> dist2 xs z <= tol).
Proof.
  intros Hy n x e fuel Hf Hr Hd H2 rho Hb. destruct fuel as [|fuel]; [lia|]. cbn [ml_newton].
  destruct (step_ray y xs x e Hy Hd Hr) as (dx & E & R' & NV). fold rho in R', NV. rewrite E. assert (DX := delta_ray xs x e Hr).
  assert (P2 : 0 < delta x * delta x) by nra.
  assert (RE : d1 * d2 * e = rho * delta x) by (unfold rho; field; exact Hd). rewrite RE in DX.
  assert (R1 : rho <= 1 / 2).
  { replace (delta xs) with ((1 - 2 * rho) * delta x) in H2 by lra. replace (delta x * ((1 - 2 * rho) * delta x)) with ((1 - 2 * rho) * (delta x * delta x)) in H2 by ring.
    destruct (Rle_lt_dec rho (1/2)); [assumption|exfalso; assert (0 < (2 * rho - 1) * (delta x * delta x)) by (apply Rmult_lt_0_compat; lra); lra]. }
  destruct aff; [eexists; split; [reflexivity|discriminate]|].
  destruct (Rltb tol (norm2 2 dx)) eqn:Q.
  - set (x' := fun k => x k - dx k) in *. assert (DX' := delta_ray xs x' (e * rho) R').
    replace (d1 * d2 * (e * rho)) with (d1 * d2 * e * rho) in DX' by ring. rewrite RE in DX'.
    assert (E' : delta x' = (1 - 2 * rho + 2 * rho * rho) * delta x) by lra.
    assert (C : 0 < 1 - 2 * rho + 2 * rho * rho) by nra.
    apply (ray_run y xs false Hy n x' (e * rho)); [lia|exact R'| | | |exact Hb].
    + rewrite E'. apply Rmult_integral_contrapositive_currified; [lra|exact Hd].
    + replace (d1 * d2 * (e * rho) * delta x') with ((d1 * d2 * e) * rho * delta x') by ring. rewrite RE, E'.
      replace (rho * delta x * rho * ((1 - 2 * rho + 2 * rho * rho) * delta x)) with ((1 - 2 * rho + 2 * rho * rho) * (rho * rho) * (delta x * delta x)) by ring.
      apply Rmult_le_pos; [apply Rmult_le_pos; [lra|nra]|lra].
    + rewrite E'. replace ((1 - 2 * rho + 2 * rho * rho) * delta x * delta xs) with ((1 - 2 * rho + 2 * rho * rho) * (delta x * delta xs)) by ring. apply Rmult_le_pos; lra.
  - eexists. split; [reflexivity|]. intros _. rewrite (dist_ray xs _ _ R').
    apply Rle_trans with (norm2 2 dx).
    + rewrite NV. replace (e * rho * (e * rho) * (d1 * d1 + d2 * d2)) with (e * e * (d1 * d1 + d2 * d2) * (rho * rho)) by ring. apply Rmult_le_compat_l; nra.
    + destruct (Rle_lt_dec (norm2 2 dx) tol); [assumption|]. exfalso. assert (Rltb tol (norm2 2 dx) = true) by (now apply Rltb_true). congruence.
Qed.
(** the first step, from the centre *)
Lemma first_step y xs x : (forall k, (k < 2)%nat -> F xs k = y k) -> x 0%nat = 1 / 2 -> x 1%nat = 1 / 2 ->
  exists dx, step y x = Some (true, dx) /\ onray xs (fun k => x k - dx k) ((xs 0%nat - 1 / 2) * (xs 1%nat - 1 / 2)).
Proof.
  intros Hy X0 X1. assert (HD : delta x = 1) by (unfold delta; rewrite X0, X1; ring).
  destruct (step_error y xs x Hy ltac:(rewrite HD; lra)) as (dx & E & V0 & V1). exists dx. split; [exact E|].
  rewrite HD in V0, V1. rewrite X0, X1 in *. unfold onray. split; [rewrite X0, V0|rewrite X1, V1]; field.
Qed.
(** the other solution *)
Lemma conjugate xs : d1 * d2 <> 0 -> exists xc, (forall k, (k < 2)%nat -> F xc k = F xs k) /\ delta xc = - delta xs.
Proof.
  intro H. set (c := - delta xs / (d1 * d2)). set (xc := pt (xs 0%nat + c * d1) (xs 1%nat + c * d2)).
  assert (R' : onray xs xc c) by (unfold onray, xc, pt; split; ring).
  assert (EC : d1 * d2 * c = - delta xs) by (unfold c; field; split; intro Q; apply H; rewrite Q; ring).
  exists xc. split.
  - intros k Hk. assert (J := J_d xs k Hk).
    assert (A : F xc k - F xs k = c * (Fx xs k * d1 + Fy xs k * d2) + c * (d1 * d2 * c) * D k) by (unfold bilinear, bx, by_, mixed, xc, pt; ring).
    rewrite J, EC in A. lra.
  - rewrite (delta_ray xs xc c R'), EC. ring.
Qed.
Lemma pow4_above (b : R) : exists n, b <= tol * 4 ^ n.
Proof.
  destruct (Pow_x_infinity 4 ltac:(rewrite Rabs_pos_eq; lra) (Rabs b / tol)) as (n & H). exists n.
  assert (A := H n (le_n n)). assert (0 < 4 ^ n) by (apply pow_lt; lra). rewrite Rabs_pos_eq in A by lra.
  assert (Rabs b / tol * tol = Rabs b) by (field; lra). assert (Rabs b / tol * tol <= 4 ^ n * tol) by (apply Rmult_le_compat_r; lra). assert (Q := Rle_abs b). lra.
Qed.
(** the whole iteration, for a target in the image of the plane *)
Lemma newton_image (aff : bool) xs y x : (forall k, (k < 2)%nat -> F xs k = y k) -> x 0%nat = 1 / 2 -> x 1%nat = 1 / 2 ->
  exists n, forall fuel, (n <= fuel)%nat -> exists r, newton fuel g aff y x = Done r /\
    (r = LocMax -> delta (fun k => xs k + (xs 0%nat - 1 / 2) * (xs 1%nat - 1 / 2) * (if Nat.eqb k 0 then d1 else d2)) = 0).
Proof.
  intros Hy X0 X1. destruct (first_step y xs x Hy X0 X1) as (dx & E & R').
  set (e := (xs 0%nat - 1 / 2) * (xs 1%nat - 1 / 2)) in *. set (x' := fun k => x k - dx k) in *.
  assert (DX := delta_ray xs x' e R').
  assert (DE : delta (fun k => xs k + e * (if Nat.eqb k 0 then d1 else d2)) = delta x') by (rewrite DX; unfold delta; cbn; ring).
  assert (G : exists n, forall fuel, (n <= fuel)%nat -> exists r, newton fuel g aff y x' = Done r /\ (r = LocMax -> delta x' = 0)).
  { destruct (Req_dec (delta x') 0) as [Z|NZ].
    - exists 1%nat. intros fuel Hf. destruct fuel as [|fuel]; [lia|]. cbn [ml_newton]. destruct (step_stop y x' Z) as (w & ->). eauto.
    - assert (S' : exists xt et, (forall k, (k < 2)%nat -> F xt k = y k) /\ onray xt x' et /\ 0 <= delta x' * delta xt).
      { destruct (Rle_lt_dec 0 (delta x' * delta xs)) as [P|P]; [exists xs, e; auto|].
        assert (N12 : d1 * d2 <> 0) by (intro Q; rewrite Q in DX; rewrite DX in P; nra).
        destruct (conjugate xs N12) as (xc & Fc & Dc). 
        assert (Hc : forall k, (k < 2)%nat -> F xc k = y k) by (intros k Hk; rewrite Fc by assumption; auto).
        destruct (first_step y xc x Hc X0 X1) as (dx' & E' & R''). rewrite E in E'. injection E' as <-.
        exists xc. eexists. split; [exact Hc|]. split; [exact R''|]. rewrite Dc. lra. }
      destruct S' as (xt & et & Ht & Rt & Pt).
      destruct (pow4_above (et * (d1 * d2 * et / delta x') * (et * (d1 * d2 * et / delta x')) * (d1 * d1 + d2 * d2))) as (n & Hn).
      exists (S (S n)). intros fuel Hf. destruct (second_run y xt aff Ht n x' et fuel ltac:(lia) Rt NZ Pt Hn) as (z & -> & _).
      eexists. split; [reflexivity|discriminate]. }
  destruct G as (n & G). exists (S n). intros fuel Hf. destruct fuel as [|fuel]; [lia|]. cbn [ml_newton]. rewrite E. fold x'. rewrite DE.
  destruct aff; [eexists; split; [reflexivity|discriminate]|]. destruct (Rltb tol (norm2 2 dx)); [apply G; lia|]. eexists. split; [reflexivity|discriminate].
Qed.
Lemma quad_start : exists p, re_position (ml_id g) 2 (ml_ref g) 0 0 = Some p /\ p 0%nat = 1 / 2 /\ p 1%nat = 1 / 2.
Proof.
  destruct (center_spec 2 g wf) as (p & E & V). exists p. split; [exact E|]. split; (rewrite V by lia; cbn; unfold meanT; cbn; unfold vzero; lra).
Qed.
Lemma quad_flag : exists b jt, mlg_affine 2 2 tol jm jk g = Some (b, jt).
Proof. destruct (affine_flag 2 2 tol g wf jm jk) as (jt & E & _). eauto. Qed.

(** ** convex quadrilaterals *)
Lemma newton_convex (mu : R) : 0 < mu -> mu <= 1 -> Rabs d1 + Rabs d2 <= 2 * (1 - mu) ->
  exists n, forall (aff : bool) xs y x fuel, in_square xs -> (forall k, (k < 2)%nat -> F xs k = y k) -> x 0%nat = 1 / 2 -> x 1%nat = 1 / 2 -> (n <= fuel)%nat ->
    exists z, newton fuel g aff y x = Done (LocPt z) /\ (aff = false -> dist2 xs z * (mu * mu) <= tol).
Proof.
  intros M0 M1 Hd. destruct (pow4_above (1 / (16 * mu * mu))) as (n & Hn). exists (S (S (S n))).
  intros aff xs y x fuel [S1 S2] Hy X0 X1 Hf. destruct (first_step y xs x Hy X0 X1) as (dx & E & R').
  set (s := xs 0%nat - 1 / 2) in *. set (t := xs 1%nat - 1 / 2) in *. set (x' := fun k => x k - dx k) in *.
  assert (DX := delta_ray xs x' _ R').
  assert (AS : Rabs s <= 1 / 2) by (apply Rabs_le; unfold s; lra). assert (AT : Rabs t <= 1 / 2) by (apply Rabs_le; unfold t; lra).
  assert (A1 : Rabs (d1 * t) <= Rabs d1 / 2) by (rewrite Rabs_mult; assert (Q := Rabs_pos d1); nra).
  assert (A2 : Rabs (d2 * s) <= Rabs d2 / 2) by (rewrite Rabs_mult; assert (Q := Rabs_pos d2); nra).
  set (q := d1 * t) in *. set (p := d2 * s) in *.
  assert (DS : delta xs = 1 + p + q) by (unfold delta, p, q, s, t; ring).
  assert (DP : delta x' = 1 + p + q + 2 * (p * q)) by (rewrite DX, DS; unfold p, q; ring).
  assert (PQ : - (1 - mu) <= - (Rabs p + Rabs q)) by lra.
  assert (LP := Rabs_pos p). assert (LQ := Rabs_pos q).
  assert (HS : mu <= delta xs).
  { rewrite DS. assert (B1 := Rle_abs (- p)). assert (B2 := Rle_abs (- q)). rewrite Rabs_Ropp in B1, B2. lra. }
  assert (HP : mu <= delta x').
  { rewrite DP. unfold Rabs in *. destruct (Rcase_abs p), (Rcase_abs q); nra. }
  assert (NZ : delta x' <> 0) by lra. assert (PP : 0 <= delta x' * delta xs) by (apply Rmult_le_pos; lra).
  assert (Hb : let rho := d1 * d2 * (s * t) / delta x' in s * t * rho * (s * t * rho) * (d1 * d1 + d2 * d2) <= tol * 4 ^ n).
  { intro rho. apply Rle_trans with (2 := Hn).
    assert (RP : rho * delta x' = p * q) by (unfold rho, p, q; field; exact NZ).
    assert (R2 : Rabs rho * mu <= 1 / 4).
    { apply Rle_trans with (Rabs rho * delta x'); [apply Rmult_le_compat_l; [apply Rabs_pos|lra]|]. 
      rewrite <- (Rabs_pos_eq (delta x')) by lra. rewrite <- Rabs_mult, RP, Rabs_mult. apply quarter; lra. }
    assert (R3 : rho * rho * (mu * mu) <= 1 / 16).
    { assert (Q : rho * rho * (mu * mu) = (Rabs rho * mu) * (Rabs rho * mu)) by (unfold Rabs; destruct (Rcase_abs rho); ring). rewrite Q. assert (0 <= Rabs rho * mu) by (apply Rmult_le_pos; [apply Rabs_pos|lra]). nra. }
    assert (ST : s * t * (s * t) <= 1 / 16) by (assert (s * s <= 1 / 4) by (unfold s; nra); assert (t * t <= 1 / 4) by (unfold t; nra); assert (0 <= s * s) by nra; assert (0 <= t * t) by nra; replace (s * t * (s * t)) with ((s * s) * (t * t)) by ring; nra).
    assert (DD : d1 * d1 + d2 * d2 <= 4).
    { assert (B1 := Rabs_pos d1). assert (B2 := Rabs_pos d2). assert (d1 * d1 = Rabs d1 * Rabs d1) by (unfold Rabs; destruct (Rcase_abs d1); ring).
      assert (d2 * d2 = Rabs d2 * Rabs d2) by (unfold Rabs; destruct (Rcase_abs d2); ring). nra. }
    assert (MM : 0 < mu * mu) by nra.
    apply (Rmult_le_reg_r (mu * mu)); [exact MM|]. replace (1 / (16 * mu * mu) * (mu * mu)) with (1 / 16) by (field; lra).
    assert (0 <= d1 * d1 + d2 * d2) by nra. assert (0 <= s * t * (s * t)) by nra. assert (0 <= rho * rho * (mu * mu)) by (apply Rmult_le_pos; nra).
    replace (s * t * rho * (s * t * rho) * (d1 * d1 + d2 * d2) * (mu * mu)) with ((s * t * (s * t)) * (rho * rho * (mu * mu)) * (d1 * d1 + d2 * d2)) by ring.
    apply Rle_trans with (1 / 16 * (1 / 16) * 4); [|lra]. apply Rmult_le_compat; [apply Rmult_le_pos; assumption|assumption| |assumption]. apply Rmult_le_compat; assumption. }
  destruct fuel as [|fuel]; [lia|]. cbn [ml_newton]. rewrite E. fold x'.
  destruct aff; [eexists; split; [reflexivity|discriminate]|]. destruct (Rltb tol (norm2 2 dx)) eqn:Q.
  - destruct (second_run y xs false Hy n x' (s * t) fuel ltac:(lia) R' NZ PP Hb) as (z & EZ & V). exists z. split; [exact EZ|]. intros _. specialize (V eq_refl).
    assert (mu * mu <= 1) by nra. assert (0 <= dist2 xs z) by (unfold dist2; apply Rplus_le_le_0_compat; apply Rle_0_sqr). apply Rle_trans with (dist2 xs z * 1); [now apply Rmult_le_compat_l|lra].
  - eexists. split; [reflexivity|]. intros _. assert (NT : norm2 2 dx <= tol).
    { destruct (Rle_lt_dec (norm2 2 dx) tol); [assumption|]. exfalso. assert (Rltb tol (norm2 2 dx) = true) by (now apply Rltb_true). congruence. }
    apply Rle_trans with (2 := NT). rewrite (dist_ray xs _ _ R'). destruct R' as [V0 V1]. unfold x' in V0, V1. rewrite X0 in V0. rewrite X1 in V1.
    unfold norm2. cbn. replace (dx 0%nat) with (- (s * (1 + q))) by (unfold q, s in *; lra). replace (dx 1%nat) with (- (t * (1 + p))) by (unfold p, t in *; lra).
    assert (U1 : mu * mu <= (1 + q) * (1 + q)) by (assert (B2 := Rle_abs (- q)); rewrite Rabs_Ropp in B2; nra).
    assert (U2 : mu * mu <= (1 + p) * (1 + p)) by (assert (B2 := Rle_abs (- p)); rewrite Rabs_Ropp in B2; nra).
    assert (W1 : q * q <= 1) by (unfold Rabs in *; destruct (Rcase_abs q), (Rcase_abs p); nra).
    assert (W2 : p * p <= 1) by (unfold Rabs in *; destruct (Rcase_abs q), (Rcase_abs p); nra).
    replace (s * t * (s * t) * (d1 * d1 + d2 * d2) * (mu * mu)) with (s * s * (q * q * (mu * mu)) + t * t * (p * p * (mu * mu))) by (unfold p, q; ring).
    assert (0 <= s * s) by nra. assert (0 <= t * t) by nra. assert (MM : 0 < mu * mu) by nra.
    assert (q * q * (mu * mu) <= (1 + q) * (1 + q)) by nra. assert (p * p * (mu * mu) <= (1 + p) * (1 + p)) by nra.
    replace (0 + - (s * (1 + q)) * - (s * (1 + q)) + - (t * (1 + p)) * - (t * (1 + p))) with (s * s * ((1 + q) * (1 + q)) + t * t * ((1 + p) * (1 + p))) by ring.
    apply Rplus_le_compat; apply Rmult_le_compat_l; assumption.
Qed.
End Step.
