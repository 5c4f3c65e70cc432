(** Newton's iteration of MultiLinearGeometry::local on planar quadrilaterals. *)
From Coq Require Import PeanoNat NArith Lia Bool List Reals Lra FunctionalExtensionality.
From Coquelicot Require Import Coquelicot.
From Verif Require Import M_Type M_RefTopo M_RefGeo M_Matrix M_MultiLinear S_Topo S_RefGeo S_Matrix S_MultiLinear P_Topo P_RSum P_RefGeo P_RefGeo2 P_RefGeo3
  P_Det P_MxBridge P_DetInv P_Matrix P_Matrix3 P_Matrix4 P_RefVol P_ML1 P_ML2 P_ML3 P_ML5 P_RefTopo2 P_Volume T_RefGeo T_Matrix T_MultiLinear T_Volume.
Import ListNotations.
Local Open Scope R_scope.

(** bilinear map of a quadrilateral, one component *)
Definition qmap (c0 c1 c2 c3 : Vec) (x : Vec) (k : nat) : R :=
  (1 - x 1%nat) * ((1 - x 0%nat) * c0 k + x 0%nat * c1 k) + x 1%nat * ((1 - x 0%nat) * c2 k + x 0%nat * c3 k).
(** the twist c0 - c1 - c2 + c3 *)
Definition qd (c0 c1 c2 c3 : Vec) (k : nat) : R := c0 k - c1 k - c2 k + c3 k.
(** derivative of the determinant in either direction *)
Definition qal (c0 c1 c2 c3 : Vec) : R := (c1 0%nat - c0 0%nat) * qd c0 c1 c2 c3 1%nat - (c1 1%nat - c0 1%nat) * qd c0 c1 c2 c3 0%nat.
Definition qbe (c0 c1 c2 c3 : Vec) : R := qd c0 c1 c2 c3 0%nat * (c2 1%nat - c0 1%nat) - qd c0 c1 c2 c3 1%nat * (c2 0%nat - c0 0%nat).

Lemma qdet_affine c0 c1 c2 c3 u v p q : qdet c0 c1 c2 c3 (u + p) (v + q) = qdet c0 c1 c2 c3 u v + qal c0 c1 c2 c3 * p + qbe c0 c1 c2 c3 * q.
Proof. unfold qdet, qal, qbe, qd. ring. Qed.

(** more fuel does not change a result *)
Lemma newton_mono mydim cdim tol jv jm jk j1 j2 g fl y r : r <> OutOfFuel -> forall fuel fuel' x, (fuel <= fuel')%nat ->
  ml_newton mydim cdim tol jv jm jk j1 j2 fuel g fl y x = r -> ml_newton mydim cdim tol jv jm jk j1 j2 fuel' g fl y x = r.
Proof.
  intros Hr fuel. induction fuel as [|fuel IH]; intros fuel' x L H; [cbn in H; congruence|]. destruct fuel' as [|fuel']; [lia|]. cbn [ml_newton] in *.
  destruct (ml_step mydim cdim tol jv jm jk j1 j2 g y x) as [[[] dx]|]; auto. destruct fl; [exact H|]. destruct (Rltb tol (norm2 mydim dx)); [|exact H]. apply (IH fuel'); [lia|exact H].
Qed.

Section Quad.
Variables (cdim : nat) (tol : R) (jv : Vec) (jm jk j1 j2 : Mat) (g : MLGeo) (c0 c1 c2 c3 : Vec).
Hypothesis (Ht : 0 <= tol) (wf : ml_wf 2 g) (Hid : ml_id g = 2%N \/ ml_id g = 3%N) (EC : ml_corners g = [c0; c1; c2; c3]).

Lemma quad_global x : exists G, mlg_global 2 cdim tol jv g x = Some G /\ forall k, (k < cdim)%nat -> G k = qmap c0 c1 c2 c3 x k.
Proof.
  eexists. split; [apply (global_spec 2 cdim tol g wf)|]. intros k Hk. unfold vset. rewrite (proj2 (Nat.ltb_lt k cdim)) by assumption.
  assert (Q := GF_base tol (fun i => nth i (ml_corners g) vzero k) x). unfold GF in Q. rewrite <- nv_T with (id := ml_id g), <- (lt_pyrs _ Hid 0) in Q by assumption.
  unfold comb. refine (eq_trans Q _). rewrite EC. reflexivity.
Qed.
Lemma quad_jac x : exists J, mlg_jacobianTransposed 2 cdim tol jm jk g x = Some J /\
  forall k, (k < cdim)%nat -> J 0%nat k = c1 k - c0 k + x 1%nat * qd c0 c1 c2 c3 k /\ J 1%nat k = c2 k - c0 k + x 0%nat * qd c0 c1 c2 c3 k.
Proof.
  destruct (cone_jt (ml_id g) 0 g Hid eq_refl wf tol cdim jm jk x Ht) as (J & EJ & VJ).
  { destruct Hid as [-> | ->]; cbn; auto. }
  exists J. split; [exact EJ|]. intros k Hk. rewrite !VJ by lia. rewrite EC. cbn [base fst snd]. unfold coneM, qrow, dd, qd. cbn [nth]. split; ring.
Qed.
Lemma quad_centre : exists p, re_position (ml_id g) 2 (ml_ref g) 0 0 = Some p /\ p 0%nat = 1/2 /\ p 1%nat = 1/2.
Proof.
  destruct (center_spec 2 g wf) as (p & EP & VP). exists p. split; [exact EP|].
  assert (B := base_mean _ Hid 0). change (0 + 2)%nat with 2%nat in B.
  assert (B0 : meanT (topo_of (ml_id g) 2) 0%nat = 1/2) by exact (f_equal fst B). assert (B1 : meanT (topo_of (ml_id g) 2) 1%nat = 1/2) by exact (f_equal snd B).
  now rewrite !VP, B0, B1 by lia.
Qed.
Lemma quad_in x : inside_ref 2 g x <-> 0 <= x 0%nat <= 1 /\ 0 <= x 1%nat <= 1.
Proof. rewrite inside_T, insideT_lt. change 2%nat with (0 + 2)%nat at 1. rewrite (lt_pyrs _ Hid 0). cbn. tauto. Qed.
End Quad.

Section Planar.
Variables (tol : R) (jv : Vec) (jm jk j1 j2 : Mat) (g : MLGeo) (c0 c1 c2 c3 : Vec).
Hypothesis (Ht : 0 <= tol) (wf : ml_wf 2 g) (Hid : ml_id g = 2%N \/ ml_id g = 3%N) (EC : ml_corners g = [c0; c1; c2; c3]).
Notation F := (qmap c0 c1 c2 c3).
Notation d := (qd c0 c1 c2 c3).
Notation al := (qal c0 c1 c2 c3).
Notation be := (qbe c0 c1 c2 c3).
Notation D x := (qdet c0 c1 c2 c3 (x 0%nat) (x 1%nat)).
Notation step := (ml_step 2 2 tol jv jm jk j1 j2 g).
Notation newton := (ml_newton 2 2 tol jv jm jk j1 j2).

(** one step solves the linear system exactly, or finds the determinant to vanish *)
Lemma step_spec y x :
  (D x <> 0 -> exists dx, step y x = Some (true, dx) /\ forall k, (k < 2)%nat ->
     (c1 k - c0 k + x 1%nat * d k) * dx 0%nat + (c2 k - c0 k + x 0%nat * d k) * dx 1%nat = F x k - y k) /\
  (D x = 0 -> exists dx, step y x = Some (false, dx)).
Proof.
  destruct (quad_global 2 tol jv g c0 c1 c2 c3 wf Hid EC x) as (G & EG & VG). destruct (quad_jac 2 tol jm jk g c0 c1 c2 c3 Ht wf Hid EC x) as (J & EJ & VJ).
  unfold ml_step. rewrite EG. cbn [obind]. rewrite EJ. cbn [obind].
  destruct (C25_xTRightInvA 2 2 J (fun k => G k - y k) j1 j2 (le_n 2)) as [H1 H2].
  destruct (VJ 0%nat ltac:(lia)) as [J00 J10]. destruct (VJ 1%nat ltac:(lia)) as [J01 J11].
  assert (DJ : D x = J 0%nat 0%nat * J 1%nat 1%nat - J 0%nat 1%nat * J 1%nat 0%nat) by (rewrite J00, J01, J10, J11; unfold qdet, qd; ring).
  split; intro HD.
  - assert (HR : row_independent 2 2 J).
    { intros v Hv. assert (A := Hv 0%nat ltac:(lia)). assert (B := Hv 1%nat ltac:(lia)). unfold mvec, mtr in A, B. cbn in A, B.
      assert (v 0%nat * D x = 0). { rewrite DJ. replace (_ * _) with ((0 + J 0%nat 0%nat * v 0%nat + J 1%nat 0%nat * v 1%nat) * J 1%nat 1%nat - (0 + J 0%nat 1%nat * v 0%nat + J 1%nat 1%nat * v 1%nat) * J 1%nat 0%nat) by ring. rewrite A, B. ring. }
      assert (v 1%nat * D x = 0). { rewrite DJ. replace (_ * _) with ((0 + J 0%nat 1%nat * v 0%nat + J 1%nat 1%nat * v 1%nat) * J 0%nat 0%nat - (0 + J 0%nat 0%nat * v 0%nat + J 1%nat 0%nat * v 1%nat) * J 0%nat 1%nat) by ring. rewrite A, B. ring. }
      intros i Hi. apply Rmult_integral in H. apply Rmult_integral in H0. destruct i as [|[|]]; [tauto|tauto|lia]. }
    destruct (H1 HR) as (dx & E & V & _). exists dx. split; [exact E|].
    assert (V0 := V 0%nat ltac:(lia)). assert (V1 := V 1%nat ltac:(lia)). unfold mvec, mmul, mtr in V0, V1. cbn in V0, V1.
    set (w k := J 0%nat k * dx 0%nat + J 1%nat k * dx 1%nat - (G k - y k)).
    assert (W0 : J 0%nat 0%nat * w 0%nat + J 0%nat 1%nat * w 1%nat = 0) by (unfold w; lra).
    assert (W1 : J 1%nat 0%nat * w 0%nat + J 1%nat 1%nat * w 1%nat = 0) by (unfold w; lra).
    assert (A : w 0%nat * D x = 0).
    { rewrite DJ. replace (_ * _) with ((J 0%nat 0%nat * w 0%nat + J 0%nat 1%nat * w 1%nat) * J 1%nat 1%nat - (J 1%nat 0%nat * w 0%nat + J 1%nat 1%nat * w 1%nat) * J 0%nat 1%nat) by ring. rewrite W0, W1. ring. }
    assert (B : w 1%nat * D x = 0).
    { rewrite DJ. replace (_ * _) with ((J 1%nat 0%nat * w 0%nat + J 1%nat 1%nat * w 1%nat) * J 0%nat 0%nat - (J 0%nat 0%nat * w 0%nat + J 0%nat 1%nat * w 1%nat) * J 1%nat 0%nat) by ring. rewrite W0, W1. ring. }
    apply Rmult_integral in A. apply Rmult_integral in B.
    intros k Hk. destruct (VJ k Hk) as [<- <-]. rewrite <- (VG k Hk). destruct k as [|[|]]; [| |lia]; unfold w in *; lra.
  - apply H2. intro HR.
    assert (N : forall i j, (i < 2)%nat -> (j < 2)%nat -> J i j = 0).
    { assert (Q1 := HR (fun i => if Nat.eqb i 0 then J 1%nat 0%nat else - J 0%nat 0%nat)). assert (Q2 := HR (fun i => if Nat.eqb i 0 then J 1%nat 1%nat else - J 0%nat 1%nat)).
      unfold mvec, mtr, veq in Q1, Q2. cbn in Q1, Q2.
      assert (R1 := Q1 ltac:(intros [|[|]] ?; [ring|cbv [vzero]; lra|lia])). assert (R2 := Q2 ltac:(intros [|[|]] ?; [cbv [vzero]; lra|cbv [vzero]; lra|lia])).
      assert (A := R1 0%nat ltac:(lia)). assert (B := R1 1%nat ltac:(lia)). assert (C := R2 0%nat ltac:(lia)). assert (E := R2 1%nat ltac:(lia)). cbn in A, B, C, E. unfold vzero in *.
      intros [|[|]] [|[|]] ? ?; try lia; lra. }
    assert (Q := HR (fun _ => 1)). unfold mvec, mtr, veq in Q. cbn in Q. assert (Q' := Q ltac:(intros j Hj; rewrite !N by lia; unfold vzero; ring) 0%nat ltac:(lia)). cbn in Q'. unfold vzero in Q'. lra.
Qed.

(** the error after a step: a product of the errors before, along a fixed direction *)
Lemma step_error y x xs dx : D x <> 0 -> (forall k, (k < 2)%nat -> F xs k = y k) -> step y x = Some (true, dx) ->
  let p := x 0%nat - xs 0%nat in let q := x 1%nat - xs 1%nat in
  x 0%nat - dx 0%nat - xs 0%nat = p * q / D x * be /\ x 1%nat - dx 1%nat - xs 1%nat = p * q / D x * al.
Proof.
  intros HD Hxs E p q. destruct (proj1 (step_spec y x) HD) as (dx' & E' & V). rewrite E in E'. injection E' as <-.
  assert (V0 := V 0%nat ltac:(lia)). assert (V1 := V 1%nat ltac:(lia)). rewrite <- Hxs in V0, V1 by lia.
  set (w0 := x 0%nat - dx 0%nat - xs 0%nat). set (w1 := x 1%nat - dx 1%nat - xs 1%nat).
  replace (dx 0%nat) with (p - w0) in * by (unfold p, w0; ring). replace (dx 1%nat) with (q - w1) in * by (unfold q, w1; ring).
  assert (K : forall k, F x k - F xs k = (c1 k - c0 k + x 1%nat * d k) * p + (c2 k - c0 k + x 0%nat * d k) * q - d k * (p * q)) by (intro k; unfold qmap, qd, p, q; ring).
  rewrite K in V0, V1.
  assert (U0 : (c1 0%nat - c0 0%nat + x 1%nat * d 0%nat) * w0 + (c2 0%nat - c0 0%nat + x 0%nat * d 0%nat) * w1 = d 0%nat * (p * q)) by lra.
  assert (U1 : (c1 1%nat - c0 1%nat + x 1%nat * d 1%nat) * w0 + (c2 1%nat - c0 1%nat + x 0%nat * d 1%nat) * w1 = d 1%nat * (p * q)) by lra.
  split.
  - apply (Rmult_eq_reg_r (D x)); [|exact HD]. replace (p * q / D x * be * D x) with (p * q * be) by (field; exact HD).
    replace (w0 * D x) with (((c1 0%nat - c0 0%nat + x 1%nat * d 0%nat) * w0 + (c2 0%nat - c0 0%nat + x 0%nat * d 0%nat) * w1) * (c2 1%nat - c0 1%nat + x 0%nat * d 1%nat)
      - ((c1 1%nat - c0 1%nat + x 1%nat * d 1%nat) * w0 + (c2 1%nat - c0 1%nat + x 0%nat * d 1%nat) * w1) * (c2 0%nat - c0 0%nat + x 0%nat * d 0%nat)) by (unfold qdet, qd; ring).
    rewrite U0, U1. unfold qbe. ring.
  - apply (Rmult_eq_reg_r (D x)); [|exact HD]. replace (p * q / D x * al * D x) with (p * q * al) by (field; exact HD).
    replace (w1 * D x) with (((c1 1%nat - c0 1%nat + x 1%nat * d 1%nat) * w0 + (c2 1%nat - c0 1%nat + x 0%nat * d 1%nat) * w1) * (c1 0%nat - c0 0%nat + x 1%nat * d 0%nat)
      - ((c1 0%nat - c0 0%nat + x 1%nat * d 0%nat) * w0 + (c2 0%nat - c0 0%nat + x 0%nat * d 0%nat) * w1) * (c1 1%nat - c0 1%nat + x 1%nat * d 1%nat)) by (unfold qdet, qd; ring).
    rewrite U0, U1. unfold qal. ring.
Qed.

Lemma F_ext x x' k : x 0%nat = x' 0%nat -> x 1%nat = x' 1%nat -> F x k = F x' k.
Proof. intros H H'. unfold qmap. now rewrite H, H'. Qed.
Lemma rltb_le a b : a <= b -> Rltb b a = false.
Proof. intro H. destruct (Rltb b a) eqn:E; [|reflexivity]. apply Rltb_true in E. lra. Qed.

(** From the second iterate on the error is t times a fixed vector, and the factors follow a
    scalar recurrence. *)
Variables (y xs : Vec).
Hypothesis Hxs : forall k, (k < 2)%nat -> F xs k = y k.
Hypothesis HDs : D xs <> 0.
Let M := be * be + al * al.
Definition sg (t : R) : R := al * be * t / D xs.
Definition along (t : R) (x : Vec) : Prop := x 0%nat - xs 0%nat = t * be /\ x 1%nat - xs 1%nat = t * al.

Lemma along_det t x : along t x -> D x = D xs * (1 + 2 * sg t).
Proof.
  intros [H0 H1]. replace (x 0%nat) with (xs 0%nat + t * be) by lra. replace (x 1%nat) with (xs 1%nat + t * al) by lra.
  rewrite qdet_affine. unfold sg. field. exact HDs.
Qed.
Lemma along_step t x : along t x -> 0 < 1 + 2 * sg t ->
  exists dx, step y x = Some (true, dx) /\ let t' := t * sg t / (1 + 2 * sg t) in
    along t' (fun k => x k - dx k) /\ norm2 2 dx = (t - t') * (t - t') * M.
Proof.
  intros HA Hs. assert (HD := along_det t x HA).
  assert (NZ : D x <> 0) by (rewrite HD; apply Rmult_integral_contrapositive_currified; [exact HDs|lra]).
  destruct (proj1 (step_spec y x) NZ) as (dx & E & _). exists dx. split; [exact E|]. intro t'.
  destruct (step_error y x xs dx NZ Hxs E) as [E0 E1]. destruct HA as [A0 A1]. rewrite A0, A1, HD in E0, E1.
  assert (T : t * be * (t * al) / (D xs * (1 + 2 * sg t)) = t').
  { replace (t * be * (t * al)) with (t * (al * be * t / D xs) * D xs) by (field; exact HDs). fold (sg t). unfold t'. field. repeat split; try exact HDs; lra. }
  rewrite T in E0, E1. split; [split; assumption|].
  unfold norm2. cbn [rsum]. replace (dx 0%nat) with ((t - t') * be) by lra. replace (dx 1%nat) with ((t - t') * al) by lra. unfold M. ring.
Qed.
(** the factor stays on the side of the solution *)
Lemma sg_next t : 0 < 1 + 2 * sg t -> sg (t * sg t / (1 + 2 * sg t)) = sg t * sg t / (1 + 2 * sg t).
Proof. intro H. unfold sg at 1. replace (sg t * sg t) with (al * be * t / D xs * sg t) by reflexivity. field. repeat split; try exact HDs; lra. Qed.
Lemma sg_nonneg t : 0 < 1 + 2 * sg t -> 0 <= sg t * sg t / (1 + 2 * sg t).
Proof. intro H. apply Rmult_le_pos; [apply Rle_0_sqr|]. apply Rlt_le, Rinv_0_lt_compat, H. Qed.

Lemma M_nonneg : 0 <= M. Proof. unfold M. assert (0 <= be * be) by apply Rle_0_sqr. assert (0 <= al * al) by apply Rle_0_sqr. lra. Qed.

(** the returned point *)
Definition close (z : Vec) : Prop := sqrt (norm2 2 (fun k => z k - xs k)) * Rabs (D xs) <= tol * sqrt M.

Lemma along_norm t z : along t z -> norm2 2 (fun k => z k - xs k) = t * t * M.
Proof. intros [H0 H1]. unfold norm2. cbn [rsum]. rewrite H0, H1. unfold M. ring. Qed.
Lemma sqrt_sq_mul t : sqrt (t * t * M) = Rabs t * sqrt M.
Proof. rewrite sqrt_mult_alt by apply Rle_0_sqr. change (t * t) with (Rsqr t). now rewrite (sqrt_Rsqr_abs t). Qed.
Lemma albe_M : 2 * Rabs (al * be) <= M.
Proof. unfold M. rewrite Rabs_mult. assert (0 <= (Rabs al - Rabs be) * (Rabs al - Rabs be)) by apply Rle_0_sqr.
  replace (al * al) with (Rabs al * Rabs al) by exact (eq_sym (Rsqr_abs al)). replace (be * be) with (Rabs be * Rabs be) by exact (eq_sym (Rsqr_abs be)). lra. Qed.

Lemma along_close t x z : along t x -> 0 < 1 + 2 * sg t -> let t' := t * sg t / (1 + 2 * sg t) in (t - t') * (t - t') * M <= tol -> along t' z -> close z.
Proof.
  intros HA Hs t' HT Hz. unfold close. rewrite (along_norm t' z Hz), sqrt_sq_mul.
  set (s := sg t) in *. assert (S1 : 0 < (1 + s) * (1 + s)) by nra.
  assert (ET : t' = (al * be / D xs) * ((t - t') * (t - t')) * ((1 + 2 * s) / ((1 + s) * (1 + s)))).
  { assert (K : s = al * be / D xs * t) by (unfold s, sg; field; exact HDs). assert (D1 : t - t' = t * (1 + s) / (1 + 2 * s)) by (unfold t'; field; lra).
    rewrite D1. transitivity (al * be / D xs * t * t / (1 + 2 * s)); [rewrite <- K; unfold t'; field; lra|]. generalize (al * be / D xs). intro kk. field. split; lra. }
  assert (F1 : 0 <= (1 + 2 * s) / ((1 + s) * (1 + s)) <= 1).
  { split; [apply Rmult_le_pos; [lra|apply Rlt_le, Rinv_0_lt_compat, S1]|]. apply (Rmult_le_reg_r ((1 + s) * (1 + s))); [exact S1|]. unfold Rdiv. rewrite Rmult_assoc, Rinv_l by lra. nra. }
  assert (PD : 0 < Rabs (D xs)) by now apply Rabs_pos_lt.
  assert (AT : Rabs t' * Rabs (D xs) <= Rabs (al * be) * ((t - t') * (t - t'))).
  { rewrite ET at 1. rewrite !Rabs_mult. rewrite (Rabs_pos_eq ((1 + 2 * s) / _)) by lra. unfold Rdiv at 1. rewrite Rabs_mult, Rabs_Rinv by exact HDs. rewrite <- (Rabs_mult (t - t')), (Rabs_pos_eq ((t - t') * (t - t'))) by apply Rle_0_sqr.
    set (w := (t - t') * (t - t')). set (f := (1 + 2 * s) / ((1 + s) * (1 + s))) in *. rewrite Rabs_mult.
    replace (Rabs al * Rabs be * / Rabs (D xs) * w * f * Rabs (D xs)) with (Rabs al * Rabs be * w * f) by (field; lra).
    assert (0 <= Rabs al * Rabs be * w) by (apply Rmult_le_pos; [apply Rmult_le_pos; apply Rabs_pos|apply Rle_0_sqr]). nra. }
  destruct (Req_dec M 0) as [Z|Z].
  - rewrite Z, sqrt_0. lra.
  - assert (PM := M_nonneg). assert (B := albe_M). assert (0 < sqrt M) by (apply sqrt_lt_R0; lra).
    replace (Rabs t' * sqrt M * Rabs (D xs)) with (Rabs t' * Rabs (D xs) * sqrt M) by ring. apply Rmult_le_compat_r; [lra|].
    eapply Rle_trans; [exact AT|]. assert (0 <= (t - t') * (t - t')) by apply Rle_0_sqr. assert (0 <= (t - t') * (t - t') * (M - 2 * Rabs (al * be))) by (apply Rmult_le_pos; lra). lra.
Qed.

Lemma contract t : 0 <= sg t -> let t' := t * sg t / (1 + 2 * sg t) in t' * t' * 4 <= t * t /\ (t - t') * (t - t') <= t * t.
Proof.
  intro Hs. set (s := sg t) in *. set (f := s / (1 + 2 * s)). assert (0 <= f <= 1/2).
  { unfold f. split; [apply Rmult_le_pos; [lra|apply Rlt_le, Rinv_0_lt_compat; lra]|]. apply (Rmult_le_reg_r (1 + 2 * s)); [lra|]. unfold Rdiv. rewrite Rmult_assoc, Rinv_l by lra. lra. }
  cbv zeta. replace (t * s / (1 + 2 * s)) with (t * f) by (unfold f; field; lra). assert (0 <= t * t) by apply Rle_0_sqr.
  assert (f * f * 4 <= 1) by nra. assert ((1 - f) * (1 - f) <= 1) by nra. split.
  - replace (t * f * (t * f) * 4) with (t * t * (f * f * 4)) by ring. nra.
  - replace ((t - t * f) * (t - t * f)) with (t * t * ((1 - f) * (1 - f))) by ring. nra.
Qed.
(** [n] halvings suffice *)
Lemma along_loop n : forall t x, along t x -> 0 <= sg t -> t * t * M <= tol * 4 ^ n ->
  exists z, newton (S n) g false y x = Done (LocPt z) /\ close z.
Proof.
  induction n as [|n IH]; intros t x HA Hs HT; destruct (along_step t x HA ltac:(lra)) as (dx & E & HA' & N); set (t' := t * sg t / (1 + 2 * sg t)) in *.
  all: assert (QT := contract t Hs); fold t' in QT.
  - assert (PM := M_nonneg). cbn [ml_newton]. rewrite E, rltb_le by (rewrite N; rewrite pow_O, Rmult_1_r in HT; destruct QT; nra).
    eexists. split; [reflexivity|]. apply (along_close t x _ HA ltac:(lra)); [fold t'; rewrite pow_O, Rmult_1_r in HT; destruct QT; nra|exact HA'].
  - assert (PM := M_nonneg). remember (S n) as m. cbn [ml_newton]. rewrite E. destruct (Rltb tol (norm2 2 dx)) eqn:L.
    + subst m. apply (IH t'); [exact HA'| |].
      * unfold t'. rewrite sg_next by lra. apply sg_nonneg. lra.
      * cbn [pow] in HT. destruct QT. nra.
    + eexists. split; [reflexivity|]. apply (along_close t x _ HA ltac:(lra)); [fold t'|exact HA']. rewrite <- N. destruct (Rle_lt_dec (norm2 2 dx) tol) as [|Q]; [assumption|]. apply Rltb_true in Q. congruence.
Qed.

(** start anywhere on the line, on the side of the solution *)
Lemma along_start n t x : along t x -> 0 < 1 + 2 * sg t -> let t' := t * sg t / (1 + 2 * sg t) in t' * t' * M <= tol * 4 ^ n ->
  exists z, newton (S (S n)) g false y x = Done (LocPt z) /\ close z.
Proof.
  intros HA Hs t' HT. destruct (along_step t x HA Hs) as (dx & E & HA' & N). fold t' in HA', N.
  remember (S n) as m. cbn [ml_newton]. rewrite E. destruct (Rltb tol (norm2 2 dx)) eqn:L.
  - subst m. apply (along_loop n t'); [exact HA'| |exact HT]. unfold t'. rewrite sg_next by lra. now apply sg_nonneg.
  - eexists. split; [reflexivity|]. apply (along_close t x _ HA Hs); [fold t'|exact HA']. rewrite <- N. destruct (Rle_lt_dec (norm2 2 dx) tol) as [|Q]; [assumption|]. apply Rltb_true in Q. congruence.
Qed.
End Planar.
