(** * C99  The integration elements of quadrilaterals and hexahedra in IEEE arithmetic *)
From Coq Require Import PeanoNat NArith ZArith Bool List Reals Lra Lia FunctionalExtensionality.
From Flocq Require Import Core IEEE754.BinarySingleNaN.
From Verif Require Import M_Type M_RefTopo M_RefGeo M_Matrix M_MultiLinear M_Float M_FloatGlobal M_FloatLocal S_Topo S_RefGeo S_Matrix S_MultiLinear S_FloatGlobal S_FloatMat
  P_Type P_RefTopo P_RefTopo3 P_RSum P_RefGeo P_RefGeo2 P_RefGeo3 P_ML1 P_ML2 P_ML3 P_Float P_Float2 P_FloatNear P_FloatErr P_FloatGlobal P_FloatGlobal2 P_FloatGlobal3 P_FloatGlobal4 P_FloatGlobal6
  P_FloatMat2 P_FloatMat4 T_RefGeo T_Float T_FloatGlobal T_FloatLocal T_FloatMat P_FloatJac P_FloatJac2 T_FloatJac.
Import ListNotations.
Local Open Scope R_scope.

(** products of nearby numbers *)
Lemma prod2_near a b c d e M : Rabs a <= M -> Rabs d <= M -> Rabs (a - c) <= e -> Rabs (b - d) <= e -> Rabs (a * b - c * d) <= 2 * M * e.
Proof.
  intros A D E F. replace (a * b - c * d) with (a * (b - d) + d * (a - c)) by ring. eapply Rle_trans; [apply Rabs_triang|]. rewrite !Rabs_mult.
  pose proof (Rabs_pos a). pose proof (Rabs_pos d). pose proof (Rabs_pos (a - c)). pose proof (Rabs_pos (b - d)).
  assert (Rabs a * Rabs (b - d) <= M * e) by (apply Rmult_le_compat; assumption).
  assert (Rabs d * Rabs (a - c) <= M * e) by (apply Rmult_le_compat; assumption). lra.
Qed.
Lemma prod3_near a b c a' b' c' e M : Rabs a <= M -> Rabs b <= M -> Rabs a' <= M -> Rabs b' <= M -> Rabs c' <= M -> Rabs (a - a') <= e -> Rabs (b - b') <= e -> Rabs (c - c') <= e ->
  Rabs (a * b * c - a' * b' * c') <= 3 * M * M * e.
Proof.
  intros A B A' B' C' E F G. replace (a * b * c - a' * b' * c') with (a * b * (c - c') + c' * (a * b - a' * b')) by ring.
  eapply Rle_trans; [apply Rabs_triang|]. rewrite !Rabs_mult.
  pose proof (Rabs_pos a) as Pa. pose proof (Rabs_pos b) as Pb. pose proof (Rabs_pos (c - c')) as Pc. pose proof (Rabs_pos c') as Pc'.
  pose proof (prod2_near a b a' b' e M A B' E F) as Q. pose proof (Rabs_pos (a * b - a' * b')) as Pq.
  assert (Rabs a * Rabs b * Rabs (c - c') <= M * M * e) by (apply Rmult_le_compat; [now apply Rmult_le_pos|assumption|apply Rmult_le_compat; assumption|assumption]).
  assert (Rabs c' * Rabs (a * b - a' * b') <= M * (2 * M * e)) by (apply Rmult_le_compat; assumption). lra.
Qed.
Lemma abs_prod2 a b M : Rabs a <= M -> Rabs b <= M -> Rabs (a * b) <= M * M.
Proof. intros A B. rewrite Rabs_mult. apply Rmult_le_compat; try assumption; apply Rabs_pos. Qed.
Lemma abs_prod3 a b c M : Rabs a <= M -> Rabs b <= M -> Rabs c <= M -> Rabs (a * b * c) <= M * M * M.
Proof. intros A B C. rewrite Rabs_mult. apply Rmult_le_compat; try assumption; try apply Rabs_pos. now apply abs_prod2. Qed.

Lemma cube_size id dim : is_cube id dim -> size id dim dim = (2 ^ dim)%nat.
Proof.
  intro C. rewrite size_lt. unfold is_cube in C. rewrite <- cones_lt in C. rewrite <- (tdim_lt id dim) at 2. revert C. generalize (lt id dim). clear.
  induction t as [|b IH|b IH]; cbn [cones nv tdim Nat.pow]; intro C; [reflexivity| |discriminate C]. rewrite IH by exact C. lia.
Qed.

Section C99.
Variables (prec emax : Z).
Context (Hp : Prec_gt_0 prec) (He : Prec_lt_emax prec emax).
Notation float := (binary_float prec emax).
Notation FVec := (nat -> float).
Notation FMat := (nat -> nat -> float).
Notation u := (bpow radix2 (- prec)).
Notation eta := (bpow radix2 (2 - emax - prec)).
Notation one := (ofZ prec emax Hp He 1).
Notation add := (fadd prec emax Hp He).
Notation sub := (fsub prec emax Hp He).
Notation mul := (fmul prec emax Hp He).
Notation big := (bpow radix2 (emax - 1)).
Notation rnd := (round radix2 (SpecFloat.fexp prec emax) (round_mode mode_NE)).
Notation jacobianTransposed := (fmlg_jacobianTransposed prec emax Hp He).
Notation integrationElement := (fmlg_integrationElement prec emax Hp He).
Notation gam := (gam prec).
Notation grow := (grow prec).

Section ops.
Hypothesis P9 : (9 <= prec)%Z.
Lemma rnd_twice v X : Rabs v <= X -> 1 <= X -> Rabs (rnd v) <= 2 * X.
Proof.
  intros H H1. pose proof (rnd_rel prec emax Hp v) as Q. destruct (u_small prec ltac:(lia)) as (U0 & U1). destruct (eta_small prec emax He ltac:(lia)) as (N0 & N1).
  pose proof (Rabs_triang (rnd v - v) v) as T. replace (rnd v - v + v) with (rnd v) in T by ring.
  assert (u * Rabs v <= / 128 * X) by (apply Rmult_le_compat; [lra|apply Rabs_pos|lra|exact H]). lra.
Qed.
Lemma mul_bd a b X Y : is_finite a = true -> is_finite b = true -> Rabs (B2R a) <= X -> Rabs (B2R b) <= Y -> 1 <= X * Y -> X * Y <= big ->
  is_finite (mul a b) = true /\ Rabs (B2R (mul a b)) <= 2 * (X * Y).
Proof.
  intros Fa Fb A B H1 HB. assert (Q : Rabs (B2R a * B2R b) <= X * Y) by (rewrite Rabs_mult; apply Rmult_le_compat; try assumption; apply Rabs_pos).
  destruct (fmul_ok prec emax Hp He ltac:(lia) a b Fa Fb ltac:(lra)) as (V & F). split; [exact F|]. rewrite V. now apply rnd_twice.
Qed.
Lemma add_bd a b X Y : is_finite a = true -> is_finite b = true -> Rabs (B2R a) <= X -> Rabs (B2R b) <= Y -> 1 <= X + Y -> X + Y <= big ->
  is_finite (add a b) = true /\ Rabs (B2R (add a b)) <= 2 * (X + Y).
Proof.
  intros Fa Fb A B H1 HB. assert (Q : Rabs (B2R a + B2R b) <= X + Y) by (eapply Rle_trans; [apply Rabs_triang|]; lra).
  destruct (fadd_ok prec emax Hp He ltac:(lia) a b Fa Fb ltac:(lra)) as (V & F). split; [exact F|]. rewrite V. now apply rnd_twice.
Qed.
Lemma sub_bd a b X Y : is_finite a = true -> is_finite b = true -> Rabs (B2R a) <= X -> Rabs (B2R b) <= Y -> 1 <= X + Y -> X + Y <= big ->
  is_finite (sub a b) = true /\ Rabs (B2R (sub a b)) <= 2 * (X + Y).
Proof.
  intros Fa Fb A B H1 HB. assert (Q : Rabs (B2R a - B2R b) <= X + Y) by (unfold Rminus; eapply Rle_trans; [apply Rabs_triang|]; rewrite Rabs_Ropp; lra).
  destruct (fsub_ok prec emax Hp He ltac:(lia) a b Fa Fb ltac:(lra)) as (V & F). split; [exact F|]. rewrite V. now apply rnd_twice.
Qed.
Lemma cross_bd a b c d P : is_finite a = true -> is_finite b = true -> is_finite c = true -> is_finite d = true ->
  Rabs (B2R a) <= P -> Rabs (B2R b) <= P -> Rabs (B2R c) <= P -> Rabs (B2R d) <= P -> 1 <= P -> 4 * (P * P) <= big ->
  is_finite (sub (mul a b) (mul c d)) = true /\ Rabs (B2R (sub (mul a b) (mul c d))) <= 8 * (P * P).
Proof.
  intros Fa Fb Fc Fd A B C D H1 HB. assert (1 <= P * P) by nra.
  destruct (mul_bd a b P P) as (F1 & L1); auto; [lra|]. destruct (mul_bd c d P P) as (F2 & L2); auto; [lra|].
  destruct (sub_bd _ _ _ _ F1 F2 L1 L2) as (F & L); [lra|lra|]. split; [exact F|]. lra.
Qed.
(** the determinants do not overflow *)
Lemma det2_fin (A : FMat) j1 j2 M : 0 <= M -> 16 * ((M + 1) * (M + 1)) <= big ->
  (forall i j, (i < 2)%nat -> (j < 2)%nat -> is_finite (A i j) = true /\ Rabs (B2R (A i j)) <= M) ->
  exists v, fsqrtDetAAT prec emax Hp He 2 2 A j1 j2 = Some v /\ is_finite v = true.
Proof.
  intros M0 HB HA. eexists. split; [reflexivity|]. rewrite is_finite_Babs. unfold fdet22.
  assert (HA' : forall i j, (i < 2)%nat -> (j < 2)%nat -> is_finite (A i j) = true /\ Rabs (B2R (A i j)) <= M + 1).
  { intros i j Hi Hj. destruct (HA i j Hi Hj). split; [assumption|lra]. }
  assert (0 <= (M + 1) * (M + 1)) by nra.
  apply (cross_bd _ _ _ _ (M + 1)); try apply HA'; try lia; lra.
Qed.
Lemma det3_fin (A : FMat) j1 j2 M : 0 <= M -> 128 * ((M + 1) * (M + 1) * (M + 1)) <= big ->
  (forall i j, (i < 3)%nat -> (j < 3)%nat -> is_finite (A i j) = true /\ Rabs (B2R (A i j)) <= M) ->
  exists v, fsqrtDetAAT prec emax Hp He 3 3 A j1 j2 = Some v /\ is_finite v = true.
Proof.
  intros M0 HB HA. eexists. split; [reflexivity|]. rewrite is_finite_Babs. set (P := M + 1) in *. assert (P1 : 1 <= P) by (unfold P; lra).
  assert (HA' : forall i j, (i < 3)%nat -> (j < 3)%nat -> is_finite (A i j) = true /\ Rabs (B2R (A i j)) <= P).
  { intros i j Hi Hj. destruct (HA i j Hi Hj). split; [assumption|unfold P; lra]. }
  assert (Q2 : 1 <= P * P) by nra. assert (Q3 : P * P <= P * P * P) by nra. clearbody P.
  assert (HC : forall i j k l i' j' k' l' m n, (i < 3)%nat -> (j < 3)%nat -> (k < 3)%nat -> (l < 3)%nat -> (i' < 3)%nat -> (j' < 3)%nat -> (k' < 3)%nat -> (l' < 3)%nat ->
    (m < 3)%nat -> (n < 3)%nat -> let v := sub (mul (A i j) (A k l)) (mul (A i' j') (A k' l')) in
    is_finite (mul v (A m n)) = true /\ Rabs (B2R (mul v (A m n))) <= 16 * (P * P * P)).
  { intros i j k l i' j' k' l' m n ? ? ? ? ? ? ? ? ? ? v.
    destruct (cross_bd (A i j) (A k l) (A i' j') (A k' l') P) as (F & L); try (apply HA'; lia); try lra. fold v in F, L.
    destruct (HA' m n) as (F' & L'); try lia. destruct (mul_bd v (A m n) _ _ F F' L L') as (G & K); [nra|nra|]. split; [exact G|]. lra. }
  destruct (HC 0 1 1 2 1 1 0 2 2 0)%nat as (F0 & L0); try lia.
  destruct (HC 0 2 1 0 1 2 0 0 2 1)%nat as (F1 & L1); try lia.
  destruct (HC 0 0 1 1 1 0 0 1 2 2)%nat as (F2 & L2); try lia.
  destruct (add_bd _ _ _ _ F0 F1 L0 L1) as (F3 & L3); [lra|lra|].
  destruct (add_bd _ _ _ _ F3 F2 L3 L2) as (F4 & _); [lra|lra|]. exact F4.
Qed.
End ops.

(** ** the exact derivatives *)
Lemma esum_abs k B : 0 <= B -> forall m (cs : list FVec), (forall c, In c cs -> Rabs (B2R (c k)) <= B) -> Rabs (esum prec emax k m cs) <= asum m * B.
Proof.
  intros B0. induction m as [|b m IH]; intros cs H; cbn [esum asum]; [rewrite Rabs_R0; lra|].
  assert (0 <= asum m) by (clear; induction m as [|b m IH]; cbn [asum]; [lra|]; pose proof (Rabs_pos b); lra).
  pose proof (Rabs_pos b) as Pb. destruct cs as [|c cs]; [rewrite Rabs_R0; nra|]. eapply Rle_trans; [apply Rabs_triang|]. rewrite Rabs_mult.
  pose proof (IH cs (fun c I => H c (or_intror I))). pose proof (H c (or_introl eq_refl)).
  assert (Rabs b * Rabs (B2R (c k)) <= Rabs b * B) by (apply Rmult_le_compat_l; assumption). lra.
Qed.
Lemma derivative_bound id dim (corners : list FVec) (x : FVec) B j k D : is_cube id dim -> length corners = size id dim dim -> 0 <= B ->
  (forall c, In c corners -> Rabs (B2R (c k)) <= B) -> (forall i, (i < dim)%nat -> 0 <= B2R (x i) <= 1) -> (j < dim)%nat ->
  derivable_pt_lim (fun t => image id dim (exactly corners) (moved (fun i => B2R (x i)) j t) k) (B2R (x j)) D -> Rabs D <= 2 * B.
Proof.
  intros C HL B0 Hc Hx Hj HD. set (y := fun i => B2R (x i)) in *.
  assert (E : D = image id dim (exactly corners) (moved y j 1) k - image id dim (exactly corners) (moved y j 0) k).
  { eapply uniqueness_limite; [exact HD|]. apply affine_derivative with (a := image id dim (exactly corners) (moved y j 0) k). intro s. now apply image_affine. }
  rewrite size_lt in HL. set (T := lt id dim) in *. assert (CT : cones T = 0%nat) by (unfold T; rewrite cones_lt; exact C).
  assert (TD : tdim T = dim) by apply tdim_lt. assert (X01 : forall i, (i < tdim T)%nat -> 0 <= y i <= 1) by (intros i Hi; rewrite TD in Hi; now apply Hx).
  pose proof (erow_length T j y 1 CT ltac:(rewrite TD; exact Hj)) as Lm. pose proof (erow_sum T j y 1 CT ltac:(rewrite TD; exact Hj) X01 Rle_0_1) as M1.
  pose proof (fun i => erow_diff T j y 1 i CT ltac:(rewrite TD; exact Hj)) as Md. set (m := erow T j y 1) in *.
  assert (EQ : esum prec emax k m corners = D).
  { rewrite E, esum_rsum by lia. rewrite !image_ew, <- rsum_minus, Lm. apply rsum_ext. intros i Hi. rewrite Md. fold T. apply Rmult_minus_distr_r. }
  rewrite <- EQ. eapply Rle_trans; [apply esum_abs with (B := B); assumption|]. rewrite M1. lra.
Qed.

(** the computed Jacobian against the derivatives *)
Lemma jac_near : (9 <= prec)%Z -> (5 <= emax)%Z -> forall id dim, (1 <= dim <= 3)%nat -> is_cube id dim ->
  forall jm jk (corners : list FVec) (x : FVec) B D, length corners = size id dim dim -> 0 <= B <= bpow radix2 (emax - 4) ->
  (forall c k, In c corners -> (k < dim)%nat -> is_finite (c k) = true /\ Rabs (B2R (c k)) <= B) ->
  (forall i, (i < dim)%nat -> is_finite (x i) = true /\ 0 <= B2R (x i) <= 1) ->
  (forall j k, (j < dim)%nat -> (k < dim)%nat -> derivable_pt_lim (fun t => image id dim (exactly corners) (moved (fun i => B2R (x i)) j t) k) (B2R (x j)) (D j k)) ->
  let N := INR (size id dim dim) in (6 * N + 16 * INR dim) * u <= / 4 ->
  let e := (6 * N + 16 * INR dim) * u * B + 3 * N * eta in
  exists J, jacobianTransposed dim id dim jm jk corners x = Some J /\ 0 <= e /\ forall j k, (j < dim)%nat -> (k < dim)%nat ->
    is_finite (J j k) = true /\ Rabs (D j k) <= 2 * B + e /\ Rabs (B2R (J j k)) <= 2 * B + e /\ Rabs (B2R (J j k) - D j k) <= e.
Proof.
  intros P9 E5 id dim Hd C jm jk corners x B D HL HB Hc Hx HD N HN e.
  destruct (C98_error prec emax Hp He ltac:(lia) id dim C ltac:(lia) HN dim jm jk corners x B HL ltac:(lra) Hc Hx) as (J & E & V).
  pose proof (bpow_gt_0 radix2 (- prec)) as U0. pose proof (bpow_gt_0 radix2 (2 - emax - prec)) as N0. pose proof (pos_INR (size id dim dim)) as NN. fold N in NN. pose proof (pos_INR dim) as ND.
  assert (e0 : 0 <= e).
  { unfold e. apply Rplus_le_le_0_compat; [|apply Rmult_le_pos; lra]. apply Rmult_le_pos; [|lra]. apply Rmult_le_pos; lra. }
  exists J. split; [exact E|]. split; [exact e0|]. intros j k Hj Hk. destruct (V j k Hj Hk) as (F & D' & DD & Q). fold N e in Q.
  assert (EQ : D' = D j k) by (eapply uniqueness_limite; [exact DD|now apply HD]). rewrite EQ in Q.
  assert (DB : Rabs (D j k) <= 2 * B).
  { apply (derivative_bound id dim corners x B j k (D j k)); auto; [lra|intros c I; now apply Hc|intros i Hi; now apply Hx]. }
  repeat split; try assumption; try lra.
  pose proof (Rabs_triang (B2R (J j k) - D j k) (D j k)) as T. replace (B2R (J j k) - D j k + D j k) with (B2R (J j k)) in T by ring. lra.
Qed.

(** Quadrilaterals in the plane.  [D] are the partial derivatives of the exact mapping, B bounds the coordinates of the corners, e is the error of the
    Jacobian (C98) and M bounds its entries.  The integration element is defined, a number, not negative and within the stated distance of the
    absolute value of the determinant of the derivatives. *)
Theorem C99_quadrilateral : (9 <= prec)%Z -> (5 <= emax)%Z -> forall id, is_cube id 2 ->
  forall jm jk j1 j2 (corners : list FVec) (x : FVec) B D, length corners = 4%nat -> 0 <= B <= bpow radix2 (emax - 4) ->
  (forall c k, In c corners -> (k < 2)%nat -> is_finite (c k) = true /\ Rabs (B2R (c k)) <= B) ->
  (forall i, (i < 2)%nat -> is_finite (x i) = true /\ 0 <= B2R (x i) <= 1) ->
  (forall j k, (j < 2)%nat -> (k < 2)%nat -> derivable_pt_lim (fun t => image id 2 (exactly corners) (moved (fun i => B2R (x i)) j t) k) (B2R (x j)) (D j k)) ->
  let e := 56 * u * B + 12 * eta in let M := 2 * B + e in 16 * ((M + 1) * (M + 1)) <= big ->
  exists v, integrationElement 2 id 2 jm jk j1 j2 corners x = Some v /\ is_finite v = true /\ 0 <= B2R v /\
    Rabs (B2R v - Rabs (D 0%nat 0%nat * D 1%nat 1%nat - D 1%nat 0%nat * D 0%nat 1%nat)) <= 4 * M * e + gam 2 * (2 * M * M) + 2 * (1 + u) * eta.
Proof.
  intros P9 E5 id C jm jk j1 j2 corners x B D HL HB Hc Hx HD e M HM.
  assert (S4 : size id 2 2 = 4%nat).
  { exact (cube_size id 2 C). }
  pose proof (bpow_gt_0 radix2 (- prec)) as U0.
  assert (U1 : u <= / 512) by (change (/ 512) with (bpow radix2 (-9)); apply bpow_le; lia).
  destruct (jac_near P9 E5 id 2 ltac:(lia) C jm jk corners x B D ltac:(congruence) HB Hc Hx HD) as (J & E & e0 & V).
  { rewrite S4. replace (INR 4) with 4 by (cbn; ring). replace (INR 2) with 2 by (cbn; ring). lra. }
  rewrite S4 in *. replace (INR 4) with 4 in * by (cbn; ring). replace (INR 2) with 2 in * by (cbn; ring).
  replace ((6 * 4 + 16 * 2) * u * B + 3 * 4 * eta) with e in * by (unfold e; ring). fold M in V.
  assert (M0 : 0 <= M) by (unfold M; lra).
  destruct (det2_fin P9 J j1 j2 M M0 HM) as (v & Ev & Fv); [intros i j Hi Hj; destruct (V i j Hi Hj) as (F & _ & Q & _); now split|].
  exists v. split; [unfold fmlg_integrationElement; rewrite E; exact Ev|]. split; [exact Fv|].
  destruct (C71_det2 prec emax Hp He J j1 j2 v Ev Fv) as (P0 & Q). cbv beta zeta in Q. split; [exact P0|].
  destruct (V 0 0 ltac:(lia) ltac:(lia))%nat as (_ & D00 & J00 & E00). destruct (V 0 1 ltac:(lia) ltac:(lia))%nat as (_ & D01 & J01 & E01).
  destruct (V 1 0 ltac:(lia) ltac:(lia))%nat as (_ & D10 & J10 & E10). destruct (V 1 1 ltac:(lia) ltac:(lia))%nat as (_ & D11 & J11 & E11).
  pose proof (prod2_near _ _ _ _ _ _ J00 D11 E00 E11) as X1. pose proof (prod2_near _ _ _ _ _ _ J10 D01 E10 E01) as X2.
  pose proof (abs_prod2 _ _ _ J00 J11) as Y1. pose proof (abs_prod2 _ _ _ J10 J01) as Y2.
  set (dJ := B2R (J 0%nat 0%nat) * B2R (J 1%nat 1%nat) - B2R (J 1%nat 0%nat) * B2R (J 0%nat 1%nat)) in *. set (dD := D 0%nat 0%nat * D 1%nat 1%nat - D 1%nat 0%nat * D 0%nat 1%nat) in *.
  assert (X : Rabs (dJ - dD) <= 4 * M * e) by (apply abs_le; apply abs_le in X1; apply abs_le in X2; unfold dJ, dD; lra).
  pose proof (Rabs_triang_inv2 dJ dD) as T. pose proof (Rabs_triang (B2R v - Rabs dJ) (Rabs dJ - Rabs dD)) as T'. replace (B2R v - Rabs dJ + (Rabs dJ - Rabs dD)) with (B2R v - Rabs dD) in T' by ring.
  assert (G0 : 0 <= gam 2) by (unfold S_FloatMat.gam, S_FloatMat.grow, uro; cbn [pow]; nra).
  assert (G : gam 2 * (Rabs (B2R (J 0%nat 0%nat) * B2R (J 1%nat 1%nat)) + Rabs (B2R (J 1%nat 0%nat) * B2R (J 0%nat 1%nat))) <= gam 2 * (2 * M * M)) by (apply Rmult_le_compat_l; lra).
  unfold uro, tiny in Q. lra.
Qed.

(** In particular it is positive if the determinant is larger than the bound. *)
Corollary C99_positive : (9 <= prec)%Z -> (5 <= emax)%Z -> forall id, is_cube id 2 ->
  forall jm jk j1 j2 (corners : list FVec) (x : FVec) B D, length corners = 4%nat -> 0 <= B <= bpow radix2 (emax - 4) ->
  (forall c k, In c corners -> (k < 2)%nat -> is_finite (c k) = true /\ Rabs (B2R (c k)) <= B) ->
  (forall i, (i < 2)%nat -> is_finite (x i) = true /\ 0 <= B2R (x i) <= 1) ->
  (forall j k, (j < 2)%nat -> (k < 2)%nat -> derivable_pt_lim (fun t => image id 2 (exactly corners) (moved (fun i => B2R (x i)) j t) k) (B2R (x j)) (D j k)) ->
  eta <= u * B * B -> 12 * eta <= u * B -> 3 * B + 1 <= bpow radix2 (emax / 2 - 3) ->
  exists v, integrationElement 2 id 2 jm jk j1 j2 corners x = Some v /\ is_finite v = true /\
    Rabs (B2R v - Rabs (D 0%nat 0%nat * D 1%nat 1%nat - D 1%nat 0%nat * D 0%nat 1%nat)) <= 512 * u * B * B /\
    (512 * u * B * B < Rabs (D 0%nat 0%nat * D 1%nat 1%nat - D 1%nat 0%nat * D 0%nat 1%nat) -> 0 < B2R v).
Proof.
  intros P9 E5 id C jm jk j1 j2 corners x B D HL HB Hc Hx HD H1 H3 H4.
  pose proof (bpow_gt_0 radix2 (- prec)) as U0. assert (U1 : u <= / 512) by (change (/ 512) with (bpow radix2 (-9)); apply bpow_le; lia).
  pose proof (bpow_gt_0 radix2 (2 - emax - prec)) as N0.
  pose proof (C99_quadrilateral P9 E5 id C jm jk j1 j2 corners x B D HL HB Hc Hx HD) as Q. cbv zeta in Q.
  set (e := 56 * u * B + 12 * eta) in *. set (M := 2 * B + e) in *.
  assert (Ee : 0 <= e <= 57 * (u * B)) by (unfold e; split; [|lra]; assert (0 <= u * B) by (apply Rmult_le_pos; lra); lra).
  assert (uB : 0 <= u * B <= / 512 * B) by (split; [apply Rmult_le_pos; lra|apply Rmult_le_compat_r; lra]).
  assert (MB : 0 <= M <= 2.112 * B) by (unfold M; lra).
  destruct Q as (v & E & F & P0 & Q).
  { assert (R1 : (M + 1) * (M + 1) <= bpow radix2 (emax / 2 - 3) * bpow radix2 (emax / 2 - 3)) by (apply Rmult_le_compat; lra).
    rewrite <- bpow_plus in R1. replace 16 with (bpow radix2 4) by (cbn; lra). apply Rle_trans with (bpow radix2 4 * bpow radix2 (emax / 2 - 3 + (emax / 2 - 3))); [apply Rmult_le_compat_l; [apply bpow_ge_0|exact R1]|].
    rewrite <- bpow_plus. apply bpow_le. pose proof (Z.div_mod emax 2 ltac:(lia)). pose proof (Z.mod_pos_bound emax 2 ltac:(lia)). lia. }
  exists v. split; [exact E|]. split; [exact F|].
  assert (BD : 4 * M * e + gam 2 * (2 * M * M) + 2 * (1 + u) * eta <= 512 * u * B * B).
  { assert (A1 : M * e <= (2.112 * B) * (57 * (u * B))) by (apply Rmult_le_compat; lra).
    assert (A2 : M * M <= (2.112 * B) * (2.112 * B)) by (apply Rmult_le_compat; lra).
    assert (G : 0 <= gam 2 <= 2.01 * u) by (unfold S_FloatMat.gam, S_FloatMat.grow, uro; cbn [pow]; nra).
    assert (MM : 0 <= M * M) by (apply Rmult_le_pos; lra).
    assert (A3 : gam 2 * (M * M) <= (2.01 * u) * ((2.112 * B) * (2.112 * B))) by (apply Rmult_le_compat; lra).
    assert (A4 : (1 + u) * eta <= 2 * (u * B * B)) by (apply Rmult_le_compat; lra).
    assert (0 <= u * B * B) by (apply Rmult_le_pos; lra). lra. }
  split; [lra|]. intro L. apply abs_le in Q. lra.
Qed.

(** Hexahedra *)
Theorem C99_hexahedron : (9 <= prec)%Z -> (5 <= emax)%Z -> forall id, is_cube id 3 ->
  forall jm jk j1 j2 (corners : list FVec) (x : FVec) B D, length corners = 8%nat -> 0 <= B <= bpow radix2 (emax - 4) ->
  (forall c k, In c corners -> (k < 3)%nat -> is_finite (c k) = true /\ Rabs (B2R (c k)) <= B) ->
  (forall i, (i < 3)%nat -> is_finite (x i) = true /\ 0 <= B2R (x i) <= 1) ->
  (forall j k, (j < 3)%nat -> (k < 3)%nat -> derivable_pt_lim (fun t => image id 3 (exactly corners) (moved (fun i => B2R (x i)) j t) k) (B2R (x j)) (D j k)) ->
  let e := 96 * u * B + 24 * eta in let M := 2 * B + e in 128 * ((M + 1) * (M + 1) * (M + 1)) <= big ->
  exists v, integrationElement 3 id 3 jm jk j1 j2 corners x = Some v /\ is_finite v = true /\ 0 <= B2R v /\
    Rabs (B2R v - Rabs (D 0%nat 0%nat * D 1%nat 1%nat * D 2%nat 2%nat + D 0%nat 1%nat * D 1%nat 2%nat * D 2%nat 0%nat + D 0%nat 2%nat * D 1%nat 0%nat * D 2%nat 1%nat
                      - D 0%nat 2%nat * D 1%nat 1%nat * D 2%nat 0%nat - D 0%nat 0%nat * D 1%nat 2%nat * D 2%nat 1%nat - D 0%nat 1%nat * D 1%nat 0%nat * D 2%nat 2%nat))
      <= 18 * M * M * e + gam 5 * (6 * M * M * M) + grow 2 * (3 + 6 * grow 2 * M) * eta.
Proof.
  intros P9 E5 id C jm jk j1 j2 corners x B D HL HB Hc Hx HD e M HM.
  assert (S8 : size id 3 3 = 8%nat).
  { exact (cube_size id 3 C). }
  pose proof (bpow_gt_0 radix2 (- prec)) as U0. pose proof (bpow_gt_0 radix2 (2 - emax - prec)) as N0.
  assert (U1 : u <= / 512) by (change (/ 512) with (bpow radix2 (-9)); apply bpow_le; lia).
  destruct (jac_near P9 E5 id 3 ltac:(lia) C jm jk corners x B D ltac:(congruence) HB Hc Hx HD) as (J & E & e0 & V).
  { rewrite S8. replace (INR 8) with 8 by (cbn; ring). replace (INR 3) with 3 by (cbn; ring). lra. }
  rewrite S8 in *. replace (INR 8) with 8 in * by (cbn; ring). replace (INR 3) with 3 in * by (cbn; ring).
  replace ((6 * 8 + 16 * 3) * u * B + 3 * 8 * eta) with e in * by (unfold e; ring). fold M in V.
  assert (M0 : 0 <= M) by (unfold M; lra).
  destruct (det3_fin P9 J j1 j2 M M0 HM) as (v & Ev & Fv); [intros i j Hi Hj; destruct (V i j Hi Hj) as (F & _ & Q & _); now split|].
  exists v. split; [unfold fmlg_integrationElement; rewrite E; exact Ev|]. split; [exact Fv|].
  destruct (C71_det3 prec emax Hp He J j1 j2 v Ev Fv) as (P0 & Q). cbv beta zeta in Q. split; [exact P0|].
  assert (V1 : forall i j, (i < 3)%nat -> (j < 3)%nat -> Rabs (D i j) <= M) by (intros i j Hi Hj; now destruct (V i j Hi Hj)).
  assert (V2 : forall i j, (i < 3)%nat -> (j < 3)%nat -> Rabs (B2R (J i j)) <= M) by (intros i j Hi Hj; now destruct (V i j Hi Hj) as (_ & _ & ? & _)).
  assert (V3 : forall i j, (i < 3)%nat -> (j < 3)%nat -> Rabs (B2R (J i j) - D i j) <= e) by (intros i j Hi Hj; now destruct (V i j Hi Hj) as (_ & _ & _ & ?)).
  assert (X : forall a b c, (a < 3)%nat -> (b < 3)%nat -> (c < 3)%nat ->
    Rabs (B2R (J 0%nat a) * B2R (J 1%nat b) * B2R (J 2%nat c) - D 0%nat a * D 1%nat b * D 2%nat c) <= 3 * M * M * e /\ Rabs (B2R (J 0%nat a) * B2R (J 1%nat b) * B2R (J 2%nat c)) <= M * M * M).
  { intros a b c Ha Hb Hc'. split; [apply prod3_near|apply abs_prod3]; try (apply V1; lia); try (apply V2; lia); apply V3; lia. }
  destruct (X 0 1 2 ltac:(lia) ltac:(lia) ltac:(lia))%nat as (X1 & Y1). destruct (X 1 2 0 ltac:(lia) ltac:(lia) ltac:(lia))%nat as (X2 & Y2). destruct (X 2 0 1 ltac:(lia) ltac:(lia) ltac:(lia))%nat as (X3 & Y3).
  destruct (X 2 1 0 ltac:(lia) ltac:(lia) ltac:(lia))%nat as (X4 & Y4). destruct (X 0 2 1 ltac:(lia) ltac:(lia) ltac:(lia))%nat as (X5 & Y5). destruct (X 1 0 2 ltac:(lia) ltac:(lia) ltac:(lia))%nat as (X6 & Y6).
  match type of Q with Rabs (B2R v - Rabs ?d) <= gam 5 * ?s + grow 2 * (3 + 2 * grow 2 * ?r) * _ => set (dJ := d) in *; set (sJ := s) in *; set (rJ := r) in * end.
  match goal with |- Rabs (B2R v - Rabs ?d) <= _ => set (dD := d) in * end.
  assert (XX : Rabs (dJ - dD) <= 18 * M * M * e).
  { apply abs_le in X1. apply abs_le in X2. apply abs_le in X3. apply abs_le in X4. apply abs_le in X5. apply abs_le in X6. apply abs_le. unfold dJ, dD. lra. }
  assert (YY : sJ <= 6 * M * M * M) by (unfold sJ; lra).
  assert (ZZ : rJ <= 3 * M) by (unfold rJ; pose proof (V2 2 0 ltac:(lia) ltac:(lia))%nat; pose proof (V2 2 1 ltac:(lia) ltac:(lia))%nat; pose proof (V2 2 2 ltac:(lia) ltac:(lia))%nat; lra).
  pose proof (Rabs_triang_inv2 dJ dD) as T. pose proof (Rabs_triang (B2R v - Rabs dJ) (Rabs dJ - Rabs dD)) as T'. replace (B2R v - Rabs dJ + (Rabs dJ - Rabs dD)) with (B2R v - Rabs dD) in T' by ring.
  assert (G2 : 1 <= grow 2) by (unfold S_FloatMat.grow, uro; apply pow_R1_Rle; lra). assert (G5 : 0 <= gam 5) by (unfold S_FloatMat.gam, S_FloatMat.grow, uro; pose proof (pow_R1_Rle (1 + u) 5 ltac:(lra)); lra).
  assert (W1 : gam 5 * sJ <= gam 5 * (6 * M * M * M)) by (apply Rmult_le_compat_l; assumption).
  assert (W2 : grow 2 * (3 + 2 * grow 2 * rJ) * eta <= grow 2 * (3 + 6 * grow 2 * M) * eta).
  { apply Rmult_le_compat_r; [lra|]. apply Rmult_le_compat_l; [lra|]. apply Rplus_le_compat_l. replace (6 * grow 2 * M) with (2 * grow 2 * (3 * M)) by ring. apply Rmult_le_compat_l; lra. }
  unfold tiny in Q. lra.
Qed.
End C99.
Print Assumptions C99_quadrilateral.
Print Assumptions C99_positive.
Print Assumptions C99_hexahedron.

(** No bound is relative to the determinant: in single precision there is a parallelogram with integer corners, with sides (4097, 4096) and (4098, 4097) and hence with
    determinant 1 everywhere, whose integration element at the first corner is 0. *)
Definition thin_quad : list (nat -> binary_float 24 128) :=
  map (fun p k => match k with O => sgl (fst p) 0 | _ => sgl (snd p) 0 end) [(0, 0); (4097, 4096); (4098, 4097); (8195, 8193)]%Z.
Theorem C99_relative_refuted : exists (corners : list (nat -> binary_float 24 128)) x (D : nat -> nat -> R),
  length corners = size 3 2 2 /\ (forall c k, In c corners -> is_finite (c k) = true) /\ B2R (x 0%nat) = 0 /\ B2R (x 1%nat) = 0 /\
  (forall y j k, (j < 2)%nat -> (k < 2)%nat -> derivable_pt_lim (fun t => image 3 2 (exactly corners) (moved y j t) k) (y j) (D j k)) /\
  D 0%nat 0%nat * D 1%nat 1%nat - D 1%nat 0%nat * D 0%nat 1%nat = 1 /\
  forall j1 j2, option_map (fun v => B2R v) (fmlg_integrationElement 24 128 p24 e128 2 3 2 (fun _ => zro) (fun _ => zro) j1 j2 corners x) = Some 0.
Proof.
  exists thin_quad, (fun _ => sgl 0 0), (fun j k => match j, k with O, O => 4097 | O, _ => 4096 | _, O => 4098 | _, _ => 4097 end). split; [reflexivity|].
  assert (V0 : B2R (sgl 0 0) = 0) by (apply (sgl_zero _ false); reflexivity).
  split. { intros c k I. unfold thin_quad in I. apply in_map_iff in I. destruct I as ((a, b) & <- & I). destruct I as [Q|[Q|[Q|[Q|[]]]]]; injection Q as <- <-; destruct k; reflexivity. }
  split; [exact V0|]. split; [exact V0|]. split.
  { intros y j k Hj Hk. eapply affine_derivative with (a := image 3 2 (exactly thin_quad) (moved y j 0) k). intro s. unfold image, thin_quad, exactly.
    change (topo_of 3 2) with (Pri (Pri Pt)). cbn [nv Nat.add rsum shape Nat.ltb Nat.leb Nat.sub tdim map nth fst snd].
    assert (W : B2R (sgl 4097 0) = 4097 /\ B2R (sgl 4096 0) = 4096 /\ B2R (sgl 4098 0) = 4098 /\ B2R (sgl 8195 0) = 8195 /\ B2R (sgl 8193 0) = 8193).
    { rewrite (sgl_value (sgl 4097 0) 8390656 (-11)), (sgl_value (sgl 4096 0) 8388608 (-11)), (sgl_value (sgl 4098 0) 8392704 (-11)),
        (sgl_value (sgl 8195 0) 8391680 (-10)), (sgl_value (sgl 8193 0) 8389632 (-10)) by (vm_compute; reflexivity). cbn. repeat split; lra. }
    destruct W as (W1 & W2 & W3 & W4 & W5).
    destruct j as [|[|j]]; [| |lia]; (destruct k as [|[|k]]; [| |lia]); rewrite ?V0, ?W1, ?W2, ?W3, ?W4, ?W5; unfold moved; cbn [Nat.eqb]; ring. }
  split; [lra|]. intros j1 j2. rewrite (coord_zero (fun r => r) _ false) by (vm_compute; reflexivity). reflexivity.
Qed.
Print Assumptions C99_relative_refuted.

(** the quadrilateral of C98 at (1/2, 1/4): the integration element is 13/4, exactly, and the bound of C99_positive applies; the unit cube in its centre *)
Definition cube99 : list (nat -> binary_float 53 1024) :=
  map (fun i k => dbl (if Nat.testbit i k then 1 else 0) 0) (seq 0 8).
Example C99_example :
  option_map B2SF (fmlg_integrationElement 53 1024 p53 e1024 2 3 2 (fun _ _ => dbl 0 0) (fun _ _ => dbl 0 0) (fun _ _ => dbl 0 0) (fun _ _ => dbl 0 0) quad98 mid98) = Some (B2SF (dbl 13 (-2)))
  /\ option_map B2SF (fmlg_integrationElement 53 1024 p53 e1024 3 7 3 (fun _ _ => dbl 0 0) (fun _ _ => dbl 0 0) (fun _ _ => dbl 0 0) (fun _ _ => dbl 0 0) cube99 (fun _ => dbl 1 (-1))) = Some (B2SF (dbl 1 0))
  /\ forall D, (forall j k, (j < 2)%nat -> (k < 2)%nat -> derivable_pt_lim (fun t => image 3 2 (exactly quad98) (moved (fun i => B2R (mid98 i)) j t) k) (B2R (mid98 j)) (D j k)) ->
     exists v, fmlg_integrationElement 53 1024 p53 e1024 2 3 2 (fun _ _ => dbl 0 0) (fun _ _ => dbl 0 0) (fun _ _ => dbl 0 0) (fun _ _ => dbl 0 0) quad98 mid98 = Some v /\
       Rabs (B2R v - Rabs (D 0%nat 0%nat * D 1%nat 1%nat - D 1%nat 0%nat * D 0%nat 1%nat)) <= 512 * bpow radix2 (-53) * 3 * 3.
Proof.
  split; [vm_compute; reflexivity|]. split; [vm_compute; reflexivity|]. intros D HD.
  assert (V : forall z, In z [0; 1; 2; 3]%Z -> is_finite (dbl z 0) = true /\ B2R (dbl z 0) = IZR z).
  { intros z I. destruct I as [<-|[<-|[<-|[<-|[]]]]]; (split; [reflexivity|]).
    - assert (E : B2SF (dbl 0 0) = SpecFloat.S754_zero false) by (vm_compute; reflexivity). destruct (dbl 0 0); try discriminate E; reflexivity.
    - rewrite (dbl_value _ 4503599627370496 (-52)) by (vm_compute; reflexivity). cbn. lra.
    - rewrite (dbl_value _ 4503599627370496 (-51)) by (vm_compute; reflexivity). cbn. lra.
    - rewrite (dbl_value _ 6755399441055744 (-51)) by (vm_compute; reflexivity). cbn. lra. }
  assert (P1 : bpow radix2 (2 - 1024 - 53) <= bpow radix2 (-53) * bpow radix2 (-4)) by (rewrite <- bpow_plus; apply bpow_le; lia).
  replace (bpow radix2 (-4)) with (/ 16) in P1 by (cbn; lra). pose proof (bpow_gt_0 radix2 (-53)) as U0.
  destruct (C99_positive 53 1024 p53 e1024 ltac:(lia) ltac:(lia) 3 eq_refl (fun _ _ => dbl 0 0) (fun _ _ => dbl 0 0) (fun _ _ => dbl 0 0) (fun _ _ => dbl 0 0) quad98 mid98 3 D) as (v & E & _ & Q & _); try reflexivity; try lra.
  - split; [lra|]. apply Rle_trans with (bpow radix2 2); [cbn; lra|apply bpow_le; lia].
  - intros c k I Hk. assert (Q : exists z, In z [0; 1; 2; 3]%Z /\ c k = dbl z 0).
    { unfold quad98 in I. apply in_map_iff in I. destruct I as ((a, b) & <- & I). cbn [fst snd].
      assert (In a [0; 1; 2; 3]%Z /\ In b [0; 1; 2; 3]%Z) as (A & B) by (destruct I as [Q|[Q|[Q|[Q|[]]]]]; injection Q as <- <-; cbn; tauto).
      destruct k; eauto. }
    destruct Q as (z & Iz & ->). destruct (V z Iz) as (F & ->). split; [exact F|]. destruct Iz as [<-|[<-|[<-|[<-|[]]]]]; apply abs_le; lra.
  - intros i Hi. destruct i as [|i]; (split; [reflexivity|]); cbn [mid98].
    + rewrite (dbl_value _ 4503599627370496 (-53)) by (vm_compute; reflexivity). cbn. lra.
    + rewrite (dbl_value _ 4503599627370496 (-54)) by (vm_compute; reflexivity). cbn. lra.
  - exact HD.
  - change (- (53))%Z with (-53)%Z. lra.
  - change (- (53))%Z with (-53)%Z. lra.
  - apply Rle_trans with (bpow radix2 4); [cbn; lra|]. apply bpow_le. vm_compute. discriminate.
  - exists v. split; [exact E|exact Q].
Qed.
