(** C35 - C37, C57, C58: gaussNewton, MappedGeometry, LocalFiniteElementGeometry. *)
From Coq Require Import PeanoNat NArith ZArith Lia Bool List Reals Lra FunctionalExtensionality.
From Verif Require Import M_Type M_RefTopo M_RefGeo M_Matrix M_Affine M_MultiLinear M_GaussNewton S_Matrix S_GaussNewton
  P_Topo P_RefTopo P_RefTopo2 P_RefTopo3 P_RefGeo P_RefGeo2 P_RefGeo3 P_Type P_RefGeo4 P_RSum P_Det P_Matrix P_Matrix2 P_MxBridge P_Matrix3 P_Matrix4 P_Matrix5 P_Affine P_GaussNewton T_RefGeo T_Matrix T_Affine.
Import ListNotations.
Local Open Scope R_scope.

(** ** C35 *)

(** the whole contract: the returned point is reached by at most maxIt accepted steps, each
    strictly decreasing the residual norm, and the code says what stopped the iteration *)
Theorem C35_contract :
  forall mydim cdim j1 j2 f df y o x0 c z, (mydim <= cdim)%nat -> (0 < gn_maxIt o)%Z -> (0 < gn_maxInnerIt o)%Z ->
    gaussNewton mydim cdim j1 j2 f df y o x0 = Some (c, z) ->
    exists m, (m <= Z.to_nat (gn_maxIt o))%nat /\
      descent mydim cdim f df y (gn_theta o) (Z.to_nat (gn_maxInnerIt o)) m x0 z /\
      match c with
      | GN_OK => (0 < m)%nat /\ exists r, residual_is cdim f y z r /\ r < gn_absTol o
      | GN_JACOBIAN_NOT_INVERTIBLE => exists J, df z = Some J /\ ~ row_independent mydim cdim J
      | GN_STAGNATION => exists dx, gn_direction mydim cdim f df y z dx /\
          forall i, (i < Z.to_nat (gn_maxInnerIt o))%nat -> no_gain cdim f y (gn_theta o) z dx i
      | GN_TOLERANCE_NOT_REACHED => m = Z.to_nat (gn_maxIt o) /\ exists r, residual_is cdim f y z r /\ gn_absTol o <= r
      end.
Proof.
  intros mydim cdim j1 j2 f df y o x0 c z Hd Hm Hi E. unfold gaussNewton in E.
  destruct (f x0) as [fx|] eqn:Ef; [|discriminate]. cbn [obind] in E.
  apply (loop_spec mydim cdim j1 j2 f df y o Hd ltac:(lia)) in E; [|exact Ef|lia].
  destruct E as (m & Lm & D & F). exists m. split; [exact Lm|]. split; [exact D|].
  destruct c; cbn [final] in F; destruct F as [F1 F2]; auto. split; [lia|exact F2].
Qed.
Print Assumptions C35_contract.

Theorem C35_ok_below_tolerance :
  forall mydim cdim j1 j2 f df y o x0 z, (mydim <= cdim)%nat -> (0 < gn_maxIt o)%Z -> (0 < gn_maxInnerIt o)%Z ->
    gaussNewton mydim cdim j1 j2 f df y o x0 = Some (GN_OK, z) ->
    exists fz, f z = Some fz /\ two_norm cdim (fun k => fz k - y k) < gn_absTol o.
Proof.
  intros mydim cdim j1 j2 f df y o x0 z Hd Hm Hi E.
  destruct (C35_contract _ _ _ _ _ _ _ _ _ _ _ Hd Hm Hi E) as (m & _ & _ & _ & r & (fz & Ef & ->) & L). eauto.
Qed.
Print Assumptions C35_ok_below_tolerance.

Theorem C35_never_worse :
  forall mydim cdim j1 j2 f df y o x0 c z, (mydim <= cdim)%nat -> (0 < gn_maxIt o)%Z -> (0 < gn_maxInnerIt o)%Z ->
    gaussNewton mydim cdim j1 j2 f df y o x0 = Some (c, z) ->
    exists fx fz, f x0 = Some fx /\ f z = Some fz /\
      two_norm cdim (fun k => fz k - y k) <= two_norm cdim (fun k => fx k - y k) /\
      (z <> x0 -> two_norm cdim (fun k => fz k - y k) < two_norm cdim (fun k => fx k - y k)).
Proof.
  intros mydim cdim j1 j2 f df y o x0 c z Hd Hm Hi E.
  destruct (C35_contract _ _ _ _ _ _ _ _ _ _ _ Hd Hm Hi E) as (m & _ & D & _).
  unfold gaussNewton in E. destruct (f x0) as [fx|] eqn:Ef; [|discriminate].
  assert (R0 : residual_is cdim f y x0 (two_norm cdim (fun k => fx k - y k))) by (exists fx; auto).
  destruct (descent_defined _ _ f df y o m x0 z D (ex_intro _ _ R0)) as (r & fz & Ez & ->).
  exists fx, fz. split; [reflexivity|]. split; [exact Ez|].
  destruct (descent_res _ _ f df y o Hd m x0 z _ (two_norm cdim (fun k => fz k - y k)) D R0) as [L1 L2]; [exists fz; auto|].
  split; [exact L1|]. intro NE. apply L2. destruct m; [|lia]. inversion D; subst. congruence.
Qed.
Print Assumptions C35_never_worse.

(** no assertion fails as long as the function objects answer *)
Theorem C35_total :
  forall mydim cdim j1 j2 f df y o x0, (mydim <= cdim)%nat -> (forall x, f x <> None) -> (forall x, df x <> None) ->
    exists c z, gaussNewton mydim cdim j1 j2 f df y o x0 = Some (c, z).
Proof.
  intros mydim cdim j1 j2 f df y o x0 Hd Ft Dt. unfold gaussNewton. assert (Q := Ft x0). destruct (f x0) as [fx|]; [|congruence]. cbn [obind].
  match goal with |- context [gn_loop _ _ _ _ _ _ _ _ ?n ?x ?dy ?x0 ?r ?s] => assert (T := loop_total mydim cdim j1 j2 f df y o Hd Ft Dt n x dy x0 r s); destruct (gn_loop _ _ _ _ _ _ _ _ n x dy x0 r s) as [[c z]|]; [|congruence] end.
  eauto.
Qed.
Print Assumptions C35_total.

Lemma two_norm_zero_inv n x : two_norm n x = 0 -> forall k, (k < n)%nat -> x k = 0.
Proof.
  intros H k Hk. apply sqrt_eq_0 in H; [|apply norm2_nonneg].
  assert (Q : x k * x k <= norm2 n x) by (unfold norm2; apply (rsum_term n (fun i => x i * x i)); [intros; nra|exact Hk]). nra.
Qed.
Lemma two_norm_pos n x k : (k < n)%nat -> x k <> 0 -> 0 < two_norm n x.
Proof.
  intros Hk Hx. destruct (two_norm_nonneg n x) as [|E]; [assumption|]. exfalso. apply Hx. symmetry in E. now apply (two_norm_zero_inv n x E).
Qed.

(** the step at a point with f z = y + J^T (z - xs) leads to xs *)
Lemma direction_exact mydim cdim (J : Mat) (dy d w : Vec) : row_independent mydim cdim J ->
  veq mydim (mvec mydim (mmul cdim J (mtr J)) d) (mvec cdim J dy) -> veq cdim dy (mvec mydim (mtr J) w) -> veq mydim d w.
Proof.
  intros HR HN HY i Hi. assert (Z : forall k, (k < cdim)%nat -> mvec mydim (mtr J) (fun j => d j - w j) k = 0).
  - assert (G : rsum cdim (fun k => mvec mydim (mtr J) (fun j => d j - w j) k * mvec mydim (mtr J) (fun j => d j - w j) k) = 0).
    { rewrite (rsum_ext cdim _ (fun k => rsum mydim (fun a => (d a - w a) * (J a k * mvec mydim (mtr J) (fun j => d j - w j) k)))).
      2:{ intros k Hk. unfold mvec at 1, mtr at 1. rewrite <- rsum_scal_r. apply rsum_ext. intros. ring. }
      rewrite rsum_swap. apply rsum_0. intros a Ha. rewrite rsum_scal.
      replace (rsum cdim (fun k => J a k * mvec mydim (mtr J) (fun j => d j - w j) k)) with 0; [ring|].
      rewrite (rsum_ext cdim _ (fun k => J a k * mvec mydim (mtr J) d k - J a k * dy k)).
      2:{ intros k Hk. rewrite (HY k Hk). unfold mvec, mtr. rewrite <- Rmult_minus_distr_l, <- rsum_minus. f_equal. apply rsum_ext. intros. ring. }
      rewrite rsum_minus. assert (Q := HN a Ha). rewrite mvec_mmul in Q. unfold mvec at 1 3 in Q. lra. }
    intros k Hk. assert (Q : mvec mydim (mtr J) (fun j => d j - w j) k * mvec mydim (mtr J) (fun j => d j - w j) k <= 0).
    { rewrite <- G. apply (rsum_term cdim (fun k => mvec mydim (mtr J) (fun j => d j - w j) k * mvec mydim (mtr J) (fun j => d j - w j) k)); [intros; nra|exact Hk]. }
    nra.
  - assert (Q := HR (fun j => d j - w j) Z i Hi). cbv beta in Q. lra.
Qed.

(** for an affine function with a solution the first step is exact: any start that is not a
    solution gives OK and the solution *)
Theorem C35_affine_one_step :
  forall mydim cdim j1 j2 f df y o x0 b (A : Mat) xs, (mydim <= cdim)%nat -> (0 < gn_maxIt o)%Z -> (0 < gn_maxInnerIt o)%Z -> 0 < gn_absTol o ->
    row_independent mydim cdim A -> (forall x, exists A', df x = Some A' /\ meq mydim cdim A' A) ->
    (forall x, exists fx, f x = Some fx /\ veq cdim fx (fun k => b k + mvec mydim (mtr A) x k)) ->
    veq cdim y (fun k => b k + mvec mydim (mtr A) xs k) ->
    (exists j, (j < mydim)%nat /\ x0 j <> xs j) ->
    exists z, gaussNewton mydim cdim j1 j2 f df y o x0 = Some (GN_OK, z) /\ veq mydim z xs.
Proof.
  intros mydim cdim j1 j2 f df y o x0 b A xs Hd Hm Hi Ht HR HD HF HY (j0 & Hj0 & NE).
  unfold gaussNewton. destruct (HF x0) as (fx & Ef & Vf). rewrite Ef. cbn [obind].
  destruct (Z.to_nat (gn_maxIt o)) as [|n] eqn:En; [lia|]. cbn [gn_loop]. destruct (HD x0) as (A' & ED & VA). rewrite ED. cbn [obind].
  set (dy := fun k => fx k - y k). assert (EY : veq cdim dy (mvec mydim (mtr A) (fun j => x0 j - xs j))).
  { intros k Hk. unfold dy. rewrite Vf, HY by assumption. unfold mvec, mtr.
    rewrite (rsum_ext mydim (fun j => A j k * (x0 j - xs j)) (fun j => A j k * x0 j - A j k * xs j)) by (intros; ring). rewrite rsum_minus. ring. }
  assert (HR' : row_independent mydim cdim A').
  { intros w Hw. apply HR. intros i Hi0. rewrite <- (Hw i Hi0). apply rsum_ext. intros j Hj. unfold mtr. now rewrite VA. }
  assert (EY' : veq cdim dy (mvec mydim (mtr A') (fun j => x0 j - xs j))).
  { intros k Hk. rewrite EY by assumption. apply rsum_ext. intros j Hj. unfold mtr. now rewrite VA. }
  destruct (C25_xTRightInvA mydim cdim A' dy j1 j2 Hd) as [K _]. destruct (K HR') as (d & E & V & _). rewrite E. cbn [obind negb].
  assert (VD := direction_exact mydim cdim A' dy d (fun j => x0 j - xs j) HR' V EY').
  destruct (Z.to_nat (gn_maxInnerIt o)) as [|ni] eqn:Eni; [lia|]. cbn [gn_search].
  set (x1 := fun k => x0 k - 1 * d k). destruct (HF x1) as (f1 & E1 & V1). rewrite E1. cbn [obind].
  assert (N1 : two_norm cdim (fun k => f1 k - y k) = 0).
  { apply two_norm_0. intros k Hk. rewrite V1, HY by assumption. unfold mvec, mtr.
    rewrite (rsum_ext mydim (fun j => A j k * x1 j) (fun j => A j k * xs j)); [ring|]. intros j Hj. unfold x1. rewrite VD by assumption. ring. }
  assert (N0 : 0 < two_norm cdim dy).
  { destruct (two_norm_nonneg cdim dy) as [|Q]; [assumption|]. exfalso. symmetry in Q. apply NE.
    assert (X := HR (fun j => x0 j - xs j)). cbv beta in X. assert (X' : x0 j0 - xs j0 = 0); [|lra]. apply X; [|exact Hj0].
    intros k Hk. rewrite <- (EY k Hk). now apply (two_norm_zero_inv cdim dy Q). }
  rewrite N1. rewrite (proj2 (Rltb_true 0 (two_norm cdim dy)) N0). cbn [obind negb].
  rewrite (proj2 (Rltb_true 0 (two_norm cdim dy)) N0). cbn [negb]. rewrite (proj2 (Rltb_true 0 (gn_absTol o)) Ht).
  exists x1. split; [reflexivity|]. intros j Hj. unfold x1. rewrite VD by assumption. ring.
Qed.
Print Assumptions C35_affine_one_step.

(** with a limit that is not positive the code OK means nothing: the residual is never looked at *)
Theorem C35_zero_limit_refuted :
  exists f df y x0, (forall x, df x = Some mone) /\
    exists fx, f x0 = Some fx /\ two_norm 1 (fun k => fx k - y k) = 5 /\
    forall j1 j2 o, (gn_maxIt o <= 0)%Z -> gn_absTol o = 1 / 1000 ->
      gaussNewton 1 1 j1 j2 f df y o x0 = Some (GN_OK, x0).
Proof.
  exists (fun x => Some x), (fun _ => Some mone), vzero, (fun _ => 5). split; [reflexivity|]. exists (fun _ => 5). split; [reflexivity|]. split.
  - unfold two_norm, norm2, vzero. cbn. replace (0 + (5 - 0) * (5 - 0)) with (5 * 5) by ring. apply sqrt_square. lra.
  - intros j1 j2 o Hm Ht. unfold gaussNewton. cbn [obind]. replace (Z.to_nat (gn_maxIt o)) with 0%nat by lia. cbn [gn_loop].
    rewrite (proj2 (Rltb_true 0 (gn_absTol o))) by lra. reflexivity.
Qed.
Print Assumptions C35_zero_limit_refuted.
Theorem C35_zero_inner_limit_refuted :
  exists f df y x0, (forall x, df x = Some mone) /\
    exists fx, f x0 = Some fx /\ two_norm 1 (fun k => fx k - y k) = 5 /\
    forall j1 j2 o, (0 < gn_maxIt o)%Z -> (gn_maxInnerIt o <= 0)%Z -> gn_absTol o = 1 / 1000 ->
      gaussNewton 1 1 j1 j2 f df y o x0 = Some (GN_OK, x0).
Proof.
  exists (fun x => Some x), (fun _ => Some mone), vzero, (fun _ => 5). split; [reflexivity|]. exists (fun _ => 5). split; [reflexivity|].
  assert (N5 : two_norm 1 (fun k => 5 - vzero k) = 5).
  { unfold two_norm, norm2, vzero. cbn. replace (0 + (5 - 0) * (5 - 0)) with (5 * 5) by ring. apply sqrt_square. lra. }
  split; [exact N5|].
  intros j1 j2 o Hm Hi Ht. unfold gaussNewton. cbn [obind]. destruct (Z.to_nat (gn_maxIt o)) as [|n] eqn:En; [lia|]. cbn [gn_loop obind].
  destruct (C25_xTRightInvA 1 1 mone (fun k => 5 - vzero k) j1 j2 (le_n 1)) as [K _]. destruct K as (d & E & _).
  { intros x Hx i Hl. assert (i = 0%nat) by lia. subst. assert (Q := Hx 0%nat ltac:(lia)). unfold mvec, mtr, mone in Q. simpl in Q. lra. }
  rewrite E. cbn [obind negb]. replace (Z.to_nat (gn_maxInnerIt o)) with 0%nat by lia. cbn [gn_search obind]. rewrite N5.
  rewrite (proj2 (Rltb_true 0 5)) by lra. cbn [negb]. rewrite (proj2 (Rltb_true 0 (gn_absTol o))) by lra. reflexivity.
Qed.
Print Assumptions C35_zero_inner_limit_refuted.

(** x^2 = 4 from 4: one full step to 5/2, residual 9/4 *)
Definition sq_f (x : Vec) : option Vec := Some (fun _ => x 0%nat * x 0%nat).
Definition sq_df (x : Vec) : option Mat := Some (fun _ _ => 2 * x 0%nat).
Example C35_example : forall j1 j2,
  exists z, gaussNewton 1 1 j1 j2 sq_f sq_df (fun _ => 4) {| gn_maxIt := 1; gn_absTol := 1 / 10; gn_maxInnerIt := 3; gn_theta := 1 / 2 |} (fun _ => 4)
    = Some (GN_TOLERANCE_NOT_REACHED, z) /\ z 0%nat = 5 / 2.
Proof.
  intros j1 j2. unfold gaussNewton. cbn [sq_f obind gn_maxIt]. change (Z.to_nat 1) with 1%nat. cbn [gn_loop sq_df obind gn_maxInnerIt].
  match goal with |- context [xTRightInvA 1 1 ?A ?x j1 j2] => destruct (C25_xTRightInvA 1 1 A x j1 j2 (le_n 1)) as [K _]; destruct K as (d & E & V & _) end.
  { intros x Hx i Hl. assert (i = 0%nat) by lia. subst. assert (Q := Hx 0%nat ltac:(lia)). unfold mvec, mtr in Q. simpl in Q. lra. }
  rewrite E. cbn [obind negb]. assert (Q := V 0%nat ltac:(lia)). unfold mvec, mmul, mtr in Q. cbn in Q. assert (Ed : d 0%nat = 3 / 2) by lra.
  change (Z.to_nat 3) with 3%nat. cbn [gn_search sq_f obind]. rewrite Ed.
  assert (A1 : forall a, 0 <= a -> two_norm 1 (fun _ => a) = a).
  { intros a Ha. unfold two_norm, norm2. cbn [rsum]. rewrite Rplus_0_l. apply sqrt_square. exact Ha. }
  rewrite !A1 by lra.
  replace (Rltb ((4 - 1 * (3 / 2)) * (4 - 1 * (3 / 2)) - 4) (4 * 4 - 4)) with true by (symmetry; apply Rltb_true; lra). cbn [obind gn_absTol].
  replace (Rltb ((4 - 1 * (3 / 2)) * (4 - 1 * (3 / 2)) - 4) (4 * 4 - 4)) with true by (symmetry; apply Rltb_true; lra). cbn [negb].
  replace (Rltb ((4 - 1 * (3 / 2)) * (4 - 1 * (3 / 2)) - 4) (1 / 10)) with false by (symmetry; apply Rltb_false; lra). cbn [negb].
  eexists. split; [reflexivity|]. cbv beta. rewrite Ed. lra.
Qed.

(** ** C36 *)

(** at a solution the answer is STAGNATION, for every function, tolerance and positive limits *)
Theorem C36_exact_start_stagnates :
  forall mydim cdim j1 j2 f df y o x0 fx J, (mydim <= cdim)%nat -> (0 < gn_maxIt o)%Z -> (0 < gn_maxInnerIt o)%Z ->
    (forall x, f x <> None) -> f x0 = Some fx -> veq cdim fx y -> df x0 = Some J -> row_independent mydim cdim J ->
    gaussNewton mydim cdim j1 j2 f df y o x0 = Some (GN_STAGNATION, x0).
Proof.
  intros mydim cdim j1 j2 f df y o x0 fx J Hd Hm Hi Ft Ef HY EJ HR. unfold gaussNewton. rewrite Ef. cbn [obind].
  assert (N0 : two_norm cdim (fun k => fx k - y k) = 0) by (apply two_norm_0; intros k Hk; rewrite HY by assumption; ring).
  rewrite N0. destruct (Z.to_nat (gn_maxIt o)) as [|n] eqn:En; [lia|]. cbn [gn_loop]. rewrite EJ. cbn [obind].
  destruct (C25_xTRightInvA mydim cdim J (fun k => fx k - y k) j1 j2 Hd) as [K _]. destruct (K HR) as (d & E & _). rewrite E. cbn [obind negb].
  match goal with |- obind ?g _ = _ => assert (S : g <> None) by (apply search_total, Ft); destruct g as [[[x dy] r]|] eqn:ES; [|congruence] end. cbn [obind].
  change 1 with (gn_theta o ^ 0) in ES. assert (R0 : residual_is cdim f y x0 0) by (exists fx; auto).
  destruct (search_spec mydim cdim f y o Hd x0 d 0 R0 (Z.to_nat (gn_maxInnerIt o)) 0 _ _ _ _ ltac:(lia) ES) as (j & fx' & _ & _ & _ & _ & -> & _ & _).
  rewrite (proj2 (Rltb_false _ _) (two_norm_nonneg cdim dy)). reflexivity.
Qed.
Print Assumptions C36_exact_start_stagnates.

(** OK is never the answer at a solution, whatever the Jacobian *)
Theorem C36_exact_start_never_ok :
  forall mydim cdim j1 j2 f df y o x0 fx c z, (mydim <= cdim)%nat -> (0 < gn_maxIt o)%Z -> (0 < gn_maxInnerIt o)%Z ->
    f x0 = Some fx -> veq cdim fx y -> gaussNewton mydim cdim j1 j2 f df y o x0 = Some (c, z) -> c <> GN_OK /\ z = x0.
Proof.
  intros mydim cdim j1 j2 f df y o x0 fx c z Hd Hm Hi Ef HY E.
  destruct (C35_contract _ _ _ _ _ _ _ _ _ _ _ Hd Hm Hi E) as (m & _ & D & F).
  assert (m = 0%nat).
  { destruct m; [reflexivity|]. exfalso. inversion D; subst. destruct H0 as (dx & j & r & r' & _ & _ & _ & (a & Ea & Er) & (b & _ & Er') & L & _).
    assert (a = fx) by congruence. subst a. rewrite two_norm_0 in Er by (intros k Hk; rewrite HY by assumption; ring).
    assert (Q := two_norm_nonneg cdim (fun k => b k - y k)). lra. }
  subst m. inversion D; subst. split; [|reflexivity]. intros ->. destruct F as [F _]. lia.
Qed.
Print Assumptions C36_exact_start_never_ok.

(** the documented outcome is therefore wrong: identity map, started at the solution *)
Theorem C36_exact_start_refuted :
  exists f df y x0, (forall x, f x = Some x) /\ (forall x, df x = Some mone) /\ veq 2 x0 y /\
    forall j1 j2 o, (0 < gn_maxIt o)%Z -> (0 < gn_maxInnerIt o)%Z ->
      gaussNewton 2 2 j1 j2 f df y o x0 = Some (GN_STAGNATION, x0).
Proof.
  exists (fun x => Some x), (fun _ => Some mone), vzero, vzero. split; [reflexivity|]. split; [reflexivity|]. split; [intros k _; reflexivity|].
  intros j1 j2 o Hm Hi. apply (C36_exact_start_stagnates 2 2 j1 j2 _ _ _ o vzero vzero mone); auto; try discriminate.
  - intros k _. reflexivity.
  - intros x Hx i Hl. assert (Q := Hx i Hl). unfold mvec, mtr, mone in Q. destruct i as [|[|]]; [| |lia]; simpl in Q; lra.
Qed.
Print Assumptions C36_exact_start_refuted.

(** local(global(centre)) throws for both geometries *)
Theorem C36_mapped_local_centre_throws :
  forall mydim gdim cdim j1 j2 g o p y J, (mydim <= cdim)%nat -> (0 < gn_maxIt o)%Z -> (0 < gn_maxInnerIt o)%Z ->
    re_position (wg_id (mg_geo g)) mydim (wg_ref (mg_geo g)) 0 0 = Some p ->
    (forall x, wg_global (mg_geo g) x <> None) -> mg_global g p = Some y ->
    mg_jacobianTransposed gdim g p = Some J -> row_independent mydim cdim J ->
    mg_local mydim gdim cdim j1 j2 g y o = Some None.
Proof.
  intros mydim gdim cdim j1 j2 g o p y J Hd Hm Hi Ep Ft Ey EJ HR. unfold mg_local. rewrite Ep. cbn [obind].
  rewrite (C36_exact_start_stagnates mydim cdim j1 j2 (mg_global g) (mg_jacobianTransposed gdim g) y o p y J); auto.
  - intros x. unfold mg_global. specialize (Ft x). destruct (wg_global (mg_geo g) x); [discriminate|congruence].
  - intros k _. reflexivity.
Qed.
Print Assumptions C36_mapped_local_centre_throws.
Theorem C36_lfe_local_centre_throws :
  forall mydim cdim j1 j2 g o p y J, (mydim <= cdim)%nat -> (0 < gn_maxIt o)%Z -> (0 < gn_maxInnerIt o)%Z ->
    re_position (lf_id g) mydim (lf_ref g) 0 0 = Some p ->
    (forall x, length (fe_values (lf_fe g) x) = length (lf_vertices g)) -> lf_global cdim g p = Some y ->
    lf_jacobianTransposed mydim cdim g p = Some J -> row_independent mydim cdim J ->
    lf_local mydim cdim j1 j2 g y o = Some None.
Proof.
  intros mydim cdim j1 j2 g o p y J Hd Hm Hi Ep Ft Ey EJ HR. unfold lf_local. rewrite Ep. cbn [obind].
  rewrite (C36_exact_start_stagnates mydim cdim j1 j2 (lf_global cdim g) (lf_jacobianTransposed mydim cdim g) y o p y J); auto.
  - intros x. unfold lf_global. rewrite Ft, Nat.eqb_refl. discriminate.
  - intros k _. reflexivity.
Qed.
Print Assumptions C36_lfe_local_centre_throws.

(** ** C37 *)

(** global, corner and center are the mapping after the wrapped functions; jacobian is the
    derivative of global as soon as the two derivatives supplied are right *)
Theorem C37_chain_rule :
  forall mydim gdim cdim g p A D, respects gdim cdim (mg_map g) ->
    wg_jacobian (mg_geo g) p = Some A -> frechet mydim gdim (wg_global (mg_geo g)) p A ->
    (forall q, wg_global (mg_geo g) p = Some q -> meq cdim gdim (mg_dmap g q) D /\ frechet gdim cdim (fun x => Some (mg_map g x)) q D) ->
    exists J, mg_jacobian gdim g p = Some J /\ frechet mydim cdim (mg_global g) p J.
Proof.
  intros mydim gdim cdim g p A D HR EA FA HD. destruct FA as (q & Eq & KA). destruct (HD q Eq) as [MD FD].
  unfold mg_jacobian. rewrite EA. cbn [obind]. rewrite Eq. cbn [obind]. eexists. split; [reflexivity|].
  apply (frechet_meq mydim cdim _ _ (mmul gdim D A)).
  - intros i j Hi Hj. unfold mmul. apply rsum_ext. intros k Hk. now rewrite MD.
  - apply (chain mydim gdim cdim (wg_global (mg_geo g)) (mg_map g) p q A D); auto. exists q. auto.
Qed.
Print Assumptions C37_chain_rule.

Theorem C37_composition :
  forall g p, mg_global g p = option_map (mg_map g) (wg_global (mg_geo g) p) /\
    mg_center g = option_map (mg_map g) (wg_center (mg_geo g)) /\
    forall i, mg_corner g i = option_map (mg_map g) (wg_corner (mg_geo g) i).
Proof. intros g p. repeat split. Qed.
Print Assumptions C37_composition.

(** a geometry whose corners and centre are images under global keeps that property *)
Theorem C37_corners_and_center :
  forall mydim g,
    (forall i, wg_corner (mg_geo g) i = obind (re_position (wg_id (mg_geo g)) mydim (wg_ref (mg_geo g)) i mydim) (wg_global (mg_geo g))) ->
    wg_center (mg_geo g) = obind (re_position (wg_id (mg_geo g)) mydim (wg_ref (mg_geo g)) 0 0) (wg_global (mg_geo g)) ->
    (forall i, mg_corner g i = obind (re_position (wg_id (mg_geo g)) mydim (wg_ref (mg_geo g)) i mydim) (mg_global g)) /\
    mg_center g = obind (re_position (wg_id (mg_geo g)) mydim (wg_ref (mg_geo g)) 0 0) (mg_global g).
Proof.
  intros mydim g H1 H2. unfold mg_corner, mg_center, mg_global. rewrite H2. split; [intro i; rewrite H1|]; match goal with |- option_map _ (obind ?a _) = _ => destruct a; reflexivity end.
Qed.
Print Assumptions C37_corners_and_center.

(** the inverses and the integration element belong to that Jacobian *)
Theorem C37_inverse :
  forall mydim gdim cdim ret j1 j2 g p J, (mydim <= cdim)%nat -> mg_jacobian gdim g p = Some J -> col_independent cdim mydim J ->
    exists X s, mg_jacobianInverse mydim gdim cdim ret j1 j2 g p = Some X /\ meq mydim mydim (mmul cdim X J) mone /\
      moore_penrose cdim mydim J X /\
      mg_jacobianInverseTransposed mydim gdim cdim ret j1 j2 g p = Some (mtr X) /\ mg_jacobianTransposed gdim g p = Some (mtr J) /\
      mg_integrationElement mydim gdim cdim j1 j2 g p = Some s /\ 0 <= s /\ s * s = detR mydim (mmul cdim (mtr J) J).
Proof.
  intros mydim gdim cdim ret j1 j2 g p J Hd EJ HC.
  destruct (C25_left_inverse cdim mydim J ret j1 j2 Hd HC) as (d & X & E & V).
  destruct (C25_left_moore_penrose cdim mydim J ret j1 j2 Hd HC) as (d' & X' & E' & V'). rewrite E in E'. injection E' as <- <-.
  destruct (C26_sqrtDetAAT mydim cdim (mtr J) j1 j2) as (s & Es & P & Q).
  { intros x Hx i Hi. apply (HC x); [|exact Hi]. exact Hx. }
  exists X, s. unfold mg_jacobianInverseTransposed, mg_jacobianInverse, mg_integrationElement, mg_jacobianTransposed. rewrite EJ. cbn [obind option_map].
  rewrite E. cbn [option_map snd obind]. repeat split; auto; apply V'.
Qed.
Print Assumptions C37_inverse.

(** what local returns solves the equation up to the tolerance; otherwise it throws *)
Theorem C37_local :
  forall mydim gdim cdim j1 j2 g y o z, (mydim <= cdim)%nat -> (0 < gn_maxIt o)%Z -> (0 < gn_maxInnerIt o)%Z ->
    mg_local mydim gdim cdim j1 j2 g y o = Some (Some z) ->
    exists w, mg_global g z = Some w /\ two_norm cdim (fun k => w k - y k) < gn_absTol o.
Proof.
  intros mydim gdim cdim j1 j2 g y o z Hd Hm Hi E. unfold mg_local in E.
  destruct (re_position _ _ _ _ _) as [p|]; [|discriminate]. cbn [obind] in E.
  match type of E with obind ?g _ = _ => destruct g as [[c x]|] eqn:EG; [|discriminate] end. cbn [obind] in E.
  destruct c; try discriminate. injection E as ->. exact (C35_ok_below_tolerance _ _ _ _ _ _ _ _ _ _ Hd Hm Hi EG).
Qed.
Print Assumptions C37_local.

(** (u,v) -> (u, v, u+v) after the scaling by 2 *)
Definition lift_map (q : Vec) : Vec := fun k => match k with 0%nat => q 0%nat | 1%nat => q 1%nat | _ => q 0%nat + q 1%nat end.
Definition lift_d (q : Vec) : Mat := fun i k => match i, k with 0%nat, 0%nat => 1 | 1%nat, 1%nat => 1 | 2%nat, _ => 1 | _, _ => 0 end.
Example C37_example :
  let g := {| mg_map := lift_map; mg_dmap := lift_d; mg_affine := true;
              mg_geo := {| wg_id := 3; wg_ref := []; wg_corner := fun _ => None; wg_center := None;
                           wg_global := fun x => Some (fun k => 2 * x k); wg_jacobian := fun _ => Some (fun i j => if Nat.eqb i j then 2 else 0) |} |} in
  exists J w, mg_jacobian 2 g vzero = Some J /\ J 2%nat 0%nat = 2 /\ J 2%nat 1%nat = 2 /\ J 0%nat 1%nat = 0 /\
    mg_global g (fun _ => 1) = Some w /\ w 2%nat = 4.
Proof. cbv zeta. eexists _, _. split; [reflexivity|]. split; [cbn; lra|]. split; [cbn; lra|]. split; [cbn; lra|]. split; [reflexivity|]. cbn. lra. Qed.

(** ** C57 LocalFiniteElementGeometry *)

Lemma axpy_sum cdim (w : nat -> R) (v : nat -> Vec) : forall n k, (k < cdim)%nat ->
  forN n (fun i out => vaxpy cdim (w i) (v i) out) vzero k = rsum n (fun i => w i * v i k).
Proof.
  induction n; intros k Hk; [reflexivity|]. cbn [forN rsum]. unfold vaxpy at 1. rewrite (proj2 (Nat.ltb_lt k cdim) Hk), IHn by assumption. ring.
Qed.

Theorem C57_global :
  forall cdim g x, length (fe_values (lf_fe g) x) = length (lf_vertices g) ->
    exists w, lf_global cdim g x = Some w /\
      forall k, (k < cdim)%nat -> w k = rsum (length (lf_vertices g)) (fun i => nth i (fe_values (lf_fe g) x) 0 * nth i (lf_vertices g) vzero k).
Proof.
  intros cdim g x H. unfold lf_global. rewrite H, Nat.eqb_refl. eexists. split; [reflexivity|]. intros k Hk.
  now apply (axpy_sum cdim (fun i => nth i (fe_values (lf_fe g) x) 0) (fun i => nth i (lf_vertices g) vzero)).
Qed.
Print Assumptions C57_global.

Lemma umtv_sum mydim cdim (v : nat -> Vec) (d : nat -> Vec) : forall n k l, (k < cdim)%nat -> (l < mydim)%nat ->
  forN n (fun i out => forN cdim (fun j out => mrow out j (vaxpy mydim (v i j) (d i) (out j))) out) mzero k l = rsum n (fun i => d i l * v i k).
Proof.
  assert (K : forall i c (out : Mat) k l, (l < mydim)%nat -> forN c (fun j out => mrow out j (vaxpy mydim (v i j) (d i) (out j))) out k l =
    if Nat.ltb k c then out k l + v i k * d i l else out k l).
  { intros i. induction c; intros out k l Hl; [reflexivity|]. cbn [forN]. unfold mrow. destruct (Nat.eqb_spec k c) as [->|].
    - rewrite (proj2 (Nat.ltb_lt c (S c))) by lia. unfold vaxpy. rewrite (proj2 (Nat.ltb_lt l mydim) Hl), IHc by assumption. now rewrite Nat.ltb_irrefl.
    - rewrite IHc by assumption. destruct (Nat.ltb_spec k c), (Nat.ltb_spec k (S c)); auto; lia. }
  induction n; intros k l Hk Hl; [reflexivity|]. cbn [forN rsum]. rewrite K, (proj2 (Nat.ltb_lt k cdim) Hk), IHn by assumption. ring.
Qed.

Theorem C57_jacobian :
  forall mydim cdim g x, length (fe_jacobians (lf_fe g) x) = length (lf_vertices g) ->
    exists J, lf_jacobian mydim cdim g x = Some J /\
      meq cdim mydim J (fun k l => rsum (length (lf_vertices g)) (fun i => nth i (fe_jacobians (lf_fe g) x) vzero l * nth i (lf_vertices g) vzero k)).
Proof.
  intros mydim cdim g x H. unfold lf_jacobian. rewrite H, Nat.eqb_refl. eexists. split; [reflexivity|]. intros k l Hk Hl.
  now apply (umtv_sum mydim cdim (fun i => nth i (lf_vertices g) vzero) (fun i => nth i (fe_jacobians (lf_fe g) x) vzero)).
Qed.
Print Assumptions C57_jacobian.

(** a mismatch of basis and vertices is caught by the assertions *)
Theorem C57_size_mismatch :
  forall mydim cdim g x,
    (lf_global cdim g x = None <-> length (fe_values (lf_fe g) x) <> length (lf_vertices g)) /\
    (lf_jacobian mydim cdim g x = None <-> length (fe_jacobians (lf_fe g) x) <> length (lf_vertices g)).
Proof.
  intros mydim cdim g x. unfold lf_global, lf_jacobian.
  split; [destruct (Nat.eqb_spec (length (fe_values (lf_fe g) x)) (length (lf_vertices g)))|destruct (Nat.eqb_spec (length (fe_jacobians (lf_fe g) x)) (length (lf_vertices g)))];
    split; intro H; congruence.
Qed.
Print Assumptions C57_size_mismatch.

(** jacobian is the derivative of global when the basis reports its derivatives correctly *)
Theorem C57_jacobian_is_derivative :
  forall mydim cdim g p, (forall x, length (fe_values (lf_fe g) x) = length (lf_vertices g)) ->
    length (fe_jacobians (lf_fe g) p) = length (lf_vertices g) ->
    (forall i, (i < length (lf_vertices g))%nat ->
       frechet mydim 1 (fun x => Some (fun _ => nth i (fe_values (lf_fe g) x) 0)) p (fun _ => nth i (fe_jacobians (lf_fe g) p) vzero)) ->
    exists J, lf_jacobian mydim cdim g p = Some J /\ frechet mydim cdim (lf_global cdim g) p J.
Proof.
  intros mydim cdim g p HV HJ HD. destruct (C57_jacobian mydim cdim g p HJ) as (J & EJ & MJ). exists J. split; [exact EJ|].
  assert (F := frechet_comb mydim cdim (length (lf_vertices g)) (fun x i => nth i (fe_values (lf_fe g) x) 0) (fun i => nth i (fe_jacobians (lf_fe g) p) vzero)
     (fun i => nth i (lf_vertices g) vzero) p HD).
  apply (frechet_meq mydim cdim _ _ _ J) in F; [|intros i j Hi Hj; symmetry; now apply MJ].
  destruct F as (Fp & EF & K). injection EF as <-. destruct (C57_global cdim g p (HV p)) as (w & Ew & Vw). exists w. split; [exact Ew|].
  intros eps He. destruct (K eps He) as (dl & Hdl & KK). exists dl. split; [exact Hdl|]. intros h H0 Hh. destruct (KK h H0 Hh) as (Fq & EQ & V). injection EQ as <-.
  destruct (C57_global cdim g (fun j => p j + h j) (HV _)) as (w' & Ew' & Vw'). exists w'. split; [exact Ew'|]. intros k Hk. rewrite Vw, Vw' by assumption. now apply V.
Qed.
Print Assumptions C57_jacobian_is_derivative.

Theorem C57_inverse :
  forall mydim cdim ret j1 j2 g p J, (mydim <= cdim)%nat -> lf_jacobian mydim cdim g p = Some J -> col_independent cdim mydim J ->
    exists X s, lf_jacobianInverse mydim cdim ret j1 j2 g p = Some X /\ meq mydim mydim (mmul cdim X J) mone /\
      moore_penrose cdim mydim J X /\
      lf_jacobianInverseTransposed mydim cdim ret j1 j2 g p = Some (mtr X) /\ lf_jacobianTransposed mydim cdim g p = Some (mtr J) /\
      lf_integrationElement mydim cdim j1 j2 g p = Some s /\ 0 <= s /\ s * s = detR mydim (mmul cdim (mtr J) J).
Proof.
  intros mydim cdim ret j1 j2 g p J Hd EJ HC.
  destruct (C25_left_inverse cdim mydim J ret j1 j2 Hd HC) as (d & X & E & V).
  destruct (C25_left_moore_penrose cdim mydim J ret j1 j2 Hd HC) as (d' & X' & E' & V'). rewrite E in E'. injection E' as <- <-.
  destruct (C26_sqrtDetAAT mydim cdim (mtr J) j1 j2) as (s & Es & P & Q).
  { intros x Hx i Hi. apply (HC x); [|exact Hi]. exact Hx. }
  exists X, s. unfold lf_jacobianInverseTransposed, lf_jacobianInverse, lf_integrationElement, lf_jacobianTransposed. rewrite EJ. cbn [obind option_map].
  rewrite E. cbn [option_map snd obind]. repeat split; auto; apply V'.
Qed.
Print Assumptions C57_inverse.

Theorem C57_local :
  forall mydim cdim j1 j2 g y o z, (mydim <= cdim)%nat -> (0 < gn_maxIt o)%Z -> (0 < gn_maxInnerIt o)%Z ->
    lf_local mydim cdim j1 j2 g y o = Some (Some z) ->
    exists w, lf_global cdim g z = Some w /\ two_norm cdim (fun k => w k - y k) < gn_absTol o.
Proof.
  intros mydim cdim j1 j2 g y o z Hd Hm Hi E. unfold lf_local in E.
  match type of E with obind ?a _ = _ => destruct a as [p|]; [|discriminate] end. cbn [obind] in E.
  match type of E with obind ?g _ = _ => destruct g as [[c x]|] eqn:EG; [|discriminate] end. cbn [obind] in E.
  destruct c; try discriminate. injection E as ->. exact (C35_ok_below_tolerance _ _ _ _ _ _ _ _ _ _ Hd Hm Hi EG).
Qed.
Print Assumptions C57_local.

(** affine(): the optional never changes the answer *)
Theorem C57_affine_cached :
  forall mydim cdim tol junk ret j1 j2 g aff, (forall a, aff = Some a -> lf_affineImpl mydim cdim tol junk ret j1 j2 g = Some a) ->
    match lf_affine mydim cdim tol junk ret j1 j2 g aff with
    | Some (a, aff') => lf_affineImpl mydim cdim tol junk ret j1 j2 g = Some a /\ aff' = Some a
    | None => lf_affineImpl mydim cdim tol junk ret j1 j2 g = None
    end.
Proof.
  intros mydim cdim tol junk ret j1 j2 g aff H. unfold lf_affine. destruct aff as [a|]; [auto|].
  destruct (lf_affineImpl mydim cdim tol junk ret j1 j2 g); cbn [obind]; auto.
Qed.
Print Assumptions C57_affine_cached.

Lemma ocollect_spec {A} (f : nat -> option A) : forall n l, ocollect n f = Some l -> length l = n /\ forall i, (i < n)%nat -> nth_error l i = f i.
Proof.
  induction n; cbn [ocollect]; intros l E; [injection E as <-; split; [reflexivity|lia]|].
  destruct (ocollect n f) as [l'|]; [|discriminate]. cbn [obind] in E. destruct (f n) as [a|] eqn:Ea; [|discriminate]. injection E as <-.
  destruct (IHn l' eq_refl) as [L H]. split; [rewrite app_length; cbn; lia|]. intros i Hi. destruct (Nat.eq_dec i n) as [->|].
  - rewrite nth_error_app2 by lia. rewrite L, Nat.sub_diag. cbn. now rewrite Ea.
  - rewrite nth_error_app1 by lia. apply H. lia.
Qed.
Lemma ocollect_ok {A} (f : nat -> option A) : forall n, (forall i, (i < n)%nat -> f i <> None) -> exists l, ocollect n f = Some l.
Proof.
  induction n; intro H; cbn [ocollect]; [eauto|]. destruct IHn as [l E]; [auto|]. rewrite E. cbn [obind]. assert (Q := H n ltac:(lia)).
  destruct (f n); [cbn [obind]; eauto|congruence].
Qed.

(** the corners of the reference simplex *)
Lemma simplex_pos dim r : (1 < dim)%nat -> size (gt_id (simplex dim)) dim dim = S dim /\
  forall i, (i <= dim)%nat -> exists p, re_position (gt_id (simplex dim)) dim r i dim = Some p /\ forall k, p k = if Nat.eqb i (S k) then 1 else 0.
Proof.
  intro Hd. assert (V : (gt_id (simplex dim) < 2 ^ N.of_nat dim)%N).
  { cbn. assert (2 ^ N.of_nat dim <> 0)%N by (apply N.pow_nonzero; discriminate). lia. }
  assert (IS : isSimplex (GT2 (gt_id (simplex dim)) dim) = true).
  { reflexivity. }
  assert (CC := C16_corner_count (gt_id (simplex dim)) dim).
  assert (SZ : size (gt_id (simplex dim)) dim dim = S dim).
  { rewrite <- CC. rewrite corners_verts, map_length. rewrite simT_verts_length; [now rewrite tdim_topo_of|]. apply (isSimplex_simT _ _); [now rewrite bit_pow|exact IS]. }
  split; [exact SZ|]. intros i Hi. unfold re_position. rewrite Nat.eqb_refl.
  destruct (nth_error (referenceCorners (gt_id (simplex dim)) dim) i) as [p|] eqn:E.
  - exists p. split; [reflexivity|]. now apply (C16_simplex_corners _ _ _ _ V IS).
  - apply nth_error_None in E. rewrite CC, SZ in E. lia.
Qed.

Definition affine_lfe (mydim cdim : nat) (g : LFEGeo) (o : Vec) (A : Mat) : Prop :=
  forall x, exists w, lf_global cdim g x = Some w /\ veq cdim w (fun k => o k + mvec mydim (mtr A) x k).

(** every affine geometry of full rank with an element of order at most one is recognised *)
Theorem C57_affine_detected :
  forall mydim cdim tol junk ret j1 j2 g o A, (mydim <= cdim)%nat -> 0 <= tol -> (fe_order (lf_fe g) <= 1)%Z ->
    affine_lfe mydim cdim g o A -> row_independent mydim cdim A ->
    lf_affineImpl mydim cdim tol junk ret j1 j2 g = Some true.
Proof.
  intros mydim cdim tol junk ret j1 j2 g o A Hd Ht Ho HA HR. unfold lf_affineImpl.
  destruct (Nat.eqb_spec mydim 0) as [|N0]; [reflexivity|]. rewrite (proj2 (Z.ltb_ge 1 (fe_order (lf_fe g)))) by lia.
  destruct (Nat.eqb_spec mydim 1) as [|N1]; [reflexivity|]. destruct (isSimplex (GT2 (lf_id g) mydim)); [reflexivity|].
  set (sid := gt_id (simplex mydim)).
  assert (V : (sid < bit mydim)%N). { rewrite bit_pow. unfold sid. cbn. assert (2 ^ N.of_nat mydim <> 0)%N by (apply N.pow_nonzero; discriminate). lia. }
  destruct (re_infos_spec sid mydim V) as (r & Er & _). cbv zeta. rewrite Er. cbn [obind].
  destruct (simplex_pos mydim r ltac:(lia)) as [SZ SP]. fold sid in SZ, SP. rewrite SZ.
  destruct (ocollect_ok (fun i => obind (re_position sid mydim r i mydim) (lf_global cdim g)) (S mydim)) as [l El].
  { intros i Hi. destruct (SP i ltac:(lia)) as (p & -> & _). cbn [obind]. destruct (HA p) as (w & -> & _). discriminate. }
  rewrite El. cbn [obind]. destruct (ocollect_spec _ _ _ El) as [LL LN].
  assert (Lc : forall i, (i <= mydim)%nat -> exists w, nth_error l i = Some w /\ veq cdim w (fun k => o k + match i with 0%nat => 0 | S i => A i k end)).
  { intros i Hi. rewrite LN by lia. destruct (SP i Hi) as (p & -> & Vp). cbn [obind]. destruct (HA p) as (w & -> & Vw). exists w. split; [reflexivity|].
    intros k Hk. rewrite Vw by assumption. f_equal. unfold mvec, mtr. destruct i as [|i].
    - apply rsum_0. intros j Hj. rewrite Vp. cbn. ring.
    - rewrite (rsum_ext mydim _ (fun j => A j k * (if Nat.eqb j i then 1 else 0))).
      + rewrite (rsum_ext mydim _ (fun j => if Nat.eqb j i then A j k else 0)) by (intros j _; destruct (Nat.eqb j i); ring).
        now rewrite (rsum_delta mydim i (fun j => A j k)) by lia.
      + intros j Hj. rewrite Vp. rewrite Nat.eqb_sym. reflexivity. }
  assert (Ld : forall i, (i <= mydim)%nat -> veq cdim (nth i l vzero) (fun k => o k + match i with 0%nat => 0 | S i => A i k end)).
  { intros i Hi. destruct (Lc i Hi) as (w & E & Vw). now rewrite (nth_error_nth _ _ vzero E). }
  destruct (C28_construction mydim cdim sid r l junk ret j1 j2 Hd) as [ag Ea]; [lia| |].
  { intros w Hw i Hi. apply (HR w); [|exact Hi]. intros k Hk. rewrite <- (Hw k Hk). unfold mvec, mtr. apply rsum_ext. intros j Hj.
    rewrite (Ld (S j)), (Ld 0%nat) by (assumption || lia). ring. }
  rewrite Ea. cbn [obind]. destruct (corners_inv _ _ _ _ _ _ _ _ _ _ Ea) as (o' & Eo & _ & _ & EO & EJ).
  assert (AG : forall x k, (k < cdim)%nat -> ag_global mydim ag x k = o k + mvec mydim (mtr A) x k).
  { intros x k Hk. unfold ag_global. rewrite EO. destruct (Lc 0%nat ltac:(lia)) as (w & E & Vw). rewrite Eo in E. injection E as <-. rewrite (Vw k Hk), Rplus_0_r.
    f_equal. unfold mvec, mtr. apply rsum_ext. intros i Hi. destruct (EJ i Hi) as (c & Ec & Jc). rewrite Jc, (Vw k Hk).
    destruct (Lc (S i) ltac:(lia)) as (w' & E' & Vw'). rewrite Ec in E'. injection E' as <-. rewrite (Vw' k Hk). ring. }
  assert (CK : forall n i, (i + n <= lf_corners mydim g)%nat -> lf_check mydim cdim tol g ag n i = Some true).
  { induction n; intros i Hi; [reflexivity|]. cbn [lf_check].
    unfold re_position. rewrite Nat.eqb_refl.
    destruct (nth_error (referenceCorners (lf_id g) mydim) i) as [p|] eqn:E.
    2:{ apply nth_error_None in E. rewrite C16_corner_count in E. unfold lf_corners in Hi. lia. }
    cbn [obind]. destruct (HA p) as (w & -> & Vw). cbn [obind].
    rewrite two_norm_0 by (intros k Hk; rewrite AG, Vw by assumption; ring).
    rewrite (proj2 (Rltb_false tol 0) Ht). apply IHn. lia. }
  apply CK. lia.
Qed.
Print Assumptions C57_affine_detected.

(** conversely the answer true on a non-simplex of order at most one comes with an affine map
    that is within the tolerance at all corners *)
Theorem C57_affine_answer :
  forall mydim cdim tol junk ret j1 j2 g, (1 < mydim)%nat -> isSimplex (GT2 (lf_id g) mydim) = false ->
    lf_affineImpl mydim cdim tol junk ret j1 j2 g = Some true ->
    (fe_order (lf_fe g) <= 1)%Z /\
    exists o A, forall i p, nth_error (referenceCorners (lf_id g) mydim) i = Some p ->
      exists w, lf_global cdim g p = Some w /\ two_norm cdim (fun k => o k + mvec mydim (mtr A) p k - w k) <= tol.
Proof.
  intros mydim cdim tol junk ret j1 j2 g Hd HS E. unfold lf_affineImpl in E.
  destruct (Nat.eqb_spec mydim 0) as [|N0]; [lia|]. destruct (Z.ltb_spec 1 (fe_order (lf_fe g))); [discriminate|]. split; [lia|].
  destruct (Nat.eqb_spec mydim 1) as [|N1]; [lia|]. rewrite HS in E. cbv zeta in E.
  match type of E with obind ?a _ = _ => destruct a as [r|]; [|discriminate] end. cbn [obind] in E.
  match type of E with obind ?a _ = _ => destruct a as [l|]; [|discriminate] end. cbn [obind] in E.
  match type of E with obind ?a _ = _ => destruct a as [ag|]; [|discriminate] end. cbn [obind] in E.
  exists (ag_origin ag), (ag_jt ag).
  assert (K : forall n i, lf_check mydim cdim tol g ag n i = Some true -> forall j, (i <= j < i + n)%nat -> forall p, nth_error (referenceCorners (lf_id g) mydim) j = Some p ->
     exists w, lf_global cdim g p = Some w /\ two_norm cdim (fun k => ag_global mydim ag p k - w k) <= tol).
  { induction n; intros i C j Hj p Ep; [lia|]. cbn [lf_check] in C.
    destruct (re_position (lf_id g) mydim (lf_ref g) i mydim) as [q|] eqn:Eq; [|discriminate]. cbn [obind] in C.
    destruct (lf_global cdim g q) as [w|] eqn:Ew; [|discriminate]. cbn [obind] in C.
    destruct (Rltb tol (two_norm cdim (fun k => ag_global mydim ag q k - w k))) eqn:L; [discriminate|]. apply Rltb_false in L.
    destruct (Nat.eq_dec j i) as [->|].
    - unfold re_position in Eq. rewrite Nat.eqb_refl in Eq. assert (q = p) by congruence. subst q. eauto.
    - apply (IHn (S i) C j); [lia|assumption]. }
  intros i p Ep. assert (L : (i < lf_corners mydim g)%nat) by (unfold lf_corners; rewrite <- C16_corner_count; apply nth_error_Some; congruence).
  exact (K _ 0%nat E i ltac:(lia) p Ep).
Qed.
Print Assumptions C57_affine_answer.

Lemma rightInvA_dependent m n A ret j1 j2 : (m <= n)%nat -> (m, n) <> (2, 2)%nat -> ~ row_independent m n A -> rightInvA m n A ret j1 j2 = None.
Proof.
  intros Hmn Hs Hr. unfold rightInvA. replace (Nat.eqb n 2 && Nat.eqb m 2)%bool with false.
  2:{ destruct (Nat.eqb_spec n 2), (Nat.eqb_spec m 2); subst; auto; congruence. }
  unfold spdInvA. rewrite (proj1 (C24_cholesky_assertion m (AAT_L m n A j1) (mmul n A (mtr A)) j2 (gram_sym m n A) (AAT_lower m n A j1 Hmn))); [reflexivity|].
  intro HS; apply Hr; now apply spd_gram.
Qed.

(** the question is not answered for a degenerate geometry: asking whether a constant map of the
    square into space is affine ends in the assertion of the Cholesky factorization *)
Theorem C57_affine_degenerate_refuted :
  exists g : LFEGeo, (lf_id g < 2 ^ 2)%N /\ fe_order (lf_fe g) = 1%Z /\ affine_lfe 2 3 g vzero mzero /\
    forall tol junk ret j1 j2, lf_affineImpl 2 3 tol junk ret j1 j2 g = None.
Proof.
  exists {| lf_id := 3; lf_ref := []; lf_fe := {| fe_order := 1; fe_values := fun _ => [1]; fe_jacobians := fun _ => [vzero] |}; lf_vertices := [vzero] |}.
  split; [vm_compute; reflexivity|]. split; [reflexivity|].
  set (g := {| lf_id := 3; lf_ref := []; lf_fe := {| fe_order := 1; fe_values := fun _ => [1]; fe_jacobians := fun _ => [vzero] |}; lf_vertices := [vzero] |}).
  assert (HG : forall x, exists w, lf_global 3 g x = Some w /\ forall k, w k = 0).
  { intro x. eexists. split; [reflexivity|]. intro k. cbn [length lf_fe fe_values g forN nth lf_vertices]. unfold vaxpy, vzero. destruct (Nat.ltb k 3); ring. }
  split.
  { intro x. destruct (HG x) as (w & E & V). exists w. split; [exact E|]. intros k Hk. rewrite V. unfold mvec, mtr, mzero, vzero. cbn. ring. }
  intros tol junk ret j1 j2. unfold lf_affineImpl. change (Nat.eqb 2 0) with false. change (1 <? fe_order (lf_fe g))%Z with false. change (Nat.eqb 2 1) with false.
  change (isSimplex (GT2 (lf_id g) 2)) with false. cbv iota zeta. set (sid := gt_id (simplex 2)).
  destruct (re_infos_spec sid 2) as (r & Er & _); [vm_compute; reflexivity|]. rewrite Er. cbn [obind].
  match goal with |- obind ?a _ = _ => destruct a as [l|] eqn:El; [|reflexivity] end. cbn [obind].
  match goal with |- obind ?a _ = _ => destruct a as [ag|] eqn:Ea; [|reflexivity] end. exfalso.
  destruct (ocollect_spec _ _ _ El) as [LL LN].
  assert (Z : forall i w, nth_error l i = Some w -> forall k, w k = 0).
  { intros i w Ew. assert (Li : (i < length l)%nat) by (apply nth_error_Some; congruence). rewrite LN in Ew by lia.
    match type of Ew with obind ?a _ = _ => destruct a as [p|]; [|discriminate] end. cbn [obind] in Ew.
    destruct (HG p) as (w' & E & V). assert (w = w') by congruence. subst. exact V. }
  unfold affine_from_corners in Ea. destruct (nth_error l 0) as [o|] eqn:Eo; [|discriminate]. cbn [obind] in Ea.
  match type of Ea with obind ?a _ = _ => destruct a as [jt|] eqn:Ej; [|discriminate] end. cbn [obind] in Ea.
  unfold affine_from_jacobian in Ea. rewrite rightInvA_dependent in Ea; [discriminate|lia|congruence|].
  intro HR. assert (Q : 1 = 0); [|lra]. apply (HR (fun _ => 1)) with (i := 0%nat); [|lia]. intros k Hk. unfold mvec, mtr. apply rsum_0. intros i Hi.
  destruct (corner_rows_spec _ _ _ _ _ Ej i Hi) as (c & Ec & Jc). rewrite Jc, (Z _ _ Ec), (Z _ _ Eo). ring.
Qed.
Print Assumptions C57_affine_degenerate_refuted.

(** the segment from (1,0) to (3,4) with the two hat functions *)
Definition hats : LFE := {| fe_order := 1; fe_values := fun x => [1 - x 0%nat; x 0%nat]; fe_jacobians := fun _ => [(fun _ => -1); (fun _ => 1)] |}.
Definition segment : LFEGeo := {| lf_id := 0; lf_ref := []; lf_fe := hats;
  lf_vertices := [(fun k => match k with 0%nat => 1 | _ => 0 end); (fun k => match k with 0%nat => 3 | _ => 4 end)] |}.
Example C57_example : exists w J, lf_global 2 segment (fun _ => 1 / 4) = Some w /\ w 0%nat = 3 / 2 /\ w 1%nat = 1 /\
  lf_jacobian 1 2 segment (fun _ => 1 / 4) = Some J /\ J 0%nat 0%nat = 2 /\ J 1%nat 0%nat = 4.
Proof.
  destruct (C57_global 2 segment (fun _ => 1 / 4) eq_refl) as (w & Ew & Vw). destruct (C57_jacobian 1 2 segment (fun _ => 1 / 4) eq_refl) as (J & EJ & VJ).
  exists w, J. rewrite !Vw, !VJ by lia. cbn. repeat split; auto; lra.
Qed.

(** ** C58 volume of the curved geometries *)

(** the quadrature sum over a rule, independently of the loop *)
Definition rule_value (F : Vec -> R) (q : Rule) : R := fold_right (fun pw acc => F (fst pw) * snd pw + acc) 0 q.
Lemma volume_sum_spec intel (F : Vec -> R) : forall q v, (forall p w, In (p, w) q -> intel p = Some (F p)) -> volume_sum intel q v = Some (v + rule_value F q).
Proof.
  induction q as [|[p w] q IH]; intros v H; cbn; [f_equal; ring|]. rewrite (H p w (or_introl eq_refl)). cbn [obind]. rewrite IH by (intros; eapply H; right; eassumption).
  f_equal. fold (rule_value F q). ring.
Qed.

(** the result is one of the quadrature sums; it is the first whose distance to its predecessor
    is below the tolerance, or the last one tried; only the orders 1 .. max(1, maxIt-1) are requested *)
Theorem C58_volume :
  forall rule intel F o, (forall p, intel p = Some (F p)) ->
    (forall p, (1 <= p <= Z.max 1 (co_maxIt o - 1))%Z -> rule p <> None) ->
    exists v, volume_iter rule intel (Some false) o = Some v /\
      exists p q, (1 <= p <= Z.max 1 (co_maxIt o - 1))%Z /\ rule p = Some q /\ v = rule_value F q /\
        (p = Z.max 1 (co_maxIt o - 1) \/ (2 <= p)%Z /\ exists q', rule (p - 1)%Z = Some q' /\ Rabs (v - rule_value F q') < co_absTol o) /\
        (forall p' q1 q2, (2 <= p' < p)%Z -> rule (p' - 1)%Z = Some q1 -> rule p' = Some q2 -> co_absTol o <= Rabs (rule_value F q2 - rule_value F q1)).
Proof.
  intros rule intel F o HI HR. set (M := Z.max 1 (co_maxIt o - 1)) in *.
  assert (L : forall n p q, (n = Z.to_nat (M - p))%nat -> (1 <= p <= M)%Z -> rule p = Some q ->
    (forall p' q1 q2, (2 <= p' <= p)%Z -> rule (p' - 1)%Z = Some q1 -> rule p' = Some q2 -> co_absTol o <= Rabs (rule_value F q2 - rule_value F q1)) ->
    exists v, volume_loop rule intel (co_absTol o) n (p + 1) (rule_value F q) = Some v /\
      exists p' q', (1 <= p' <= M)%Z /\ rule p' = Some q' /\ v = rule_value F q' /\
        (p' = M \/ (2 <= p')%Z /\ exists q'', rule (p' - 1)%Z = Some q'' /\ Rabs (v - rule_value F q'') < co_absTol o) /\
        (forall a q1 q2, (2 <= a < p')%Z -> rule (a - 1)%Z = Some q1 -> rule a = Some q2 -> co_absTol o <= Rabs (rule_value F q2 - rule_value F q1))).
  { induction n; intros p q En Hp Eq HH; cbn [volume_loop].
    - assert (p = M) by lia. subst p. eexists. split; [reflexivity|]. exists M, q. split; [lia|]. split; [exact Eq|]. split; [reflexivity|]. split; [auto|].
      intros a q1 q2 Ha. apply HH. lia.
    - assert (Q := HR (p + 1)%Z ltac:(lia)). destruct (rule (p + 1)%Z) as [q1|] eqn:E1; [|congruence]. cbn [obind].
      rewrite (volume_sum_spec intel F q1 0) by auto. cbn [obind]. rewrite Rplus_0_l.
      destruct (Rltb (Rabs (rule_value F q1 - rule_value F q)) (co_absTol o)) eqn:L.
      + apply Rltb_true in L. eexists. split; [reflexivity|]. exists (p + 1)%Z, q1. split; [lia|]. split; [exact E1|]. split; [reflexivity|]. split.
        * right. split; [lia|]. exists q. replace (p + 1 - 1)%Z with p by lia. auto.
        * intros a qa qb Ha. apply HH. lia.
      + apply Rltb_false in L. apply (IHn (p + 1)%Z q1); [lia|lia|exact E1|]. intros a qa qb Ha Ea Eb.
        destruct (Z.eq_dec a (p + 1)) as [->|]; [|apply (HH a); auto; lia]. replace (p + 1 - 1)%Z with p in Ea by lia.
        assert (qa = q) by congruence. assert (qb = q1) by congruence. subst. exact L. }
  unfold volume_iter. assert (Q := HR 1%Z ltac:(lia)). destruct (rule 1%Z) as [q|] eqn:E1; [|congruence]. cbn [obind].
  rewrite (volume_sum_spec intel F q 0) by auto. cbn [obind]. rewrite Rplus_0_l.
  apply (L _ 1%Z q); [lia|lia|exact E1|]. intros; lia.
Qed.
Print Assumptions C58_volume.

Lemma rule_value_const c q : rule_value (fun _ => c) q = c * fold_right (fun pw acc => snd pw + acc) 0 q.
Proof. induction q as [|[p w] q IH]; cbn; [ring|]. fold (rule_value (fun _ : Vec => c) q). rewrite IH. ring. Qed.
(** for an affine geometry (constant integration element c) the value is c times the sum of the
    weights, whatever the options *)
Theorem C58_affine :
  forall rule intel c q o, rule 1%Z = Some q -> (forall p, intel p = Some c) ->
    volume_iter rule intel (Some true) o = Some (c * fold_right (fun pw acc => snd pw + acc) 0 q).
Proof.
  intros rule intel c q o Eq HI. unfold volume_iter. rewrite Eq. cbn [obind]. rewrite (volume_sum_spec intel (fun _ => c) q 0) by auto. cbn [obind].
  f_equal. rewrite Rplus_0_l. apply rule_value_const.
Qed.
Print Assumptions C58_affine.

(** a rule that is missing (more than the 127 orders there are) is dereferenced as soon as the
    sums up to there differ by the tolerance or more *)
Theorem C58_missing_rule :
  forall (rule : Z -> option Rule) intel F o top, (forall p, intel p = Some (F p)) ->
    (1 <= top)%Z -> (top < co_maxIt o - 1)%Z -> (forall p, (1 <= p <= top)%Z -> exists q, rule p = Some q) -> rule (top + 1)%Z = None ->
    (forall p q1 q2, (2 <= p <= top)%Z -> rule (p - 1)%Z = Some q1 -> rule p = Some q2 -> co_absTol o <= Rabs (rule_value F q2 - rule_value F q1)) ->
    volume_iter rule intel (Some false) o = None.
Proof.
  intros rule intel F o top HI Ht Hm HR HN HH.
  assert (L : forall n p q, (1 <= p <= top)%Z -> rule p = Some q -> (top - p < Z.of_nat n)%Z -> volume_loop rule intel (co_absTol o) n (p + 1) (rule_value F q) = None).
  { induction n; intros p q Hp Eq Hn; [lia|]. cbn [volume_loop]. destruct (Z.eq_dec p top) as [->|]; [now rewrite HN|].
    destruct (HR (p + 1)%Z ltac:(lia)) as [q1 E1]. rewrite E1. cbn [obind]. rewrite (volume_sum_spec intel F q1 0) by auto. cbn [obind]. rewrite Rplus_0_l.
    assert (K := HH (p + 1)%Z q q1 ltac:(lia)). replace (p + 1 - 1)%Z with p in K by lia. rewrite (proj2 (Rltb_false _ _) (K Eq E1)).
    apply IHn; [lia|exact E1|lia]. }
  unfold volume_iter. destruct (HR 1%Z ltac:(lia)) as [q E1]. rewrite E1. cbn [obind]. rewrite (volume_sum_spec intel F q 0) by auto. cbn [obind]. rewrite Rplus_0_l.
  apply (L _ 1%Z q); [lia|exact E1|lia].
Qed.
Print Assumptions C58_missing_rule.

(** midpoint rule, then Simpson's rule twice, for the integrand 1 + x^2: 5/4, then 4/3 *)
Example C58_example :
  let at_ := fun x : R => (fun k : nat => match k with 0%nat => x | _ => 0 end) in
  let rule := fun p => if (p <=? 1)%Z then Some [(at_ (1 / 2), 1)] else Some [(at_ 0, 1 / 6); (at_ (1 / 2), 2 / 3); (at_ 1, 1 / 6)] in
  volume_iter rule (fun x => Some (1 + x 0%nat * x 0%nat)) (Some false) {| co_maxIt := 10; co_absTol := 1 / 100 |} = Some (4 / 3).
Proof.
  cbv zeta. unfold volume_iter. cbn [Z.leb Z.compare Pos.compare Pos.compare_cont obind volume_sum co_maxIt co_absTol]. change (Z.to_nat (10 - 2)) with 8%nat.
  cbn [volume_loop Z.leb Z.compare Pos.compare Pos.compare_cont obind volume_sum].
  match goal with |- context [Rltb ?a ?b] => replace (Rltb a b) with false end.
  2:{ symmetry. apply Rltb_false. rewrite Rabs_right; lra. }
  change (2 + 1)%Z with 3%Z. cbn [Z.leb Z.compare Pos.compare Pos.compare_cont obind volume_sum].
  match goal with |- context [Rltb ?a ?b] => replace (Rltb a b) with true end.
  2:{ symmetry. apply Rltb_true. rewrite Rabs_right; lra. }
  f_equal. field.
Qed.
