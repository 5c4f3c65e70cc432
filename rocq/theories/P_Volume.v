(** Jacobian determinants of (cones over) quadrilaterals and their integrals. *)
From Coq Require Import PeanoNat NArith Lia Bool List Reals Lra FunctionalExtensionality.
From Coquelicot Require Import Coquelicot.
From Verif Require Import M_Type M_RefTopo M_RefGeo M_Matrix M_MultiLinear S_Topo S_RefGeo S_Matrix S_MultiLinear P_Topo P_RSum P_RefGeo P_RefGeo2 P_RefGeo3
  P_Det P_MxBridge P_DetInv P_Matrix P_Matrix4 P_RefVol P_ML1 P_ML2 P_ML3 P_ML5.
From Verif Require P_QuadProd.
Import ListNotations.
Local Open Scope R_scope.

(** ** Rank-one changes of the rows *)
Section Rank1.
Variables (n : nat) (r : nat -> nat -> R) (d : nat -> R) (s : nat -> R).
(** rows below q get s_i d added; row p (if >= q) is replaced by d *)
Definition rows (q : nat) : Mat := fun i j => if Nat.ltb i q then r i j + s i * d j else r i j.
Definition put (p : nat) (A : Mat) : Mat := fun i j => if Nat.eqb i p then d j else A i j.
Lemma put_rows p : (p < n)%nat -> forall q, (q <= p)%nat -> detR n (put p (rows q)) = detR n (put p r).
Proof.
  intro Hp. induction q as [|q IH]; intro Hq.
  - apply detR_ext. intros i j Hi Hj. unfold put, rows. now destruct (Nat.eqb i p).
  - rewrite <- IH by lia. rewrite <- (@detR_add n (put p (rows q)) q p (s q)) by lia.
    apply detR_ext. intros i j Hi Hj. unfold put, rows. rewrite Nat.eqb_refl.
    destruct (Nat.eqb_spec i p) as [->|E1]; [destruct (Nat.eqb_spec p q); [lia|reflexivity]|].
    destruct (Nat.eqb_spec i q) as [->|E2].
    + rewrite (proj2 (Nat.ltb_lt q (S q))) by lia. rewrite Nat.ltb_irrefl. reflexivity.
    + replace (Nat.ltb i (S q)) with (Nat.ltb i q); [reflexivity|].
      destruct (Nat.ltb_spec i q), (Nat.ltb_spec i (S q)); auto; lia.
Qed.
Lemma det_rows : forall q, (q <= n)%nat -> detR n (rows q) = detR n r + rsum q (fun i => s i * detR n (put i r)).
Proof.
  induction q as [|q IH]; intro Hq.
  - cbn [rsum]. rewrite Rplus_0_r. apply detR_ext. reflexivity.
  - cbn [rsum]. rewrite (@detR_rowlin n (rows (S q)) q (r q) d 1 (s q)) by (try lia; intros; unfold rows; rewrite (proj2 (Nat.ltb_lt q (S q))) by lia; ring).
    assert (B : forall i, i <> q -> Nat.ltb i (S q) = Nat.ltb i q).
    { intros i Hi. destruct (Nat.ltb_spec i q), (Nat.ltb_spec i (S q)); auto; lia. }
    assert (E1 : detR n (fun i j => if Nat.eqb i q then r q j else rows (S q) i j) = detR n (rows q)).
    { apply detR_ext. intros i j Hi Hj. unfold rows. destruct (Nat.eqb_spec i q) as [->|E]; [now rewrite Nat.ltb_irrefl|]. now rewrite B. }
    assert (E2 : detR n (fun i j => if Nat.eqb i q then d j else rows (S q) i j) = detR n (put q r)).
    { rewrite <- (put_rows q ltac:(lia) q (le_n _)). apply detR_ext. intros i j Hi Hj. unfold put, rows. destruct (Nat.eqb_spec i q); [reflexivity|]. now rewrite B. }
    rewrite E1, E2, IH by lia. ring.
Qed.
End Rank1.

(** ** Cones over a quadrilateral *)
Fixpoint pyrs (m : nat) : Topo := match m with O => Pri (Pri Pt) | S m => Pyr (pyrs m) end.
Lemma tdim_pyrs m : tdim (pyrs m) = (m + 2)%nat.
Proof. induction m; cbn [pyrs tdim]; lia. Qed.
Lemma nv_pyrs m : nv (pyrs m) = (m + 4)%nat.
Proof. induction m; cbn [pyrs nv]; lia. Qed.
(** the point of the square a point is projected to *)
Fixpoint base (m : nat) (x : Vec) : R * R :=
  match m with O => (x 0%nat, x 1%nat) | S m => base m (fun k => x k / (1 - x (m + 2)%nat)) end.
Lemma base_ext m : forall x y, (forall k, (k < m + 2)%nat -> x k = y k) -> base m x = base m y.
Proof.
  induction m as [|m IH]; intros x y H; cbn [base]; [now rewrite !H by lia|]. apply IH. intros k Hk. now rewrite !H by lia.
Qed.
Lemma away_t tol z : 0 <= tol -> tol < Rabs z -> away tol z = true.
Proof. intros H1 H2. now apply away_true. Qed.

Section Cone.
Variables (tol : R) (c : nat -> R).
Hypothesis Htol : 0 <= tol.
Definition GF (m : nat) (x : Vec) : R := rsum (nv (pyrs m)) (fun i => shapeC tol (pyrs m) x i * c i).
Definition GJ (m : nat) (x : Vec) (j : nat) : R := rsum (nv (pyrs m)) (fun i => dshapeC tol (pyrs m) x j i * c i).
Definition dd : R := c 0%nat - c 1%nat - c 2%nat + c 3%nat.
(** row j of the transposed Jacobian over the base point (u,v), one component *)
Definition qrow (u v : R) (j : nat) : R :=
  match j with
  | O => c 1%nat - c 0%nat + v * dd
  | 1%nat => c 2%nat - c 0%nat + u * dd
  | S (S j) => c (4 + j)%nat - c 0%nat + u * v * dd
  end.
Lemma GJ_step m x j : (j < m + 2)%nat -> tol < Rabs (1 - x (m + 2)%nat) -> GJ (S m) x j = GJ m (fun k => x k / (1 - x (m + 2)%nat)) j.
Proof.
  intros Hj Ht. unfold GJ. cbn [pyrs nv]. rewrite rsum_app. cbn [rsum]. rewrite Nat.add_0_r. cbn [dshapeC]. rewrite tdim_pyrs.
  rewrite (proj2 (Nat.ltb_lt j (m + 2))) by assumption. rewrite Nat.ltb_irrefl.
  rewrite Rplus_0_l, Rmult_0_l, Rplus_0_r. apply rsum_ext. intros i Hi. rewrite (proj2 (Nat.ltb_lt i _)) by assumption.
  do 2 f_equal. apply functional_extensionality. intro k. unfold proj. now rewrite away_t.
Qed.
Lemma GF_step m x : tol < Rabs (1 - x (m + 2)%nat) ->
  GF (S m) x = (1 - x (m + 2)%nat) * GF m (fun k => x k / (1 - x (m + 2)%nat)) + x (m + 2)%nat * c (m + 4)%nat.
Proof.
  intro Ht. unfold GF. cbn [pyrs]. rewrite (wsum_Pyr tol (pyrs m) x (fun i _ => c i) 0), tdim_pyrs, away_t, nv_pyrs by assumption. reflexivity.
Qed.
Lemma GJ_last m x : tol < Rabs (1 - x (m + 2)%nat) ->
  let y := fun k => x k / (1 - x (m + 2)%nat) in GJ (S m) x (m + 2) = c (m + 4)%nat - (GF m y - rsum (m + 2) (fun l => y l * GJ m y l)).
Proof.
  intros Ht y. unfold GJ at 1. cbn [pyrs nv]. rewrite rsum_app. cbn [rsum]. rewrite Nat.add_0_r. cbn [dshapeC]. rewrite tdim_pyrs.
  rewrite !Nat.ltb_irrefl, Rplus_0_l, Rmult_1_l.
  replace (proj tol (x (m + 2)%nat) x) with y by (apply functional_extensionality; intro k; unfold proj; now rewrite away_t).
  rewrite (rsum_ext _ _ (fun i => (-1) * (shapeC tol (pyrs m) y i * c i) + rsum (m + 2) (fun l => y l * (dshapeC tol (pyrs m) y l i * c i)))).
  - rewrite rsum_plus, rsum_scal. rewrite rsum_swap. rewrite (rsum_ext (m + 2) _ (fun l => y l * GJ m y l)).
    + rewrite nv_pyrs. unfold GF. rewrite nv_pyrs. ring.
    + intros l Hl. unfold GJ. now rewrite <- rsum_scal.
  - intros i Hi. rewrite (proj2 (Nat.ltb_lt i _)) by assumption.
    rewrite (rsum_ext (m + 2) (fun l => y l * (dshapeC tol (pyrs m) y l i * c i)) (fun l => c i * (y l * dshapeC tol (pyrs m) y l i))) by (intros; ring).
    rewrite rsum_scal. ring.
Qed.
Lemma GF_base x : GF 0 x = (1 - x 1%nat) * ((1 - x 0%nat) * c 0%nat + x 0%nat * c 1%nat) + x 1%nat * ((1 - x 0%nat) * c 2%nat + x 0%nat * c 3%nat).
Proof. unfold GF. cbn. ring. Qed.
Lemma GJ_base x j : (j < 2)%nat -> GJ 0 x j = qrow (x 0%nat) (x 1%nat) j.
Proof. intro Hj. destruct j as [|[|j]]; [| |lia]; unfold GJ, dd; cbn; unfold dd; ring. Qed.

(** Euler's identity: F - sum x_l d_l F depends on the base point only *)
Lemma cone_rows : forall m x, smoothC tol (pyrs m) x ->
  GF m x - rsum (m + 2) (fun l => x l * GJ m x l) = c 0%nat - fst (base m x) * snd (base m x) * dd /\
  forall j, (j < m + 2)%nat -> GJ m x j = qrow (fst (base m x)) (snd (base m x)) j.
Proof.
  induction m as [|m IH]; intros x H.
  - cbn [base fst snd]. split; [|intros; now apply GJ_base].
    change (0 + 2)%nat with 2%nat. cbn [rsum]. rewrite GF_base, !GJ_base by lia. unfold qrow, dd. ring.
  - cbn [pyrs smoothC] in H. rewrite tdim_pyrs in H. destruct H as [Ht H]. set (t := x (m + 2)%nat) in *. set (y := fun k => x k / (1 - t)) in *.
    destruct (IH y H) as [IH1 IH2].
    assert (N : 1 - t <> 0) by (intro E; rewrite E, Rabs_R0 in Ht; lra).
    assert (L : GJ (S m) x (m + 2) = c (m + 4)%nat - (c 0%nat - fst (base m y) * snd (base m y) * dd)).
    { assert (Q := GJ_last m x Ht). cbv zeta in Q. fold t in Q. fold y in Q. now rewrite Q, IH1. }
    assert (RW : forall j, (j < S m + 2)%nat -> GJ (S m) x j = qrow (fst (base m y)) (snd (base m y)) j).
    { intros j Hj. destruct (Nat.eq_dec j (m + 2)) as [->|NE].
      - rewrite L. replace (m + 2)%nat with (S (S m)) by lia. cbn [qrow]. replace (4 + m)%nat with (m + 4)%nat by lia. ring.
      - rewrite GJ_step by (try lia; assumption). fold t. fold y. apply IH2. lia. }
    cbn [base]. fold t. fold y. split; [|exact RW].
    replace (S m + 2)%nat with (S (m + 2)) by lia. cbn [rsum]. fold t. rewrite L, GF_step by assumption. fold t. fold y.
    rewrite (rsum_ext (m + 2) _ (fun l => (1 - t) * (y l * GJ m y l))).
    + rewrite rsum_scal. rewrite <- IH1. ring.
    + intros l Hl. rewrite GJ_step by assumption. fold t. fold y. unfold y at 2. field. assumption.
Qed.
End Cone.

(** the determinant over the base point is bilinear *)
Definition coneM (cs : nat -> Vec) (u v : R) : Mat := fun j k => qrow (fun i => cs i k) u v j.
Definition bil (q : R * R * R * R) (u v : R) : R := let '(a, b, c, d) := q in a + b * u + c * v + d * (u * v).
Lemma cone_det m cs : exists q, forall u v, detR (m + 2) (coneM cs u v) = bil q u v.
Proof.
  set (r := coneM cs 0 0). set (d := fun k => dd (fun i => cs i k)).
  set (P := fun i => detR (m + 2) (put d i r)).
  exists (detR (m + 2) r, P 1%nat, P 0%nat, rsum m (fun i => P (S (S i)))). intros u v. unfold bil.
  set (s := fun i => match i with O => v | 1%nat => u | _ => u * v end).
  rewrite (@detR_ext (m + 2) _ (rows r d s (m + 2))).
  - rewrite det_rows by lia. change (fun i => s i * detR (m + 2) (put d i r)) with (fun i => s i * P i).
    generalize P (detR (m + 2) r). intros Q D. replace (m + 2)%nat with (S (S m)) by lia. rewrite 2 rsum_shift.
    change (fun k => s (S (S k)) * Q (S (S k))) with (fun k => u * v * Q (S (S k))). rewrite rsum_scal. cbn [s]. ring.
  - intros i j Hi Hj. unfold rows. rewrite (proj2 (Nat.ltb_lt i (m + 2))) by assumption.
    unfold r, coneM, d. destruct i as [|[|i]]; cbn [qrow s]; ring.
Qed.
Lemma bil_nonneg q s : (forall u v, (u = 0 \/ u = 1) -> (v = 0 \/ v = 1) -> 0 <= s * bil q u v) ->
  forall u v, 0 <= u <= 1 -> 0 <= v <= 1 -> 0 <= s * bil q u v.
Proof.
  intros H u v Hu Hv. destruct q as [[[a b] c] d]. unfold bil in *.
  assert (H00 := H 0 0 ltac:(auto) ltac:(auto)). assert (H10 := H 1 0 ltac:(auto) ltac:(auto)).
  assert (H01 := H 0 1 ltac:(auto) ltac:(auto)). assert (H11 := H 1 1 ltac:(auto) ltac:(auto)).
  replace (s * (a + b * u + c * v + d * (u * v))) with
    ((1 - u) * (1 - v) * (s * (a + b * 0 + c * 0 + d * (0 * 0))) + u * (1 - v) * (s * (a + b * 1 + c * 0 + d * (1 * 0)))
     + (1 - u) * v * (s * (a + b * 0 + c * 1 + d * (0 * 1))) + u * v * (s * (a + b * 1 + c * 1 + d * (1 * 1)))) by ring.
  repeat apply Rplus_le_le_0_compat; (apply Rmult_le_pos; [apply Rmult_le_pos; lra|assumption]).
Qed.
Lemma bil_pos q s : (forall u v, (u = 0 \/ u = 1) -> (v = 0 \/ v = 1) -> 0 < s * bil q u v) ->
  forall u v, 0 <= u <= 1 -> 0 <= v <= 1 -> 0 < s * bil q u v.
Proof.
  intros H u v Hu Hv. destruct q as [[[a b] c] d]. unfold bil in *.
  assert (H00 := H 0 0 ltac:(auto) ltac:(auto)). assert (H10 := H 1 0 ltac:(auto) ltac:(auto)).
  assert (H01 := H 0 1 ltac:(auto) ltac:(auto)). assert (H11 := H 1 1 ltac:(auto) ltac:(auto)).
  set (A := s * (a + b * u + c * 0 + d * (u * 0))). set (B := s * (a + b * u + c * 1 + d * (u * 1))).
  assert (PA : 0 < A).
  { unfold A. replace (s * (a + b * u + c * 0 + d * (u * 0))) with ((1 - u) * (s * (a + b * 0 + c * 0 + d * (0 * 0))) + u * (s * (a + b * 1 + c * 0 + d * (1 * 0)))) by ring.
    destruct (Rle_lt_dec u (1/2)); [assert (0 < (1 - u) * (s * (a + b * 0 + c * 0 + d * (0 * 0)))) by (apply Rmult_lt_0_compat; lra); assert (0 <= u * (s * (a + b * 1 + c * 0 + d * (1 * 0)))) by (apply Rmult_le_pos; lra); lra|].
    assert (0 < u * (s * (a + b * 1 + c * 0 + d * (1 * 0)))) by (apply Rmult_lt_0_compat; lra). assert (0 <= (1 - u) * (s * (a + b * 0 + c * 0 + d * (0 * 0)))) by (apply Rmult_le_pos; lra). lra. }
  assert (PB : 0 < B).
  { unfold B. replace (s * (a + b * u + c * 1 + d * (u * 1))) with ((1 - u) * (s * (a + b * 0 + c * 1 + d * (0 * 1))) + u * (s * (a + b * 1 + c * 1 + d * (1 * 1)))) by ring.
    destruct (Rle_lt_dec u (1/2)); [assert (0 < (1 - u) * (s * (a + b * 0 + c * 1 + d * (0 * 1)))) by (apply Rmult_lt_0_compat; lra); assert (0 <= u * (s * (a + b * 1 + c * 1 + d * (1 * 1)))) by (apply Rmult_le_pos; lra); lra|].
    assert (0 < u * (s * (a + b * 1 + c * 1 + d * (1 * 1)))) by (apply Rmult_lt_0_compat; lra). assert (0 <= (1 - u) * (s * (a + b * 0 + c * 1 + d * (0 * 1)))) by (apply Rmult_le_pos; lra). lra. }
  replace (s * (a + b * u + c * v + d * (u * v))) with ((1 - v) * A + v * B) by (unfold A, B; ring).
  destruct (Rle_lt_dec v (1/2)).
  - assert (0 < (1 - v) * A) by (apply Rmult_lt_0_compat; lra). assert (0 <= v * B) by (apply Rmult_le_pos; lra). lra.
  - assert (0 < v * B) by (apply Rmult_lt_0_compat; lra). assert (0 <= (1 - v) * A) by (apply Rmult_le_pos; lra). lra.
Qed.

(** ** Integration *)
Lemma Iint_ext_in T : forall f g, (forall x, insideT T x 1 -> smooth 0 T x -> f x = g x) -> Iint T f = Iint T g.
Proof.
  induction T as [|b IH|b IH]; intros f g H; cbn [Iint].
  - apply H; exact I.
  - apply RInt_ext. intros t Ht. rewrite Rmin_left, Rmax_right in Ht by lra.
    match goal with |- @eq _ ?a ?b => change (@eq R a b) end.
    apply IH. intros x Hx Sx. apply H; cbn [insideT smooth].
    + rewrite Nat.eqb_refl. split; [lra|]. apply (insideT_ext b x); [|assumption]. intros k Hk. destruct (Nat.eqb_spec k (tdim b)); [lia|reflexivity].
    + apply (smooth_ext 0 b x); [|assumption]. intros k Hk. destruct (Nat.eqb_spec k (tdim b)); [lia|reflexivity].
  - apply RInt_ext. intros t Ht. rewrite Rmin_left, Rmax_right in Ht by lra.
    match goal with |- @eq _ ?a ?b => change (@eq R a b) end. f_equal.
    apply IH. intros x Hx Sx. apply H; cbn [insideT smooth].
    + rewrite Nat.eqb_refl. split; [lra|]. apply (insideT_ext b (fun k => (1 - t) * x k)).
      * intros k Hk. destruct (Nat.eqb_spec k (tdim b)); [lia|reflexivity].
      * assert (Q := P_QuadProd.insideT_scale b x 1 (1 - t) ltac:(lra) Hx). now rewrite Rmult_1_r in Q.
    + rewrite Nat.eqb_refl. right. split; [rewrite Rabs_pos_eq; lra|]. apply (smooth_ext 0 b x); [|assumption].
      intros k Hk. destruct (Nat.eqb_spec k (tdim b)); [lia|]. field. lra.
Qed.
Lemma Iint_lt id : forall n f, Iint (lt id n) f = Iint (topo_of id n) f.
Proof.
  induction n as [|n IH]; intro f; [reflexivity|]. rewrite lt_S, topo_S. destruct (N.testbit id (N.of_nat n)); cbn [orb].
  - cbn [Iint]. rewrite tdim_lt, tdim_topo. apply RInt_ext. intros t _. apply IH.
  - destruct n as [|n].
    + change (lt id 0) with Pt. change (topo_of id 0) with Pt. cbn [Nat.eqb Iint tdim]. apply RInt_ext. intros t _. match goal with |- @eq _ ?a ?b => change (@eq R a b) end. rewrite pow_O, Rmult_1_l. f_equal.
      apply functional_extensionality. intro k. destruct (Nat.eqb k 0); [reflexivity|ring].
    + cbn [Nat.eqb Iint]. rewrite tdim_lt, tdim_topo. apply RInt_ext. intros t _. now rewrite IH.
Qed.
Lemma RInt_lin p q : RInt (fun t => p + q * t) 0 1 = p + q / 2.
Proof.
  rewrite (RInt_ext _ (fun t => plus (p * ((1 - t) ^ 0 * t ^ 0)) (q * ((1 - t) ^ 0 * t ^ 1)))) by (intros; change plus with Rplus; simpl; ring).
  rewrite (RInt_plus (V := R_CompleteNormedModule)); [|apply (ex_RInt_scal (V := R_NormedModule)), ex_Beta|apply (ex_RInt_scal (V := R_NormedModule)), ex_Beta].
  rewrite !RInt_cBeta. change plus with Rplus. rewrite !Beta_val. simpl. field.
Qed.
Lemma Iint_base q : Iint (pyrs 0) (fun x => bil q (x 0%nat) (x 1%nat)) = bil q (1/2) (1/2).
Proof.
  destruct q as [[[a b] c] d]. cbn [pyrs Iint tdim Nat.eqb bil].
  rewrite (RInt_ext _ (fun t => (a + b / 2) + (c + d / 2) * t)).
  - rewrite RInt_lin. match goal with |- @eq _ ?a ?b => change (@eq R a b) end. field.
  - intros v _. rewrite (RInt_ext _ (fun u => (a + c * v) + (b + d * v) * u)) by (intros; match goal with |- @eq _ ?a ?b => change (@eq R a b) end; ring).
    rewrite RInt_lin. match goal with |- @eq _ ?a ?b => change (@eq R a b) end. field.
Qed.
Lemma Iint_pyrs q : forall m, Iint (pyrs m) (fun x => bil q (fst (base m x)) (snd (base m x))) = volumeT (pyrs m) * bil q (1/2) (1/2).
Proof.
  induction m as [|m IH].
  - cbn [base fst snd]. rewrite Iint_base. rewrite volumeT_mom. cbn [pyrs mom]. rewrite !Beta_val. simpl. field.
  - cbn [pyrs]. cbn [Iint]. rewrite (RInt_ext _ (fun t => (volumeT (pyrs m) * bil q (1/2) (1/2)) * ((1 - t) ^ tdim (pyrs m) * t ^ 0))).
    + rewrite RInt_cBeta. rewrite !volumeT_mom. cbn [mom]. rewrite degsum_0, Nat.add_0_r by auto. ring.
    + intros t Ht. rewrite Rmin_left, Rmax_right in Ht by lra. rewrite <- IH.
      rewrite (Iint_ext _ _ (fun x => bil q (fst (base m x)) (snd (base m x)))).
      * match goal with |- @eq _ ?a ?b => change (@eq R a b) end. simpl. ring.
      * intro x. cbn [base]. rewrite <- tdim_pyrs, Nat.eqb_refl.
        rewrite (base_ext m _ x); [reflexivity|]. intros k Hk. rewrite <- tdim_pyrs in Hk. destruct (Nat.eqb_spec k (tdim (pyrs m))); [lia|]. field. lra.
Qed.
Lemma base_in m : forall x, insideT (pyrs m) x 1 -> smooth 0 (pyrs m) x -> 0 <= fst (base m x) <= 1 /\ 0 <= snd (base m x) <= 1.
Proof.
  induction m as [|m IH]; intros x H S.
  - cbn in *. tauto.
  - cbn [pyrs smooth] in *. cbn [base]. destruct S as [S|[S1 S2]]; [destruct m; discriminate|].
    assert (N : x (tdim (pyrs m)) <> 1) by (intro E; rewrite E, Rminus_diag_eq, Rabs_R0 in S1 by reflexivity; lra).
    rewrite <- tdim_pyrs. apply IH; [now apply insideT_base|assumption].
Qed.
Lemma lt_pyrs id : (id = 2%N \/ id = 3%N) -> forall m, lt id (m + 2) = pyrs m.
Proof.
  intros H m. induction m as [|m IH]; [destruct H; subst; reflexivity|]. cbn [Nat.add pyrs]. rewrite lt_S, IH.
  replace (N.testbit id (N.of_nat (m + 2))) with false; [|symmetry; apply N.bits_above_log2; destruct H; subst; cbn; lia].
  now replace (m + 2 =? 0)%nat with false by (symmetry; apply Nat.eqb_neq; lia).
Qed.

Lemma base_mean id : (id = 2%N \/ id = 3%N) -> forall m, base m (meanT (topo_of id (m + 2))) = (1/2, 1/2).
Proof.
  intros H m. induction m as [|m IH].
  - cbn [base]. unfold meanT. destruct H; subst id; cbn -[INR]; unfold vzero; simpl INR; f_equal; field.
  - cbn [base Nat.add]. rewrite topo_S.
    replace (N.testbit id (N.of_nat (m + 2))) with false; [|symmetry; apply N.bits_above_log2; destruct H; subst; cbn; lia].
    rewrite <- IH. apply base_ext. intros k Hk. rewrite <- (tdim_topo id (m + 2)) at 3. apply meanT_Pyr. now rewrite tdim_topo.
Qed.
(** ** The geometry *)
Section Geo.
Variables (id : N) (m : nat) (g : MLGeo).
Hypothesis Hid : id = 2%N \/ id = 3%N.
Hypothesis Eid : ml_id g = id.
Hypothesis wf : ml_wf (m + 2) g.
Notation n := (m + 2)%nat.
Notation T := (topo_of id n).
Let cs (i : nat) : Vec := nth i (ml_corners g) vzero.

Lemma nv_T : nv T = nv (pyrs m).
Proof. rewrite <- (lt_pyrs id Hid m). symmetry. apply nv_lt. Qed.
Lemma cone_jt tol cdim jm jk x : 0 <= tol -> smooth tol T x ->
  exists J, mlg_jacobianTransposed n cdim tol jm jk g x = Some J /\
    forall j k, (j < n)%nat -> (k < cdim)%nat -> J j k = coneM cs (fst (base m x)) (snd (base m x)) j k.
Proof.
  intros Ht Sx. eexists. split; [now apply jt_value|]. intros j k Hj Hk. cbv beta.
  rewrite (proj2 (Nat.ltb_lt j n)), (proj2 (Nat.ltb_lt k cdim)) by assumption. cbn [andb]. rewrite Eid, (lt_pyrs id Hid m), nv_T.
  assert (SC := smooth_lt tol id n x Sx). rewrite (lt_pyrs id Hid m) in SC.
  exact (proj2 (cone_rows tol (fun i => cs i k) Ht m x SC) j Hj).
Qed.
Lemma smooth_T x : smooth 0 (pyrs m) x -> smooth 0 T x.
Proof.
  rewrite <- (lt_pyrs id Hid m). clear wf. revert x. induction n as [|d IH]; intros x; [auto|]. rewrite lt_S, topo_S.
  destruct (N.testbit id (N.of_nat d)); cbn [orb smooth]; [apply IH|]. destruct d as [|d]; [left; reflexivity|]. cbn [Nat.eqb smooth].
  rewrite tdim_lt, tdim_topo. intros [H|[H1 H2]]; [|right; auto]. apply (f_equal tdim) in H. rewrite tdim_lt in H. discriminate.
Qed.
End Geo.

(** the square root of det (A A^T) of a square matrix *)
Lemma sqrtDet_square n A j1 j2 : detR n A <> 0 \/ n = 2%nat \/ n = 3%nat -> sqrtDetAAT n n A j1 j2 = Some (Rabs (detR n A)).
Proof.
  intro H. destruct (sqrtDetAAT_spec n n A j1 j2) as (s & E & P & V).
  - destruct H as [H|[->| ->]]; [left|right; right; left; reflexivity|right; right; right; left; reflexivity].
    destruct (det_inverse H) as (B & HB). exact (det_row_independent n A B HB).
  - rewrite E. f_equal. rewrite det_gram in V. rewrite <- (Rabs_pos_eq s P). apply Rsqr_eq_abs_0. exact V.
Qed.
Lemma bil_scal s q u v : s * bil q u v = bil (let '(a, b, c, d) := q in (s * a, s * b, s * c, s * d)) u v.
Proof. destruct q as [[[a b] c] d]. unfold bil. ring. Qed.
Lemma Iint_const T c : Iint T (fun _ => c) = c * volumeT T.
Proof.
  rewrite (Iint_ext T _ (fun x => c * mono (tdim T) (fun _ => 0%nat) x)) by (intro; rewrite mono_0; auto; ring).
  now rewrite Iint_mono, volumeT_mom.
Qed.
