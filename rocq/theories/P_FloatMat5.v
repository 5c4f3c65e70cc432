(** The residual of the solve and of the normal equations. *)
From Coq Require Import PeanoNat ZArith Bool List Reals Lra Lia.
From Flocq Require Import Core IEEE754.BinarySingleNaN.
From Verif Require Import M_RefTopo M_Matrix M_Float M_FloatGlobal M_FloatLocal S_RefGeo S_FloatMat P_Matrix P_FloatErr P_FloatMat1 P_FloatMat2 P_FloatMat3 P_FloatMat4.
Import ListNotations.
Local Open Scope R_scope.

Section FM5.
Variables (prec emax : Z).
Context (Hp : Prec_gt_0 prec) (He : Prec_lt_emax prec emax).
Notation float := (binary_float prec emax).
Notation FVec := (nat -> float).
Notation FMat := (nat -> nat -> float).
Notation u := (uro prec).
Notation eta := (tiny prec emax).
Notation grow := (grow prec).
Notation gam := (gam prec).
Notation low := (low prec emax).
Notation symm := (symm prec emax).
Notation low_finite := (low_finite prec emax).
Notation all_finite := (all_finite prec emax).
Hypothesis H2 : (2 <= prec)%Z.
Hypothesis H4 : (4 <= emax)%Z.

Lemma chol_sym_err n A junk cs Q : fcholesky_L prec emax Hp He n A junk cs = Some (true, Q) -> low_finite n Q ->
  forall i k, (i < n)%nat -> (k < n)%nat ->
  Rabs (symm A i k - rdot n (low Q i) (low Q k)) <= gam (n + 2) * adot n (low Q i) (low Q k) + grow (n + 2) * chol_K prec emax n Q * eta.
Proof.
  intros E F.
  assert (K : forall i k, (k <= i < n)%nat -> Rabs (B2R (A i k) - rdot n (low Q i) (low Q k)) <= gam (n + 2) * adot n (low Q i) (low Q k) + grow (n + 2) * chol_K prec emax n Q * eta).
  { intros i k Hik. destruct (cholesky_err prec emax Hp He H2 H4 n A junk cs Q E F i k Hik) as (_ & P & B). eapply Rle_trans; [exact B|].
    pose proof (eta_pos' prec emax) as Et. apply Rplus_le_compat.
    - apply Rmult_le_compat_r; [apply Ssum_pos; intros; apply Rabs_pos|]. apply gam_le. lia.
    - apply Rmult_le_compat_r; [lra|]. pose proof (grow1 prec k). pose proof (pos_INR k). apply Rmult_le_compat; [lra|lra|apply grow_le; lia|].
      unfold chol_K. assert (INR k <= INR n) by (apply le_INR; lia).
      assert (B2R (Q k k) <= Ssum n (fun j => Rabs (B2R (Q j j)))); [|lra].
      assert (Z : forall m, (k < m)%nat -> Rabs (B2R (Q k k)) <= Ssum m (fun j => Rabs (B2R (Q j j)))).
      { clear. induction m; [lia|]. intro H. cbn [Ssum]. destruct (Nat.eq_dec k m) as [->|Ne].
        - assert (0 <= Ssum m (fun j => Rabs (B2R (Q j j)))) by (apply Ssum_pos; intros; apply Rabs_pos). lra.
        - specialize (IHm ltac:(lia)). pose proof (Rabs_pos (B2R (Q m m))). lra. }
      specialize (Z n ltac:(lia)). rewrite Rabs_pos_eq in Z by lra. exact Z. }
  intros i k Hi Hk. unfold S_FloatMat.symm. destruct (Nat.leb_spec k i); [apply K; lia|].
  specialize (K k i ltac:(lia)). unfold rdot, adot in K |- *.
  rewrite (Ssum_ext n (fun j => low Q i j * low Q k j) (fun j => low Q k j * low Q i j)) by (intros; ring).
  rewrite (Ssum_ext n (fun j => Rabs (low Q i j * low Q k j)) (fun j => Rabs (low Q k j * low Q i j))) by (intros; f_equal; ring). exact K.
Qed.
Lemma diag_K n Q i : (i < n)%nat -> 0 <= Rabs (B2R (Q i i)) <= Ssum n (fun j => Rabs (@B2R prec emax (Q j j))).
Proof.
  intro H. split; [apply Rabs_pos|]. revert H. induction n; [lia|]. intro H. cbn [Ssum]. destruct (Nat.eq_dec i n) as [->|Ne].
  - assert (0 <= Ssum n (fun j => Rabs (B2R (Q j j)))) by (apply Ssum_pos; intros; apply Rabs_pos). lra.
  - specialize (IHn ltac:(lia)). pose proof (Rabs_pos (B2R (Q n n))). lra.
Qed.

Theorem solve_err n A y junk cs x : fspdInvAx prec emax Hp He n A y junk cs = Some (true, x) ->
  exists Q, fcholesky_L prec emax Hp He n A junk cs = Some (true, Q) /\
  (low_finite n Q -> all_finite n x -> forall i, (i < n)%nat -> is_finite (y i) = true /\
    Rabs (B2R (y i) - rdot n (symm A i) (fun k => B2R (x k))) <= solve_bound prec emax n Q (fun k => B2R (x k)) i).
Proof.
  unfold fspdInvAx. destruct (fcholesky_L prec emax Hp He n A junk cs) as [[b Q]|] eqn:E; cbn [obind]; [|discriminate].
  destruct b; cbn [negb]; [|discriminate]. intro X. injection X as <-. exists Q. split; [reflexivity|]. intros FQ Fx i Hi.
  set (zf := finvLx prec emax Hp He n Q y) in *.
  assert (Fz : all_finite n zf) by (intros j Hj; exact (proj1 (invLTx_err prec emax Hp He n Q zf FQ Fx j Hj))).
  destruct (invLx_err prec emax Hp He n Q y FQ Fz i Hi) as (Fy & B1). split; [exact Fy|].
  pose proof (fun j Hj => proj2 (invLTx_err prec emax Hp He n Q zf FQ Fx j Hj)) as B2. cbv zeta in B1, B2.
  pose proof (fun k Hk => chol_sym_err n A junk cs Q E FQ i k Hi Hk) as B3.
  set (x := fun k => B2R (finvLTx prec emax Hp He n Q zf k)) in *. change (fun j => B2R (finvLx prec emax Hp He n Q y j)) with (fun j => B2R (zf j)) in B1.
  set (z := fun j => B2R (zf j)) in *. unfold solve_bound. set (g := gam (n + 2)) in *. set (w := grow (n + 2)) in *. set (K := chol_K prec emax n Q) in *.
  pose proof (eta_pos' prec emax) as Et. pose proof (gam_pos prec (n + 2)) as Hg. fold g in Hg. assert (Hw : w = 1 + g) by (unfold w, g, S_FloatMat.gam; ring).
  assert (KB : forall j, (j < n)%nat -> forall m, (m <= n)%nat -> grow m * (INR m + Rabs (B2R (Q j j))) * eta <= w * K * eta).
  { intros j Hj m Hm. apply Rmult_le_compat_r; [lra|]. pose proof (grow1 prec m). pose proof (pos_INR m). destruct (diag_K n Q j Hj). apply Rmult_le_compat; [lra|lra|apply grow_le; lia|].
    unfold K, chol_K. assert (INR m <= INR n) by (apply le_INR; lia). lra. }
  assert (HK : 0 <= w * K * eta) by (eapply Rle_trans; [|apply (KB i Hi 0%nat); lia]; cbn [INR]; rewrite Rplus_0_l; apply Rmult_le_pos; [apply Rmult_le_pos; [pose proof (grow1 prec 0); lra|apply Rabs_pos]|lra]).
  set (c := w * K * eta) in *.
  set (Sx := fun j => Ssum n (fun k => Rabs (low Q k j) * Rabs (x k))).
  assert (HS : forall j, adot n (fun k => low Q k j) x = Sx j) by (intro j; apply Ssum_ext; intros; apply Rabs_mult).
  assert (C2 : forall j, (j < n)%nat -> Rabs (z j - rdot n (fun k => low Q k j) x) <= g * Sx j + c).
  { intros j Hj. eapply Rle_trans; [apply (B2 j Hj)|]. rewrite HS. apply Rplus_le_compat; [|apply KB; lia].
    apply Rmult_le_compat_r; [apply Ssum_pos; intros; apply Rmult_le_pos; apply Rabs_pos|]. apply gam_le. lia. }
  assert (CZ : forall j, (j < n)%nat -> Rabs (z j) <= w * Sx j + c).
  { intros j Hj. specialize (C2 j Hj). replace (z j) with (z j - rdot n (fun k => low Q k j) x + rdot n (fun k => low Q k j) x) by ring. eapply Rle_trans; [apply Rabs_triang|].
    assert (Rabs (rdot n (fun k => low Q k j) x) <= Sx j) by (rewrite <- HS; apply Ssum_abs). rewrite Hw. lra. }
  set (G := chol_G prec emax n Q x i). set (SL := Ssum n (fun j => Rabs (low Q i j))). set (SX := Ssum n (fun k => Rabs (x k))).
  assert (EG : G = Ssum n (fun j => Rabs (low Q i j) * Sx j)) by reflexivity.
  assert (T1 : Rabs (B2R (y i) - rdot n (low Q i) z) <= g * (w * G + c * SL) + c).
  { eapply Rle_trans; [exact B1|]. apply Rplus_le_compat; [|apply KB; lia].
    apply Rmult_le_compat; [apply gam_pos|apply Ssum_pos; intros; apply Rabs_pos|apply gam_le; lia|].
    rewrite EG. unfold SL. rewrite <- !Ssum_scal, <- Ssum_plus. apply Ssum_le. intros j Hj. rewrite Rabs_mult.
    replace (w * (Rabs (low Q i j) * Sx j) + c * Rabs (low Q i j)) with (Rabs (low Q i j) * (w * Sx j + c)) by ring. apply Rmult_le_compat_l; [apply Rabs_pos|now apply CZ]. }
  assert (T2 : Rabs (Ssum n (fun j => low Q i j * (z j - rdot n (fun k => low Q k j) x))) <= g * G + c * SL).
  { eapply Rle_trans; [apply Ssum_abs|]. rewrite EG. unfold SL. rewrite <- !Ssum_scal, <- Ssum_plus. apply Ssum_le. intros j Hj. rewrite Rabs_mult.
    replace (g * (Rabs (low Q i j) * Sx j) + c * Rabs (low Q i j)) with (Rabs (low Q i j) * (g * Sx j + c)) by ring. apply Rmult_le_compat_l; [apply Rabs_pos|now apply C2]. }
  assert (T3 : Rabs (Ssum n (fun k => (rdot n (low Q i) (low Q k) - symm A i k) * x k)) <= g * G + c * SX).
  { eapply Rle_trans; [apply Ssum_abs|].
    assert (EG2 : G = Ssum n (fun k => adot n (low Q i) (low Q k) * Rabs (x k))).
    { rewrite EG. unfold Sx. rewrite (Ssum_ext n _ (fun j => Ssum n (fun k => Rabs (low Q i j) * (Rabs (low Q k j) * Rabs (x k))))) by (intros; now rewrite Ssum_scal).
      rewrite Ssum_swap. apply Ssum_ext. intros k Hk. unfold adot. rewrite Rmult_comm, <- Ssum_scal. apply Ssum_ext. intros j Hj. rewrite Rabs_mult. ring. }
    rewrite EG2. unfold SX. rewrite <- !Ssum_scal, <- Ssum_plus. apply Ssum_le. intros k Hk. rewrite Rabs_mult, Rabs_minus_sym.
    replace (g * (adot n (low Q i) (low Q k) * Rabs (x k)) + c * Rabs (x k)) with ((g * adot n (low Q i) (low Q k) + c) * Rabs (x k)) by ring.
    apply Rmult_le_compat_r; [apply Rabs_pos|]. exact (B3 k Hk). }
  assert (ID : B2R (y i) - rdot n (symm A i) x = (B2R (y i) - rdot n (low Q i) z) + Ssum n (fun j => low Q i j * (z j - rdot n (fun k => low Q k j) x)) + Ssum n (fun k => (rdot n (low Q i) (low Q k) - symm A i k) * x k)).
  { rewrite (Ssum_ext n (fun j => low Q i j * (z j - rdot n (fun k => low Q k j) x)) (fun j => low Q i j * z j + (-1) * Ssum n (fun k => low Q i j * (low Q k j * x k)))) by (intros; unfold rdot; rewrite Ssum_scal; ring).
    rewrite (Ssum_ext n (fun k => (rdot n (low Q i) (low Q k) - symm A i k) * x k) (fun k => Ssum n (fun j => low Q i j * (low Q k j * x k)) + (-1) * (symm A i k * x k))).
    2: { intros k Hk. unfold rdot. rewrite Rmult_minus_distr_r, Rmult_comm, <- Ssum_scal. rewrite (Ssum_ext n (fun j => x k * (low Q i j * low Q k j)) (fun j => low Q i j * (low Q k j * x k))) by (intros; ring). ring. }
    rewrite !Ssum_plus, !Ssum_scal, (Ssum_swap n n (fun j k => low Q i j * (low Q k j * x k))). unfold rdot. ring. }
  rewrite ID. eapply Rle_trans; [apply Rabs_triang|]. eapply Rle_trans; [apply Rplus_le_compat_r, Rabs_triang|].
  apply Rle_trans with (g * (w * G + c * SL) + c + (g * G + c * SL) + (g * G + c * SX)); [lra|]. apply Req_le.
  replace (w * K * (1 + w * SL + SX) * eta) with (c * (1 + w * SL + SX)) by (unfold c; ring). rewrite Hw. ring.
Qed.

(** xTRightInvA: the normal equations *)
Theorem normal_err m n A d j1 j2 x : (0 < n)%nat -> fxTRightInvA prec emax Hp He m n A d j1 j2 = Some (true, x) ->
  exists Q, fcholesky_L prec emax Hp He m (fAAT_L prec emax Hp He m n A j1) j2 true = Some (true, Q) /\
  (low_finite m Q -> all_finite m x -> forall i, (i < m)%nat ->
    let a := fun i k => B2R (A i k) in let xr := fun k => B2R (x k) in let dr := fun k => B2R (d k) in
    (forall k, (k < n)%nat -> is_finite (A i k) = true /\ is_finite (d k) = true) /\
    Rabs (rdot n (a i) dr - rdot m (fun j => rdot n (a i) (a j)) xr) <=
      solve_bound prec emax m Q xr i + (gam (S n) * adot n (a i) dr + grow n * INR n * eta)
      + Ssum m (fun j => (gam n * adot n (a i) (a j) + grow (n - 1) * INR n * eta) * Rabs (xr j))).
Proof.
  intros Hn E. destruct (solve_err m _ _ _ _ _ E) as (Q & EQ & K). exists Q. split; [exact EQ|]. intros FQ Fx i Hi a xr dr.
  destruct (K FQ Fx i Hi) as (Fy & B). destruct (fmv_err prec emax Hp He n A d i Fy) as (FA & By). split; [exact FA|].
  fold (a i) dr in By. fold xr in B.
  assert (BA : forall j, (j < m)%nat -> Rabs (symm (fAAT_L prec emax Hp He m n A j1) i j - rdot n (a i) (a j)) <= gam n * adot n (a i) (a j) + grow (n - 1) * INR n * eta).
  { intros j Hj. unfold S_FloatMat.symm. destruct (Nat.leb_spec j i).
    - pose proof (proj1 (cholesky_err prec emax Hp He H2 H4 m _ j2 true Q EQ FQ i j ltac:(lia))) as F.
      exact (proj2 (fAAT_err prec emax Hp He m n A j1 i j ltac:(lia) Hn F)).
    - pose proof (proj1 (cholesky_err prec emax Hp He H2 H4 m _ j2 true Q EQ FQ j i ltac:(lia))) as F.
      pose proof (proj2 (fAAT_err prec emax Hp He m n A j1 j i ltac:(lia) Hn F)) as Z. fold (a i) (a j) in Z. unfold rdot, adot in Z |- *.
      rewrite (Ssum_ext n (fun k => a i k * a j k) (fun k => a j k * a i k)) by (intros; ring).
      rewrite (Ssum_ext n (fun k => Rabs (a i k * a j k)) (fun k => Rabs (a j k * a i k))) by (intros; f_equal; ring). exact Z. }
  set (yh := B2R (fmv prec emax Hp He n A d i)) in *. set (Bh := fAAT_L prec emax Hp He m n A j1) in *.
  assert (ID : rdot n (a i) dr - rdot m (fun j => rdot n (a i) (a j)) xr =
    (yh - rdot m (symm Bh i) xr) - (yh - rdot n (a i) dr) + Ssum m (fun j => (symm Bh i j - rdot n (a i) (a j)) * xr j)).
  { rewrite (Ssum_ext m (fun j => (symm Bh i j - rdot n (a i) (a j)) * xr j) (fun j => symm Bh i j * xr j + (-1) * (rdot n (a i) (a j) * xr j))) by (intros; ring).
    rewrite Ssum_plus, Ssum_scal. change (rdot m (symm Bh i) xr) with (Ssum m (fun j => symm Bh i j * xr j)). change (rdot m (fun j => rdot n (a i) (a j)) xr) with (Ssum m (fun j => rdot n (a i) (a j) * xr j)). ring. }
  rewrite ID. eapply Rle_trans; [apply Rabs_triang|]. apply Rplus_le_compat.
  - unfold Rminus at 1. eapply Rle_trans; [apply Rabs_triang|]. rewrite Rabs_Ropp. lra.
  - eapply Rle_trans; [apply Ssum_abs|]. apply Ssum_le. intros j Hj. rewrite Rabs_mult. apply Rmult_le_compat_r; [apply Rabs_pos|now apply BA].
Qed.
End FM5.
