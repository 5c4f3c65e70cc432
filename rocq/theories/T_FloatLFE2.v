(** C102, continued: rounding errors of the shape functions of order one and of the mappings built from them; the exact shape functions are those of M_LocalFE.v (C80) *)
From Coq Require Import PeanoNat NArith ZArith Bool List Reals Lra Lia.
From Flocq Require Import Core IEEE754.BinarySingleNaN.
From Verif Require Import M_RefTopo M_RefGeo M_Matrix M_MultiLinear M_LocalFE M_Float M_FloatGlobal M_FloatLocal M_FloatLFE S_RefGeo S_FloatMat P_RSum P_LocalFE P_Float P_Float2 P_FloatNear P_FloatErr P_FloatRef P_FloatGlobal P_FloatGlobal3 P_FloatMat2 P_FloatMat3 P_FloatMat4
  T_LocalFE T_Float T_FloatGlobal T_FloatLocal T_FloatMat T_FloatLFE.
Import ListNotations.
Local Open Scope R_scope.

Lemma rsum_Ssum n f : rsum n f = Ssum n f.
Proof. induction n as [|n IH]; [reflexivity|]. rewrite (rsum_S n f), IH. reflexivity. Qed.

Section T.
Variables (prec emax : Z).
Context (Hp : Prec_gt_0 prec) (He : Prec_lt_emax prec emax).
Notation float := (binary_float prec emax).
Notation FVec := (nat -> float).
Notation u := (uro prec).
Notation eta := (tiny prec emax).
Notation grow := (grow prec).
Notation gam := (gam prec).
Notation fin := (@is_finite prec emax).
Notation val := (@B2R prec emax).
Notation add := (fadd prec emax Hp He).
Notation sub := (fsub prec emax Hp He).
Notation mul := (fmul prec emax Hp He).
Notation one := (ofZ prec emax Hp He 1).
Notation zero := (B754_zero false : float).
Notation fzeros := (fun _ : nat => zero).
Notation rnd := (round radix2 (SpecFloat.fexp prec emax) (round_mode mode_NE)).
Notation exact x := (fun k : nat => val (x k)).

(** ** cubes *)
Lemma mask_err (P2 : (2 <= prec)%Z) (f : nat -> float) (F : nat -> R) (b : nat -> bool) s0 S0 : fin s0 = true -> val s0 = S0 -> Rabs S0 <= 1 -> forall n,
  (forall l, (l < n)%nat -> fin (f l) = true /\ 0 <= val (f l) <= 1 /\ 0 <= F l <= 1 /\ Rabs (val (f l) - F l) <= u * F l) ->
  let s := forN n (fun l o => if b l then mul o (f l) else o) s0 in let P := forN n (fun l o => if b l then o * F l else o) S0 in
  fin s = true /\ Rabs (val s) <= 1 /\ Rabs P <= 1 /\ Rabs (val s - P) <= gam (2 * n) * Rabs P + INR n * grow n * eta.
Proof.
  intros F0 V0 A0. induction n as [|n IH]; intro H.
  - cbn [forN]. rewrite V0. split; [exact F0|]. split; [exact A0|]. split; [exact A0|]. unfold Rminus. rewrite Rplus_opp_r, Rabs_R0. unfold S_FloatMat.gam. cbn. lra.
  - cbv zeta in *. cbn [forN]. destruct (IH ltac:(intros; apply H; lia)) as (F1 & L1 & LP & E1). set (s := forN n _ s0) in *. set (P := forN n _ S0) in *. clearbody s P. clear IH.
    destruct (H n ltac:(lia)) as (Ff & (f0 & f1) & (G0 & G1) & Ef). clear H. pose proof (u_pos' prec) as U. pose proof (eta_pos' prec emax) as Et.
    pose proof (grow1 prec n) as g1. pose proof (grow1 prec (2 * n)) as g2. pose proof (pos_INR n) as I0.
    assert (gS : grow (2 * S n) = (1 + u) * ((1 + u) * grow (2 * n))) by (replace (2 * S n)%nat with (S (S (2 * n))) by lia; rewrite !growS; reflexivity).
    assert (c0 : 0 <= INR n * grow n * eta) by (repeat apply Rmult_le_pos; lra).
    assert (cS : (1 + u) * (INR n * grow n * eta) + eta <= INR (S n) * grow (S n) * eta).
    { rewrite S_INR, growS. assert (0 <= ((1 + u) * grow n - 1) * eta) by (apply Rmult_le_pos; nra). lra. }
    set (c := INR n * grow n * eta) in *. unfold S_FloatMat.gam in *. rewrite gS. set (g := grow (2 * n)) in *. clearbody g c.
    destruct (b n).
    + set (X := val s) in *. set (y := val (f n)) in *. set (W := F n) in *. pose proof (Rabs_pos P) as P0. pose proof (Rabs_pos X) as X0.
      assert (XY : Rabs (X * y) <= 1) by (rewrite Rabs_mult, (Rabs_pos_eq y) by lra; apply Rle_trans with (1 * 1); [apply Rmult_le_compat; lra|lra]).
      destruct (fmul_ok prec emax Hp He P2 s (f n) F1 Ff) as (M1 & M2); [fold X y; pose proof (one_max prec emax He P2); lra|]. fold X y in M1.
      assert (PW : Rabs (P * W) = Rabs P * W) by (rewrite Rabs_mult, (Rabs_pos_eq W) by lra; reflexivity).
      split; [exact M2|]. split; [|split].
      * rewrite M1. apply abs_round_le_generic; [typeclasses eauto..|now apply (format_1 prec emax He)|exact XY].
      * rewrite PW. apply Rle_trans with (1 * 1); [apply Rmult_le_compat; lra|lra].
      * pose proof (forw_any prec emax Hp (X * y)) as Q. rewrite <- M1 in Q. change (bpow radix2 (- prec)) with u in Q. change (bpow radix2 (2 - emax - prec)) with eta in Q.
        assert (D : Rabs (X * y - P * W) <= ((1 + u) * g - 1) * (Rabs P * W) + c).
        { replace (X * y - P * W) with ((X - P) * y + P * (y - W)) by ring. eapply Rle_trans; [apply Rabs_triang|]. rewrite !Rabs_mult, (Rabs_pos_eq y) by lra.
          assert (yW : y <= (1 + u) * W) by (apply abs_le in Ef; lra).
          assert (K0 : 0 <= (g - 1) * Rabs P) by (apply Rmult_le_pos; lra).
          assert (K1 : Rabs (X - P) * y <= ((g - 1) * Rabs P + c) * y) by (apply Rmult_le_compat_r; lra).
          assert (K2 : (g - 1) * Rabs P * y <= (g - 1) * Rabs P * ((1 + u) * W)) by (apply Rmult_le_compat_l; lra).
          assert (K3 : c * y <= c * 1) by (apply Rmult_le_compat_l; lra).
          assert (K4 : Rabs P * Rabs (y - W) <= Rabs P * (u * W)) by (apply Rmult_le_compat_l; lra). lra. }
        assert (D2 : Rabs (X * y) <= (1 + u) * g * (Rabs P * W) + c) by (replace (X * y) with ((X * y - P * W) + P * W) by ring; eapply Rle_trans; [apply Rabs_triang|]; rewrite PW; lra).
        assert (D3 : u * Rabs (X * y) <= u * ((1 + u) * g * (Rabs P * W) + c)) by (apply Rmult_le_compat_l; lra).
        rewrite PW. replace (val (mul s (f n)) - P * W) with ((val (mul s (f n)) - X * y) + (X * y - P * W)) by ring. eapply Rle_trans; [apply Rabs_triang|]. lra.
    + split; [exact F1|]. split; [exact L1|]. split; [exact LP|]. pose proof (Rabs_pos P) as P0.
      assert (K : (g - 1) * Rabs P <= ((1 + u) * ((1 + u) * g) - 1) * Rabs P) by (apply Rmult_le_compat_r; nra).
      assert (c <= (1 + u) * c + eta) by nra. lra.
Qed.
Lemma factor_err (P2 : (2 <= prec)%Z) (x : FVec) i j : fin (x j) = true -> 0 <= val (x j) <= 1 ->
  fin (fq1_factor prec emax Hp He x i j) = true /\ 0 <= val (fq1_factor prec emax Hp He x i j) <= 1 /\ 0 <= q1_factor (exact x) i j <= 1 /\
  Rabs (val (fq1_factor prec emax Hp He x i j) - q1_factor (exact x) i j) <= u * q1_factor (exact x) i j.
Proof.
  intros F B. unfold fq1_factor, q1_factor. pose proof (u_pos' prec) as U. destruct (Nat.testbit i j).
  - split; [exact F|]. split; [exact B|]. split; [exact B|]. unfold Rminus. rewrite Rplus_opp_r, Rabs_R0. apply Rmult_le_pos; lra.
  - destruct (ofZ_1 prec emax Hp He P2) as (O1 & O2).
    pose proof (Bminus_correct prec emax Hp He mode_NE one (x j) O2 F) as C. rewrite O1 in C.
    rewrite Rlt_bool_true in C by (apply (rnd_bound2 prec emax Hp He P2); rewrite Rabs_pos_eq by lra; pose proof (one_max prec emax He P2); lra). destruct C as (C1 & C2 & _).
    split; [exact C2|]. change (Bminus mode_NE one (x j)) with (sub one (x j)) in C1. rewrite C1. split; [split; [apply (rnd_nn prec emax Hp); lra|apply (rnd_le1 prec emax Hp He P2); lra]|]. split; [lra|].
    assert (FM : generic_format radix2 (SpecFloat.fexp prec emax) 1) by (rewrite <- O1; apply generic_format_B2R).
    destruct (rel_minus prec emax Hp 1 (val (x j)) FM (generic_format_B2R _ _ _)) as (e & Ee & R1). rewrite R1.
    replace ((1 - val (x j)) * (1 + e) - (1 - val (x j))) with (e * (1 - val (x j))) by ring. rewrite Rabs_mult, (Rabs_pos_eq (1 - _)) by lra. apply Rmult_le_compat_r; [lra|exact Ee].
Qed.
(** On the unit cube the values and derivatives of the shape functions are finite, between -1 and 1, and have 2 dim relative errors, besides underflow. *)
Theorem C102_q1_values : (2 <= prec)%Z -> forall dim x i, (i < 2 ^ dim)%nat -> (forall j, (j < dim)%nat -> fin (x j) = true /\ 0 <= val (x j) <= 1) ->
  (let w := nth i (fq1_values prec emax Hp He dim x) zero in let W := nth i (q1_values dim (exact x)) 0 in
   fin w = true /\ 0 <= val w <= 1 /\ 0 <= W <= 1 /\ Rabs (val w - W) <= gam (2 * dim) * W + INR dim * grow dim * eta) /\
  forall j, (j < dim)%nat -> let w := nth i (fq1_jacobians prec emax Hp He dim x) fzeros j in let W := nth i (q1_jacobians dim (exact x)) vzero j in
   fin w = true /\ Rabs (val w) <= 1 /\ Rabs W <= 1 /\ Rabs (val w - W) <= gam (2 * dim) * Rabs W + INR dim * grow dim * eta.
Proof.
  intros P2 dim x i Hi Hx. destruct (ofZ_1 prec emax Hp He P2) as (O1 & O2).
  assert (FF : forall l, (l < dim)%nat -> fin (fq1_factor prec emax Hp He x i l) = true /\ 0 <= val (fq1_factor prec emax Hp He x i l) <= 1 /\ 0 <= q1_factor (exact x) i l <= 1 /\
     Rabs (val (fq1_factor prec emax Hp He x i l) - q1_factor (exact x) i l) <= u * q1_factor (exact x) i l) by (intros l Hl; destruct (Hx l Hl); now apply factor_err).
  split.
  - intros w W. unfold w, W. rewrite q1_nth by exact Hi. unfold fq1_values. rewrite T_FloatLFE.entries_nth by exact Hi. unfold q1p.
    destruct (mask_err P2 (fq1_factor prec emax Hp He x i) (q1_factor (exact x) i) (fun _ => true) one 1 O2 O1 ltac:(rewrite Rabs_R1; lra) dim FF) as (A1 & A2 & A3 & A4). cbv beta iota zeta in A1, A2, A3, A4.
    assert (N1 : forall n, (n <= dim)%nat -> 0 <= val (forN n (fun l o => mul o (fq1_factor prec emax Hp He x i l)) one)).
    { induction n as [|n IH]; intro Hn; [cbn [forN]; rewrite O1; lra|]. cbn [forN]. specialize (IH ltac:(lia)). destruct (FF n ltac:(lia)) as (F1 & F2 & _).
      set (a := forN n _ _) in *. set (bb := fq1_factor _ _ _ _ _ _ _) in *. destruct (fin (mul a bb)) eqn:E.
      - destruct (mul_fin prec emax Hp He _ _ E) as (_ & _ & V). rewrite V. apply (rnd_nn prec emax Hp). apply Rmult_le_pos; lra.
      - destruct (mul a bb); try discriminate E; cbn; lra. }
    assert (N2 : forall n, (n <= dim)%nat -> 0 <= forN n (fun l o => o * q1_factor (exact x) i l) 1).
    { induction n as [|n IH]; intro Hn; [cbn [forN]; lra|]. cbn [forN]. apply Rmult_le_pos; [apply IH; lia|]. now apply (FF n). }
    specialize (N1 dim (le_n _)). specialize (N2 dim (le_n _)). rewrite Rabs_pos_eq in A2 by exact N1. rewrite (Rabs_pos_eq (forN dim _ 1)) in A3, A4 by exact N2. repeat split; assumption.
  - intros j Hj w W. unfold w, W. rewrite q1_jac by assumption. unfold fq1_jacobians. rewrite T_FloatLFE.entries_nth by exact Hi. unfold q1d.
    apply (mask_err P2 (fq1_factor prec emax Hp He x i) (q1_factor (exact x) i) (fun l => negb (Nat.eqb j l)) (if Nat.testbit i j then one else Bopp one) (if Nat.testbit i j then 1 else -1)).
    + destruct (Nat.testbit i j); [exact O2|]. now rewrite is_finite_Bopp.
    + destruct (Nat.testbit i j); [exact O1|]. rewrite B2R_Bopp, O1. reflexivity.
    + destruct (Nat.testbit i j); [rewrite Rabs_R1; lra|]. rewrite Rabs_left; lra.
    + exact FF.
Qed.
(** The mapping with the basis of order one on the cube: the distance to the exact combination, for vertices bounded by B. *)
Theorem C102_q1_error : (2 <= prec)%Z -> forall dim cdim vs x B out k, length vs = (2 ^ dim)%nat -> (forall j, (j < dim)%nat -> fin (x j) = true /\ 0 <= val (x j) <= 1) ->
  (forall v, In v vs -> Rabs (val (v k)) <= B) -> flf_global prec emax Hp He cdim (fq1_values prec emax Hp He dim x) vs = Some out -> (k < cdim)%nat -> fin (out k) = true ->
  let n := length vs in let c := INR n * (INR dim * grow dim * eta) in
  Rabs (val (out k) - rsum n (fun i => nth i (q1_values dim (exact x)) 0 * val (nth i vs fzeros k))) <=
    (gam (S n) * (grow (2 * dim) + c) + gam (2 * dim) + c) * B + grow n * INR n * eta.
Proof.
  intros P2 dim cdim vs x B out k L Hx HB E Hk F n c. destruct (proj2 (proj1 (C102_combination prec emax Hp He) cdim (fq1_values prec emax Hp He dim x) vs) out k E Hk F) as (_ & Q).
  fold n in Q. set (a := fun i => val (nth i (fq1_values prec emax Hp He dim x) zero)) in *. set (b := fun i => val (nth i vs fzeros k)) in *.
  set (W := fun i => nth i (q1_values dim (exact x)) 0). pose proof (proj2 (C80_partition dim (exact x))) as PU. rewrite (proj1 (q1_length dim (exact x))) in PU. rewrite <- L in PU. fold n in PU. change (rsum n W = 1) in PU.
  set (c1 := INR dim * grow dim * eta) in *. pose proof (u_pos' prec) as U. pose proof (eta_pos' prec emax) as Et. pose proof (pos_INR dim) as D0. pose proof (grow1 prec dim) as g1.
  assert (c10 : 0 <= c1) by (unfold c1; repeat apply Rmult_le_pos; lra).
  pose proof (gam_pos prec (2 * dim)) as G0. pose proof (gam_pos prec (S n)) as G1.
  assert (AW : forall i, (i < n)%nat -> 0 <= W i /\ Rabs (a i - W i) <= gam (2 * dim) * W i + c1).
  { intros i Hi. destruct (proj1 (C102_q1_values P2 dim x i ltac:(unfold n in Hi; lia) Hx)) as (_ & _ & H3 & H4). split; [apply H3|exact H4]. }
  assert (bB : forall i, (i < n)%nat -> Rabs (b i) <= B) by (intros i Hi; apply HB, nth_In; exact Hi).
  assert (n0 : (0 < n)%nat) by (unfold n; rewrite L; apply Nat.neq_0_lt_0, Nat.pow_nonzero; lia).
  assert (B0 : 0 <= B) by (eapply Rle_trans; [apply Rabs_pos|apply (bB 0%nat n0)]).
  assert (S1 : Ssum n (fun i => gam (2 * dim) * W i + c1) = gam (2 * dim) + c).
  { rewrite (Ssum_plus n (fun i => gam (2 * dim) * W i) (fun _ => c1)), (Ssum_scal n (gam (2 * dim)) W), <- (rsum_Ssum n W), PU. replace (Ssum n (fun _ => c1)) with (INR n * c1); [unfold c; ring|].
    clear. induction n as [|n IH]; [cbn; ring|]. cbn [Ssum]. rewrite <- IH, S_INR. ring. }
  assert (A1 : adot n a b <= (grow (2 * dim) + c) * B).
  { replace (grow (2 * dim) + c) with (Ssum n (fun i => W i + (gam (2 * dim) * W i + c1))).
    - rewrite Rmult_comm, <- Ssum_scal. unfold adot. apply Ssum_le. intros i Hi. destruct (AW i Hi) as (W0 & D). rewrite Rabs_mult, Rmult_comm.
      apply Rmult_le_compat; [apply Rabs_pos|apply Rabs_pos|now apply bB|]. replace (a i) with (W i + (a i - W i)) by ring. eapply Rle_trans; [apply Rabs_triang|]. rewrite (Rabs_pos_eq (W i)) by exact W0. lra.
    - rewrite (Ssum_plus n W (fun i => gam (2 * dim) * W i + c1)), S1, <- (rsum_Ssum n W), PU. unfold S_FloatMat.gam. ring. }
  assert (A2 : Rabs (rdot n a b - rsum n (fun i => W i * b i)) <= (gam (2 * dim) + c) * B).
  { rewrite rsum_Ssum. unfold rdot. replace (Ssum n (fun i => a i * b i) - Ssum n (fun i => W i * b i)) with (Ssum n (fun i => (a i - W i) * b i)).
    - eapply Rle_trans; [apply Ssum_abs|]. rewrite <- S1, Rmult_comm, <- Ssum_scal. apply Ssum_le. intros i Hi. destruct (AW i Hi) as (W0 & D). rewrite Rabs_mult, Rmult_comm.
      apply Rmult_le_compat; [apply Rabs_pos|apply Rabs_pos|now apply bB|exact D].
    - rewrite (Ssum_ext n _ (fun i => a i * b i + (-1) * (W i * b i))) by (intros; ring). rewrite Ssum_plus, Ssum_scal. ring. }
  assert (A3 : gam (S n) * adot n a b <= gam (S n) * ((grow (2 * dim) + c) * B)) by (apply Rmult_le_compat_l; assumption).
  fold b W. change (rsum n (fun i => nth i (q1_values dim (exact x)) 0 * val (nth i vs fzeros k))) with (rsum n (fun i => W i * b i)).
  replace (val (out k) - rsum n (fun i => W i * b i)) with ((val (out k) - rdot n a b) + (rdot n a b - rsum n (fun i => W i * b i))) by ring.
  eapply Rle_trans; [apply Rabs_triang|]. lra.
Qed.

(** ** simplices *)
(** On the reference simplex all shape functions but the first are the coordinates themselves, the first one is off by at most dim u. *)
Theorem C102_p1_values : (2 <= prec)%Z -> forall dim x, INR dim * u <= 1 -> (forall j, (j < dim)%nat -> fin (x j) = true /\ 0 <= val (x j)) -> rsum dim (exact x) <= 1 ->
  (let w := nth 0 (fp1_values prec emax Hp He dim x) zero in fin w = true /\ val w <= 1 /\ Rabs (val w - nth 0 (p1_values dim (exact x)) 0) <= INR dim * u) /\
  forall i, (i < dim)%nat -> nth (S i) (fp1_values prec emax Hp He dim x) zero = x i /\ nth (S i) (p1_values dim (exact x)) 0 = val (x i).
Proof.
  intros P2 dim x Hd Hx Hs. destruct (p1_nth prec emax Hp He dim x) as (A & B). split; [|intros i Hi; split; [now apply B|]; now rewrite p1_S].
  cbv zeta. rewrite A, p1_0. destruct (ofZ_1 prec emax Hp He P2) as (O1 & O2). pose proof (u_pos' prec) as U.
  assert (K : forall n, (n <= dim)%nat -> let s := forN n (fun i s => sub s (x i)) one in fin s = true /\ val s <= 1 /\ Rabs (val s - (1 - rsum n (exact x))) <= INR n * u).
  { induction n as [|n IH]; intro Hn; cbv zeta in *.
    - cbn [forN]. split; [exact O2|]. rewrite O1. split; [lra|]. cbn. replace (1 - (1 - 0)) with 0 by ring. rewrite Rabs_R0. lra.
    - cbn [forN]. destruct (IH ltac:(lia)) as (F & V & D). set (s := forN n _ _) in *. clearbody s. destruct (Hx n ltac:(lia)) as (Fx & X0).
      assert (PS : rsum (S n) (exact x) <= 1).
      { eapply Rle_trans; [|exact Hs]. rewrite !rsum_Ssum. replace dim with (S n + (dim - S n))%nat by lia. rewrite Ssum_shift.
        assert (0 <= Ssum (dim - S n) (fun t => val (x (S n + t)%nat))); [|lra].
        assert (Z : forall m, (m <= dim - S n)%nat -> 0 <= Ssum m (fun t => val (x (S n + t)%nat))).
        { induction m as [|m IHm]; intro Hm; cbn [Ssum]; [lra|]. specialize (IHm ltac:(lia)). destruct (Hx (S n + m)%nat ltac:(lia)). lra. }
        apply Z. lia. }
      rewrite (rsum_S n (exact x)) in PS |- *. assert (X1 : val s - val (x n) <= 1) by lra.
      assert (X2 : -1 <= val s - val (x n)).
      { apply abs_le in D. assert (INR n * u <= INR dim * u) by (apply Rmult_le_compat_r; [lra|apply le_INR; lia]). lra. }
      assert (X3 : Rabs (val s - val (x n)) <= 1) by (apply abs_le; lra).
      pose proof (Bminus_correct prec emax Hp He mode_NE s (x n) F Fx) as C. rewrite Rlt_bool_true in C by (apply (rnd_bound2 prec emax Hp He P2); pose proof (one_max prec emax He P2); lra).
      destruct C as (C1 & C2 & _). change (Bminus mode_NE s (x n)) with (sub s (x n)) in C1, C2. split; [exact C2|]. rewrite C1. split; [apply (rnd_le1 prec emax Hp He P2); exact X1|].
      destruct (rel_minus prec emax Hp (val s) (val (x n)) (generic_format_B2R _ _ _) (generic_format_B2R _ _ _)) as (e & Ee & R1). rewrite R1, S_INR. change (bpow radix2 (- prec)) with u in Ee.
      assert (Y : Rabs (e * (val s - val (x n))) <= u) by (rewrite Rabs_mult; apply Rle_trans with (u * 1); [apply Rmult_le_compat; [apply Rabs_pos|apply Rabs_pos|exact Ee|exact X3]|lra]).
      apply abs_le in Y. apply abs_le in D. apply abs_le. lra. }
  apply (K dim (le_n _)).
Qed.
(** The Jacobian of the mapping with the basis of order one on the simplex has the same values as the rows that AffineGeometry stores: differences to the first vertex, rounded once. *)
Theorem C102_p1_jacobian : (2 <= prec)%Z -> forall dim cdim vs x, length vs = S dim -> (forall v k, In v vs -> (k < cdim)%nat -> fin (v k) = true) ->
  exists J, flf_jacobian prec emax Hp He cdim dim (fp1_jacobians prec emax Hp He dim x) vs = Some J /\
  forall j l, (j < cdim)%nat -> (l < dim)%nat -> Rabs (val (nth (S l) vs fzeros j) - val (nth 0 vs fzeros j)) <= bpow radix2 (emax - 1) ->
    fin (J j l) = true /\ val (J j l) = val (sub (nth (S l) vs fzeros j) (nth 0 vs fzeros j)).
Proof.
  intros P2 dim cdim vs x L Hv. unfold flf_jacobian. assert (LE : length (fp1_jacobians prec emax Hp He dim x) = length vs) by (unfold fp1_jacobians; rewrite entries_len; now rewrite L).
  rewrite LE, Nat.eqb_refl. eexists. split; [reflexivity|]. intros j l Hj Hl HB. rewrite (lfj_at prec emax Hp He) by assumption. rewrite L.
  destruct (ofZ_1 prec emax Hp He P2) as (O1 & O2). set (v := fun i => nth i vs fzeros j) in *. assert (Fv : forall i, (i <= dim)%nat -> fin (v i) = true) by (intros i Hi; apply (Hv (nth i vs fzeros) j); [apply nth_In; lia|exact Hj]).
  change (nth (S l) vs fzeros j) with (v (S l)) in *. change (nth 0 vs fzeros j) with (v 0%nat) in *.
  assert (SB : val (sub (v (S l)) (v 0%nat)) = rnd (val (v (S l)) - val (v 0%nat)) /\ Rabs (rnd (val (v (S l)) - val (v 0%nat))) < bpow radix2 emax).
  { pose proof (rnd_bound2 prec emax Hp He P2 _ HB) as RB. pose proof (Bminus_correct prec emax Hp He mode_NE (v (S l)) (v 0%nat) (Fv (S l) ltac:(lia)) (Fv 0%nat ltac:(lia))) as C.
    rewrite Rlt_bool_true in C by exact RB. destruct C as (C1 & _). split; [exact C1|exact RB]. }
  destruct SB as (SB1 & SB2). rewrite SB1.
  assert (J0 : nth 0 (fp1_jacobians prec emax Hp He dim x) fzeros l = Bopp one) by (unfold fp1_jacobians; now rewrite T_FloatLFE.entries_nth by lia).
  assert (JS : forall i, (i < dim)%nat -> nth (S i) (fp1_jacobians prec emax Hp He dim x) fzeros l = if Nat.eqb i l then one else zero) by (intros i Hi; unfold fp1_jacobians; now rewrite T_FloatLFE.entries_nth by lia).
  assert (K : forall n, (n <= dim)%nat -> let s := forN (S n) (fun i s => add s (mul (nth i (fp1_jacobians prec emax Hp He dim x) fzeros l) (nth i vs fzeros j))) zero in
    fin s = true /\ val s = if Nat.ltb l n then rnd (val (v (S l)) - val (v 0%nat)) else - val (v 0%nat)).
  { induction n as [|n IH]; intro Hn; cbv zeta in *.
    - cbn [forN]. rewrite J0. change (nth 0 vs fzeros j) with (v 0%nat). pose proof (Fv 0%nat ltac:(lia)) as F0. destruct (fmt prec emax (v 0%nat)) as (G1 & G2).
      assert (Q : val (Bopp one) * val (v 0%nat) = - val (v 0%nat)) by (rewrite B2R_Bopp, O1; ring).
      destruct (mul_exact prec emax Hp He (Bopp one) (v 0%nat)) as (M1 & M2); [now rewrite is_finite_Bopp|exact F0|rewrite Q; now apply generic_format_opp|rewrite Q, Rabs_Ropp; exact G2|]. rewrite Q in M2.
      destruct (add_exact prec emax Hp He zero (mul (Bopp one) (v 0%nat))) as (A1 & A2); [reflexivity|exact M1|change (val zero) with 0; rewrite M2, Rplus_0_l; now apply generic_format_opp|change (val zero) with 0; rewrite M2, Rplus_0_l, Rabs_Ropp; exact G2|].
      split; [exact A1|]. rewrite A2, M2. change (val zero) with 0. rewrite Rplus_0_l. reflexivity.
    - destruct (IH ltac:(lia)) as (F & V). cbn [forN] in *. set (s := add _ (mul (nth n _ _ _) (nth n vs fzeros j))) in *. clearbody s. rewrite JS by lia. change (nth (S n) vs fzeros j) with (v (S n)). pose proof (Fv (S n) ltac:(lia)) as F1.
      destruct (fmt prec emax (v (S n))) as (G1 & G2). destruct (Nat.eqb_spec n l) as [->|N].
      + destruct (Nat.ltb_spec l l); [lia|]. destruct (Nat.ltb_spec l (S l)); [|lia].
        destruct (mul_exact prec emax Hp He one (v (S l)) O2 F1) as (M1 & M2); [now rewrite O1, Rmult_1_l|now rewrite O1, Rmult_1_l|]. rewrite O1, Rmult_1_l in M2.
        pose proof (Bplus_correct prec emax Hp He mode_NE s (mul one (v (S l))) F M1) as C. rewrite M2, V in C. replace (- val (v 0%nat) + val (v (S l))) with (val (v (S l)) - val (v 0%nat)) in C by ring.
        rewrite Rlt_bool_true in C by exact SB2. destruct C as (C1 & C2 & _). split; [exact C2|exact C1].
      + destruct (fmt0 prec emax) as (Z1 & Z2).
        destruct (mul_exact prec emax Hp He zero (v (S n)) eq_refl F1) as (M1 & M2); [change (val zero) with 0; now rewrite Rmult_0_l|change (val zero) with 0; now rewrite Rmult_0_l|]. change (val zero) with 0 in M2. rewrite Rmult_0_l in M2.
        destruct (fmt prec emax s) as (S1 & S2). destruct (add_exact prec emax Hp He s (mul zero (v (S n))) F M1) as (A1 & A2); [now rewrite M2, Rplus_0_r|now rewrite M2, Rplus_0_r|].
        split; [exact A1|]. rewrite A2, M2, Rplus_0_r, V. destruct (Nat.ltb_spec l n), (Nat.ltb_spec l (S n)); try lia; reflexivity. }
  destruct (K dim (le_n _)) as (F & V). split; [exact F|]. rewrite V. destruct (Nat.ltb_spec l dim); [reflexivity|lia].
Qed.
(** ** integration elements *)
(** In the plane and on surfaces in space: the columns of the computed Jacobian are the two tangents. *)
Theorem C102_integration : forall j1 j2 shapes vs v, fin v = true ->
  (flf_integrationElement prec emax Hp He 2 2 j1 j2 shapes vs = Some v ->
   exists J, flf_jacobian prec emax Hp He 2 2 shapes vs = Some J /\ let a := fun k l => val (J k l) in 0 <= val v /\
   Rabs (val v - Rabs (a 0%nat 0%nat * a 1%nat 1%nat - a 0%nat 1%nat * a 1%nat 0%nat))
     <= gam 2 * (Rabs (a 0%nat 0%nat * a 1%nat 1%nat) + Rabs (a 0%nat 1%nat * a 1%nat 0%nat)) + 2 * (1 + u) * eta) /\
  ((2 <= prec)%Z -> (4 <= emax)%Z -> flf_integrationElement prec emax Hp He 3 2 j1 j2 shapes vs = Some v ->
   exists J, flf_jacobian prec emax Hp He 3 2 shapes vs = Some J /\
   let a := fun k l => val (J k l) in
   let minor := fun p q => a p 0%nat * a q 1%nat - a q 0%nat * a p 1%nat in
   let M := fun p q => Rabs (a p 0%nat * a q 1%nat) + Rabs (a q 0%nat * a p 1%nat) in
   let B := fun p q => grow 2 * M p q + 2 * (1 + u) * eta in
   let sq := fun f : nat -> nat -> R => f 0%nat 1%nat * f 0%nat 1%nat + f 0%nat 2%nat * f 0%nat 2%nat + f 1%nat 2%nat * f 1%nat 2%nat in
   0 <= val v /\ Rabs (val v * val v - sq minor) <= gam 2 * (val v * val v) + (grow 3 * sq B - sq M) + 3 * grow 2 * eta).
Proof.
  intros j1 j2 shapes vs v F. unfold flf_integrationElement. split.
  - destruct (flf_jacobian prec emax Hp He 2 2 shapes vs) as [J|]; [|discriminate]. cbn [obind]. intro E. exists J. split; [reflexivity|].
    exact (C71_det2 prec emax Hp He _ j1 j2 v E F).
  - intros P2 P4. destruct (flf_jacobian prec emax Hp He 3 2 shapes vs) as [J|]; [|discriminate]. cbn [obind]. intro E. exists J. split; [reflexivity|].
    exact (C71_det23 prec emax Hp He P2 P4 _ j1 j2 v E F).
Qed.
End T.
Print Assumptions C102_q1_values.
Print Assumptions C102_q1_error.
Print Assumptions C102_p1_values.
Print Assumptions C102_p1_jacobian.
Print Assumptions C102_integration.

(** the parallelogram (0,0,0), (1,0,0), (0,3,4), (1,3,4) in space: tangents (1,0,0) and (0,3,4), integration element 5; the values at (1/2, 1/4) *)
Definition three (a b c : binary_float 24 128) (k : nat) : binary_float 24 128 := match k with O => a | S O => b | _ => c end.
Definition surf102 : list (nat -> binary_float 24 128) :=
  [three (sgl 0 0) (sgl 0 0) (sgl 0 0); three (sgl 1 0) (sgl 0 0) (sgl 0 0); three (sgl 0 0) (sgl 3 0) (sgl 1 2); three (sgl 1 0) (sgl 3 0) (sgl 1 2)].
Example C102_surface_example :
  option_map B2SF (flf_integrationElement 24 128 p24 e128 3 2 (fun _ _ => sgl 0 0) (fun _ _ => sgl 0 0) (fq1_jacobians 24 128 p24 e128 2 (two (sgl 1 (-1)) (sgl 1 (-2)))) surf102) = Some (B2SF (sgl 5 0))
  /\ map (fun w => B2SF w) (fq1_values 24 128 p24 e128 2 (two (sgl 1 (-1)) (sgl 1 (-2)))) = map (fun w => B2SF w) [sgl 3 (-3); sgl 3 (-3); sgl 1 (-3); sgl 1 (-3)]
  /\ option_map (fun J => map (fun k => B2SF (J (fst k) (snd k))) [(0, 0); (2, 1)]%nat) (flf_jacobian 24 128 p24 e128 3 2 (fp1_jacobians 24 128 p24 e128 2 (two (sgl 0 0) (sgl 0 0))) (firstn 3 surf102)) = Some [B2SF (sgl 1 0); B2SF (sgl 1 2)].
Proof. repeat split; vm_compute; reflexivity. Qed.
