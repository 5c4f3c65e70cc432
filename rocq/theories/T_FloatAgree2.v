(** C103, continued: Jacobians and integration elements of the Lagrange geometry of order one and of MultiLinearGeometry on cubes *)
From Coq Require Import PeanoNat NArith ZArith Bool List Reals Lra Lia.
From Flocq Require Import Core IEEE754.BinarySingleNaN.
From Verif Require Import M_Type M_RefTopo M_RefGeo M_Matrix M_MultiLinear M_LocalFE M_Float M_FloatGlobal M_FloatLocal M_FloatVolume M_FloatLFE S_Topo S_RefGeo S_Matrix S_MultiLinear S_FloatMat S_FloatGlobal
  P_Type P_Topo P_RefTopo P_RefTopo3 P_RSum P_RefGeo P_RefGeo2 P_RefGeo3 P_RefGeo4 P_Polytope3 P_ML1 P_ML2 P_ML3 P_ML4 P_LocalFE P_Float P_Float2 P_FloatNear P_FloatErr P_FloatRef P_FloatGlobal P_FloatGlobal3 P_FloatMat2 P_FloatMat3 P_FloatMat4 P_FloatJac
  T_RefGeo T_LocalFE T_Float T_FloatGlobal T_FloatLocal T_FloatJac T_FloatVolume T_FloatLFE T_FloatLFE2 T_FloatAgree.
Import ListNotations.
Local Open Scope R_scope.

(** ** exact derivatives of the shape functions *)
Definition q1m (x : Vec) (i n j : nat) : R := forN n (fun l o => if negb (Nat.eqb j l) then o * q1_factor x i l else o) 1.
Lemma q1d_m x i n j : q1d x i n j = (if Nat.testbit i j then 1 else -1) * q1m x i n j.
Proof. unfold q1d, q1m. induction n as [|n IH]; [cbn; ring|]. cbn [forN]. rewrite IH. destruct (negb (Nat.eqb j n)); ring. Qed.
Lemma q1p_m x i j t : forall n, q1p (moved x j t) i n = (if Nat.ltb j n then if Nat.testbit i j then t else 1 - t else 1) * q1m x i n j.
Proof.
  induction n as [|n IH]; [cbn; ring|]. unfold q1p, q1m in *. cbn [forN]. rewrite IH. clear IH. set (P := forN n _ 1). clearbody P. unfold q1_factor, moved.
  destruct (Nat.eqb_spec j n) as [->|N]; cbn [negb].
  - rewrite Nat.eqb_refl. destruct (Nat.ltb_spec n n); [lia|]. destruct (Nat.ltb_spec n (S n)); [|lia]. destruct (Nat.testbit i n); ring.
  - destruct (Nat.eqb_spec n j); [lia|]. destruct (Nat.ltb_spec j n), (Nat.ltb_spec j (S n)); try lia; destruct (Nat.testbit i n); ring.
Qed.
Lemma q1m_pos x i j : forall n, (forall l, (l < n)%nat -> 0 <= x l <= 1) -> 0 <= q1m x i n j.
Proof.
  unfold q1m. induction n as [|n IH]; intro H; [cbn; lra|]. cbn [forN]. specialize (IH ltac:(intros; apply H; lia)). destruct (negb (Nat.eqb j n)); [|exact IH]. apply Rmult_le_pos; [exact IH|].
  unfold q1_factor. specialize (H n ltac:(lia)). destruct (Nat.testbit i n); lra.
Qed.
Lemma q1m_sum x dim j : (j < dim)%nat -> rsum (2 ^ dim) (fun i => q1m x i dim j) = 2.
Proof.
  intro Hj. pose proof (proj2 (C80_partition dim (moved x j (1 / 2)))) as P. rewrite (proj1 (q1_length dim _)) in P.
  rewrite (rsum_ext (2 ^ dim) _ (fun i => 1 / 2 * q1m x i dim j)) in P.
  - rewrite (rsum_scal (2 ^ dim) (1 / 2)) in P. lra.
  - intros i Hi. rewrite q1_nth by exact Hi. rewrite q1p_m, (proj2 (Nat.ltb_lt j dim) Hj). destruct (Nat.testbit i j); lra.
Qed.

Section T.
Variables (prec emax : Z).
Context (Hp : Prec_gt_0 prec) (He : Prec_lt_emax prec emax).
Notation float := (binary_float prec emax).
Notation FVec := (nat -> float).
Notation u := (uro prec).
Notation eta := (tiny prec emax).
Notation grow := (grow prec).
Notation gam := (gam prec).
Notation fin := (@is_finite prec emax).
Notation val := (@B2R prec emax).
Notation add := (fadd prec emax Hp He).
Notation sub := (fsub prec emax Hp He).
Notation mul := (fmul prec emax Hp He).
Notation one := (ofZ prec emax Hp He 1).
Notation zero := (B754_zero false : float).
Notation fzeros := (fun _ : nat => zero).
Notation exact x := (fun k : nat => val (x k)).

(** the derivative of the exact map along an axis *)
Lemma image_derivative id dim (vs : list FVec) y j k : (dim < 256)%nat -> (id < bit dim)%N -> isCube (GT2 id dim) = true -> length vs = (2 ^ dim)%nat -> (j < dim)%nat ->
  derivable_pt_lim (fun t => image id dim (exactly vs) (moved y j t) k) (y j) (rsum (length vs) (fun i => nth i (q1_jacobians dim y) vzero j * val (nth i vs fzeros k))).
Proof.
  intros Hd Hid HC L Hj. assert (HC' := HC). apply isCube_cubT in HC'; [|exact Hd|exact Hid].
  apply affine_derivative with (a := rsum (length vs) (fun i => (if Nat.testbit i j then 0 else q1m y i dim j) * val (nth i vs fzeros k))). intro s.
  rewrite <- rsum_scal, <- rsum_plus. unfold image. pose proof (cub_nv _ HC') as NV. rewrite tdim_topo_of in NV. rewrite NV, L. apply rsum_ext. intros i Hi.
  rewrite (exactly_nth prec emax) by lia. rewrite shape_q1 by (auto; lia). rewrite tdim_topo_of, q1_jac by assumption. rewrite q1p_m, q1d_m, (proj2 (Nat.ltb_lt j dim) Hj). destruct (Nat.testbit i j); ring.
Qed.
(** The Jacobian of the Lagrange geometry of order one on the cube. *)
Theorem C103_jacobian_error : (2 <= prec)%Z -> forall id dim, (dim < 256)%nat -> (id < bit dim)%N -> isCube (GT2 id dim) = true ->
  let N := INR (2 ^ dim) in (6 * N + 28 * INR dim + 66) * u <= / 4 ->
  forall cdim vs x B, length vs = (2 ^ dim)%nat -> 0 <= B -> 3 * N * (B + eta) <= bpow radix2 (emax - 1) ->
  (forall v k, In v vs -> (k < cdim)%nat -> fin (v k) = true /\ Rabs (val (v k)) <= B) ->
  (forall j, (j < dim)%nat -> fin (x j) = true /\ 0 <= val (x j) <= 1) ->
  exists J, flf_jacobian prec emax Hp He cdim dim (fq1_jacobians prec emax Hp He dim x) vs = Some J /\ forall j k D, (j < dim)%nat -> (k < cdim)%nat ->
    derivable_pt_lim (fun t => image id dim (exactly vs) (moved (exact x) j t) k) (val (x j)) D ->
    fin (J k j) = true /\ Rabs (val (J k j) - D) <= ((6 * N + 8 * INR dim + 6) * u + 4 * N * INR dim * eta) * B + 2 * N * eta.
Proof.
  intros P2 id dim Hd Hid HC N HN cdim vs x B L B0 HB Hv Hx. pose proof (u_pos' prec) as U. pose proof (eta_pos' prec emax) as Et. pose proof (pos_INR dim) as D0.
  assert (N1 : 1 <= N) by (unfold N; change 1 with (INR 1); apply le_INR; apply Nat.neq_0_lt_0, Nat.pow_nonzero; lia).
  assert (NU : N * u <= / 4 * / 6) by (assert (0 <= (28 * INR dim + 66) * u) by (apply Rmult_le_pos; lra); lra).
  assert (DU : INR dim * u <= / 4 * / 28) by (assert (0 <= (6 * N + 66) * u) by (apply Rmult_le_pos; lra); lra).
  assert (U1 : u <= / 4 * / 66) by (assert (0 <= (6 * N + 28 * INR dim) * u) by (apply Rmult_le_pos; lra); lra).
  assert (NE : INR (length vs) = N) by (unfold N; now rewrite L).
  assert (GN : grow (length vs) <= 1 + 2 * N * u) by (rewrite <- NE; apply grow_lin; rewrite NE; lra).
  assert (GS : gam (S (length vs)) <= 2 * (N + 1) * u) by (unfold S_FloatMat.gam; pose proof (grow_lin prec (S (length vs))) as X; rewrite S_INR, NE in X; specialize (X ltac:(lra)); lra).
  assert (GD : grow (2 * dim) <= 1 + 4 * INR dim * u) by (pose proof (grow_lin prec (2 * dim)) as X; rewrite mult_INR in X; change (INR 2) with (1 + 1) in X; specialize (X ltac:(lra)); lra).
  assert (Gd : grow dim <= 1 + 2 * INR dim * u) by (apply grow_lin; lra).
  assert (LE : length (fq1_jacobians prec emax Hp He dim x) = length vs) by (unfold fq1_jacobians; now rewrite entries_len).
  destruct (flf_jacobian prec emax Hp He cdim dim (fq1_jacobians prec emax Hp He dim x) vs) as [J|] eqn:E; [|destruct (proj1 (proj1 (proj2 (C102_combination prec emax Hp He) cdim dim _ vs)) E LE)].
  exists J. split; [reflexivity|]. intros j k D Hj Hk HD.
  assert (DE : D = rsum (length vs) (fun i => nth i (q1_jacobians dim (exact x)) vzero j * val (nth i vs fzeros k))).
  { eapply uniqueness_limite; [exact HD|]. exact (image_derivative id dim vs (exact x) j k Hd Hid HC L Hj). }
  subst D. clear HD.
  assert (F : fin (J k j) = true).
  { unfold flf_jacobian in E. rewrite LE, Nat.eqb_refl in E. injection E as <-. rewrite (lfj_at prec emax Hp He) by assumption.
    refine (proj1 (dot_finite prec emax Hp He P2 (fun i => nth i (fq1_jacobians prec emax Hp He dim x) fzeros j) (fun i => nth i vs fzeros k) B B0 (length vs) _ _)).
    - intros i Hi. destruct (proj2 (C102_q1_values prec emax Hp He P2 dim x i ltac:(lia) Hx) j Hj) as (W1 & W2 & _). destruct (Hv (nth i vs fzeros) k) as (V1 & V2); [apply nth_In; lia|exact Hk|]. auto.
    - rewrite NE. eapply Rle_trans; [|exact HB]. replace (3 * N * (B + eta)) with (N * (3 * (B + eta))) by ring. rewrite Rmult_assoc. apply Rmult_le_compat_l; [lra|].
      pose proof (grow1 prec (length vs)) as g1. apply Rle_trans with (2 * ((1 + u) * B + eta)); [apply Rmult_le_compat_r; nra|]. assert (u * B <= / 2 * B) by (apply Rmult_le_compat_r; lra). lra. }
  split; [exact F|].
  destruct (proj2 (proj2 (C102_combination prec emax Hp He) cdim dim (fq1_jacobians prec emax Hp He dim x) vs) J k j E Hk Hj F) as (_ & Q). rewrite NE in Q.
  set (n := length vs) in *. set (a := fun i => val (nth i (fq1_jacobians prec emax Hp He dim x) fzeros j)) in *. set (b := fun i => val (nth i vs fzeros k)) in *.
  set (W := fun i => nth i (q1_jacobians dim (exact x)) vzero j). set (M := fun i => q1m (exact x) i dim j). set (c1 := INR dim * grow dim * eta).
  assert (c10 : 0 <= c1) by (unfold c1; pose proof (grow1 prec dim); repeat apply Rmult_le_pos; lra).
  assert (MS : Ssum n M = 2) by (rewrite <- (rsum_Ssum n M); rewrite L; apply q1m_sum; exact Hj).
  assert (WM : forall i, (i < n)%nat -> Rabs (W i) = M i /\ 0 <= M i /\ Rabs (a i - W i) <= gam (2 * dim) * M i + c1).
  { intros i Hi. assert (M0 : 0 <= M i) by (apply q1m_pos; intros l Hl; now apply Hx).
    assert (A : Rabs (W i) = M i).
    { unfold W. rewrite q1_jac by (try lia; exact Hj). rewrite q1d_m. fold (M i). rewrite Rabs_mult, (Rabs_pos_eq (M i)) by exact M0. destruct (Nat.testbit i j); [rewrite Rabs_R1|rewrite Rabs_left by lra]; ring. }
    split; [exact A|]. split; [exact M0|]. rewrite <- A. destruct (proj2 (C102_q1_values prec emax Hp He P2 dim x i ltac:(lia) Hx) j Hj) as (_ & _ & _ & H4). exact H4. }
  assert (bB : forall i, (i < n)%nat -> Rabs (b i) <= B) by (intros i Hi; unfold b; apply (Hv (nth i vs fzeros) k); [apply nth_In; exact Hi|exact Hk]).
  set (c := N * c1).
  assert (CS : Ssum n (fun _ => c1) = c).
  { assert (G : forall m, Ssum m (fun _ => c1) = INR m * c1) by (induction m as [|m IH]; [cbn; ring|]; cbn [Ssum]; rewrite IH, S_INR; ring). rewrite (G n). unfold c. f_equal. exact NE. }
  assert (S1 : Ssum n (fun i => gam (2 * dim) * M i + c1) = 2 * gam (2 * dim) + c) by (rewrite (Ssum_plus n (fun i => gam (2 * dim) * M i) (fun _ => c1)), (Ssum_scal n (gam (2 * dim)) M), MS, CS; ring).
  assert (A1 : adot n a b <= (2 * grow (2 * dim) + c) * B).
  { replace (2 * grow (2 * dim) + c) with (Ssum n (fun i => M i + (gam (2 * dim) * M i + c1))) by (rewrite (Ssum_plus n M (fun i => gam (2 * dim) * M i + c1)), S1, MS; unfold S_FloatMat.gam; ring).
    rewrite Rmult_comm, <- Ssum_scal. unfold adot. apply Ssum_le. intros i Hi. destruct (WM i Hi) as (W1 & M0 & Dd). rewrite Rabs_mult, Rmult_comm.
    apply Rmult_le_compat; [apply Rabs_pos|apply Rabs_pos|now apply bB|]. replace (a i) with (W i + (a i - W i)) by ring. eapply Rle_trans; [apply Rabs_triang|]. rewrite W1. lra. }
  assert (A2 : Rabs (rdot n a b - rsum n (fun i => W i * b i)) <= (2 * gam (2 * dim) + c) * B).
  { rewrite (rsum_Ssum n (fun i => W i * b i)). unfold rdot. replace (Ssum n (fun i => a i * b i) - Ssum n (fun i => W i * b i)) with (Ssum n (fun i => (a i - W i) * b i)).
    - eapply Rle_trans; [apply Ssum_abs|]. rewrite <- S1, Rmult_comm, <- Ssum_scal. apply Ssum_le. intros i Hi. destruct (WM i Hi) as (W1 & M0 & Dd). rewrite Rabs_mult, Rmult_comm.
      apply Rmult_le_compat; [apply Rabs_pos|apply Rabs_pos|now apply bB|exact Dd].
    - rewrite (Ssum_ext n _ (fun i => a i * b i + (-1) * (W i * b i))) by (intros; ring). rewrite (Ssum_plus n (fun i => a i * b i) (fun i => (-1) * (W i * b i))), (Ssum_scal n (-1) (fun i => W i * b i)). ring. }
  change (rsum n (fun i => nth i (q1_jacobians dim (exact x)) vzero j * val (nth i vs fzeros k))) with (rsum n (fun i => W i * b i)).
  replace (val (J k j) - rsum n (fun i => W i * b i)) with ((val (J k j) - rdot n a b) + (rdot n a b - rsum n (fun i => W i * b i))) by ring.
  eapply Rle_trans; [apply Rabs_triang|].
  assert (c0 : 0 <= c) by (unfold c; apply Rmult_le_pos; lra).
  assert (c2 : c <= 2 * N * INR dim * eta).
  { unfold c, c1. replace (2 * N * INR dim * eta) with (N * (INR dim * 2 * eta)) by ring. apply Rmult_le_compat_l; [lra|]. apply Rmult_le_compat_r; [lra|]. apply Rmult_le_compat_l; lra. }
  pose proof (gam_pos prec (S n)) as gs0. pose proof (gam_pos prec (2 * dim)) as gd0.
  assert (GG : gam (2 * dim) <= 4 * INR dim * u) by (unfold S_FloatMat.gam; lra).
  assert (X0 : gam (S n) * adot n a b <= gam (S n) * ((2 * grow (2 * dim) + c) * B)) by (apply Rmult_le_compat_l; assumption).
  assert (X1 : gam (S n) * (2 * grow (2 * dim) + c) <= 2 * (2 * (N + 1) * u) * (1 + 4 * / 28) + 1 * c).
  { rewrite Rmult_plus_distr_l. apply Rplus_le_compat; [|apply Rmult_le_compat_r; lra].
    apply Rle_trans with (2 * (N + 1) * u * (2 * (1 + 4 * / 28))); [apply Rmult_le_compat; try lra; pose proof (grow1 prec (2 * dim)); lra|lra]. }
  assert (X2 : grow n * N * eta <= 2 * N * eta) by (apply Rmult_le_compat_r; [lra|]; apply Rmult_le_compat_r; lra).
  assert (X3 : gam (S n) * (2 * grow (2 * dim) + c) + (2 * gam (2 * dim) + c) <= (6 * N + 8 * INR dim + 6) * u + 4 * N * INR dim * eta) by (assert (0 <= N * u) by (apply Rmult_le_pos; lra); lra).
  assert (X4 : (gam (S n) * (2 * grow (2 * dim) + c) + (2 * gam (2 * dim) + c)) * B <= ((6 * N + 8 * INR dim + 6) * u + 4 * N * INR dim * eta) * B) by (apply Rmult_le_compat_r; assumption).
  lra.
Qed.
(** Both classes have the same Jacobian up to rounding. *)
Theorem C103_jacobian : (7 <= prec)%Z -> forall id dim, (dim < 256)%nat -> (id < bit dim)%N -> isCube (GT2 id dim) = true -> (Z.of_nat dim + 2 <= emax)%Z ->
  let N := INR (2 ^ dim) in (6 * N + 28 * INR dim + 66) * u <= / 4 ->
  forall cdim jm jk vs x B, length vs = (2 ^ dim)%nat -> 0 <= B <= bpow radix2 (emax - 4) -> 3 * N * (B + eta) <= bpow radix2 (emax - 1) ->
  (forall v k, In v vs -> (k < cdim)%nat -> fin (v k) = true /\ Rabs (val (v k)) <= B) ->
  (forall j, (j < dim)%nat -> fin (x j) = true /\ 0 <= val (x j) <= 1) ->
  exists J A, flf_jacobian prec emax Hp He cdim dim (fq1_jacobians prec emax Hp He dim x) vs = Some J /\ fmlg_jacobianTransposed prec emax Hp He cdim id dim jm jk vs x = Some A /\
    forall j k, (j < dim)%nat -> (k < cdim)%nat ->
    fin (J k j) = true /\ fin (A j k) = true /\ Rabs (val (J k j) - val (A j k)) <= ((12 * N + 24 * INR dim + 6) * u + 4 * N * INR dim * eta) * B + 5 * N * eta.
Proof.
  intros P7 id dim Hd Hid HC Hem N HN cdim jm jk vs x B L (B0 & B1) HB Hv Hx.
  destruct (C103_jacobian_error ltac:(lia) id dim Hd Hid HC HN cdim vs x B L B0 HB Hv Hx) as (J & E & Q). fold N in Q.
  assert (HC' := HC). apply isCube_cubT in HC'; [|exact Hd|exact Hid].
  assert (SZ : size id dim dim = (2 ^ dim)%nat) by (pose proof (cub_nv _ HC') as LV; rewrite tdim_topo_of in LV; rewrite size_lt, nv_lt; exact LV).
  destruct (C98_error prec emax Hp He P7 id dim (ncones_cube _ HC') Hem) with (cdim := cdim) (jm := jm) (jk := jk) (corners := vs) (x := x) (B := B) as (A & EA & QA).
  - rewrite SZ. fold N. change (bpow radix2 (- prec)) with u. pose proof (u_pos' prec) as U. pose proof (pos_INR dim). assert (0 <= (12 * INR dim + 66) * u) by (apply Rmult_le_pos; lra). lra.
  - now rewrite SZ.
  - exact B1.
  - exact Hv.
  - exact Hx.
  - exists J, A. split; [exact E|]. split; [exact EA|]. intros j k Hj Hk. destruct (QA j k Hj Hk) as (F2 & D & HD & Q2). destruct (Q j k D Hj Hk HD) as (F1 & Q1'). split; [exact F1|]. split; [exact F2|].
    rewrite SZ in Q2. fold N in Q2. change (bpow radix2 (- prec)) with u in Q2. change (bpow radix2 (2 - emax - prec)) with eta in Q2.
    replace (val (J k j) - val (A j k)) with ((val (J k j) - D) + - (val (A j k) - D)) by ring.
    eapply Rle_trans; [apply Rabs_triang|]. rewrite Rabs_Ropp. lra.
Qed.

(** ** quadrilaterals *)
Lemma mul_m1 (P2 : (2 <= prec)%Z) (a : float) : mul (Bopp one) a = Bopp a.
Proof.
  destruct (ofZ_1 prec emax Hp He P2) as (O1 & O2). set (o := one) in *. clearbody o.
  assert (S1 : exists m e B, o = B754_finite false m e B).
  { destruct o as [s|s| |s m e B]; try discriminate O2; [cbn in O1; lra|]. destruct s; [|now exists m, e, B]. exfalso. pose proof (F2R_lt_0 radix2 (Float radix2 (Zneg m) e) ltac:(cbn; lia)) as K. cbn in O1, K. lra. }
  destruct (fin a) eqn:F.
  - destruct (fmt prec emax a) as (G1 & G2). unfold fmul. pose proof (Bmult_correct prec emax Hp He mode_NE (Bopp o) a) as C. rewrite B2R_Bopp, O1 in C. replace (- (1) * val a) with (- val a) in C by ring.
    rewrite round_generic in C by (try typeclasses eauto; now apply generic_format_opp). rewrite Rlt_bool_true in C by (rewrite Rabs_Ropp; exact G2). destruct C as (V & F1 & S). rewrite is_finite_Bopp, O2, F in F1. change (true && true)%bool with true in F1.
    apply B2R_Bsign_inj; [exact F1|now rewrite is_finite_Bopp|now rewrite B2R_Bopp|]. rewrite S by (destruct (Bmult mode_NE (Bopp o) a); try discriminate F1; reflexivity).
    destruct S1 as (m & e & Bd & ->). destruct a as [[]|[]| |[]]; try discriminate F; reflexivity.
  - destruct S1 as (m & e & Bd & ->). destruct a as [|[]| |]; try discriminate F; reflexivity.
Qed.
Notation same := (same_number prec emax).
Lemma same_mul a a' b b' : same a a' -> same b b' -> same (mul a b) (mul a' b').
Proof.
  assert (K : forall a a' b, same a a' -> same (mul a b) (mul a' b)).
  { clear. intros a a' b [->|((s & ->) & (s' & ->))]; [now left|]. destruct b; [right|left; reflexivity|left; reflexivity|right]; split; eexists; reflexivity. }
  intros Ha Hb. assert (X := K a a' b Ha). assert (Y := K b b' a' Hb). rewrite !(mul_comm prec emax Hp He _ a') in Y.
  destruct X as [->|((s & ->) & (s' & E))]; [exact Y|]. right. split; [now exists s|]. rewrite E in Y. destruct Y as [<-|(_ & Y)]; [now exists s'|exact Y].
Qed.
Lemma same_trans a b c : same a b -> same b c -> same a c.
Proof. intros [->|(A & A')] [<-|(B & B')]; [now left|right; now split|right; now split|right; now split]. Qed.
Lemma same_sub a a' b b' : same a a' -> same b b' -> same (sub a b) (sub a' b').
Proof.
  intros Ha Hb. apply same_trans with (sub a' b).
  - clear Hb. destruct Ha as [->|((s & ->) & (s' & ->))]; [now left|]. destruct b as [t|t| |t m e Bd]; [right|left; reflexivity|left; reflexivity|left; reflexivity].
    split; [destruct s, t|destruct s', t]; eexists; reflexivity.
  - clear Ha. destruct Hb as [->|((s & ->) & (s' & ->))]; [now left|]. destruct a' as [t|t| |t m e Bd]; [right|left; reflexivity|left; reflexivity|left; reflexivity].
    split; [destruct s, t|destruct s', t]; eexists; reflexivity.
Qed.
Lemma lt_quad id : (id < bit 2)%N -> isCube (GT2 id 2) = true -> lt id 2 = Pri (Pri Pt).
Proof.
  intros Hid HC. apply isCube_cubT in HC; [|lia|exact Hid]. rewrite !lt_S. rewrite orb_true_r. rewrite topo_S in HC. destruct (N.testbit id (N.of_nat 1)); [reflexivity|].
  exfalso. cbn in HC. destruct (N.testbit id 0); discriminate HC.
Qed.
(** On quadrilaterals the Jacobians are the same numbers, and the integration elements in the plane are equal, for all vertices and points, finite or not. *)
Theorem C103_quadrilateral : (2 <= prec)%Z -> forall id, (id < bit 2)%N -> isCube (GT2 id 2) = true -> forall jm jk vs x, length vs = 4%nat ->
  (forall cdim, exists J A, flf_jacobian prec emax Hp He cdim 2 (fq1_jacobians prec emax Hp He 2 x) vs = Some J /\ fmlg_jacobianTransposed prec emax Hp He cdim id 2 jm jk vs x = Some A /\
     forall j k, (j < 2)%nat -> (k < cdim)%nat -> same (J k j) (A j k)) /\
  forall l1 l2 j1 j2, exists v, flf_integrationElement prec emax Hp He 2 2 l1 l2 (fq1_jacobians prec emax Hp He 2 x) vs = Some v /\ fmlg_integrationElement prec emax Hp He 2 id 2 jm jk j1 j2 vs x = Some v.
Proof.
  intros P2 id Hid HC jm jk vs x L. pose proof (lt_quad id Hid HC) as LT.
  assert (Main : forall cdim, exists J A, flf_jacobian prec emax Hp He cdim 2 (fq1_jacobians prec emax Hp He 2 x) vs = Some J /\ fmlg_jacobianTransposed prec emax Hp He cdim id 2 jm jk vs x = Some A /\
     forall j k, (j < 2)%nat -> (k < cdim)%nat -> same (J k j) (A j k)).
  { intro cdim. assert (C : is_cube id 2) by (apply ncones_cube; apply isCube_cubT in HC; [exact HC|lia|exact Hid]).
    assert (SZ : length vs = size id 2 2) by (rewrite size_lt, LT, L; reflexivity).
    destruct (jac_spec prec emax Hp He cdim id 2 jm jk vs x C SZ) as (A & EA & RA). unfold flf_jacobian. unfold fq1_jacobians at 1. rewrite entries_len, L. rewrite Nat.eqb_refl.
    eexists _, A. split; [reflexivity|]. split; [exact EA|]. intros j k Hj Hk. rewrite (lfj_at prec emax Hp He) by assumption. rewrite RA by assumption. rewrite LT. unfold fq1_jacobians at 1. rewrite entries_len.
    assert (M : forall a, mul one a = a) by (apply (mul_1_l prec emax Hp He P2)). assert (M' : forall a, mul (Bopp one) a = Bopp a) by (apply mul_m1; exact P2).
    destruct vs as [|v0 [|v1 [|v2 [|v3 [|]]]]]; try discriminate L.
    destruct j as [|[|j]]; [| |lia]; cbn -[fmul fadd fsub ofZ]; rewrite !M, !M'; do 3 apply (same_add prec emax Hp He); apply (same_zero_add prec emax Hp He). }
  split; [exact Main|]. intros l1 l2 j1 j2. destruct (Main 2%nat) as (J & A & EJ & EA & S). unfold flf_integrationElement, fmlg_integrationElement. rewrite EJ, EA. cbn [obind]. unfold fsqrtDetAAT. cbn [Nat.eqb andb].
  eexists. split; [reflexivity|]. f_equal. unfold fdet22.
  assert (K : same (sub (mul (J 0%nat 0%nat) (J 1%nat 1%nat)) (mul (J 0%nat 1%nat) (J 1%nat 0%nat))) (sub (mul (A 0%nat 0%nat) (A 1%nat 1%nat)) (mul (A 1%nat 0%nat) (A 0%nat 1%nat))))
    by (apply same_sub; apply same_mul; apply S; lia).
  destruct K as [K|((s & K1) & (s' & K2))]; [now rewrite <- K|]. rewrite K1, K2. reflexivity.
Qed.
(** ** triangles *)
Lemma same_value_number (a b : float) : fin a = true -> fin b = true -> val a = val b -> same a b.
Proof.
  intros Fa Fb E. destruct (Req_dec (val b) 0) as [Z|NZ].
  - right. assert (K : forall c : float, fin c = true -> val c = 0 -> exists s, c = B754_zero s).
    { clear. intros [s|s| |s m e Bd] F V; try discriminate F; [now exists s|]. exfalso. cbn in V. apply F2R_eq_0 in V || apply (eq_0_F2R radix2) in V. destruct s; discriminate V. }
    split; apply K; congruence.
  - left. apply B2R_inj; [| |exact E]; apply is_finite_strict_B2R; congruence.
Qed.
(** The integration element of a triangle is the one AffineGeometry stores, bit by bit, unless a difference of vertices overflows. *)
Theorem C103_triangle : (2 <= prec)%Z -> forall c0 c1 c2 x l1 l2 ret j1 j2,
  (forall c k, In c [c0; c1; c2] -> (k < 2)%nat -> fin (c k) = true) ->
  (forall c k, In c [c1; c2] -> (k < 2)%nat -> Rabs (val (c k) - val (c0 k)) <= bpow radix2 (emax - 1)) ->
  exists g, fai_corners prec emax Hp He 2 2 [c0; c1; c2] ret j1 j2 = Some g /\
    flf_integrationElement prec emax Hp He 2 2 l1 l2 (fp1_jacobians prec emax Hp He 2 x) [c0; c1; c2] = Some (fai_int prec emax g).
Proof.
  intros P2 c0 c1 c2 x l1 l2 ret j1 j2 Hf Hd. destruct (triangle_some prec emax Hp He c0 c1 c2 ret j1 j2) as (g & E & V). exists g. split; [exact E|]. rewrite V.
  destruct (C102_p1_jacobian prec emax Hp He P2 2 2 [c0; c1; c2] x eq_refl Hf) as (J & EJ & R). unfold flf_integrationElement. rewrite EJ. cbn [obind]. unfold fsqrtDetAAT. cbn [Nat.eqb andb]. f_equal.
  assert (S : forall j l, (j < 2)%nat -> (l < 2)%nat -> same (J j l) (sub (nth (Datatypes.S l) [c0; c1; c2] fzeros j) (c0 j))).
  { intros j l Hj Hl. assert (B : Rabs (val (nth (Datatypes.S l) [c0; c1; c2] fzeros j) - val (c0 j)) <= bpow radix2 (emax - 1)) by (apply Hd; [destruct l as [|[|l]]; cbn; auto; lia|exact Hj]).
    destruct (R j l Hj Hl B) as (F & W). apply same_value_number; [exact F| |exact W].
    pose proof (Bminus_correct prec emax Hp He mode_NE (nth (Datatypes.S l) [c0; c1; c2] fzeros j) (c0 j)) as C.
    specialize (C ltac:(apply Hf; [destruct l as [|[|l]]; cbn; auto; lia|exact Hj]) ltac:(apply Hf; [cbn; auto|exact Hj])). rewrite Rlt_bool_true in C by (apply (rnd_bound2 prec emax Hp He P2); exact B). apply C. }
  unfold fdet22.
  assert (K : same (sub (mul (J 0%nat 0%nat) (J 1%nat 1%nat)) (mul (J 0%nat 1%nat) (J 1%nat 0%nat)))
    (sub (mul (sub (c1 0%nat) (c0 0%nat)) (sub (c2 1%nat) (c0 1%nat))) (mul (sub (c2 0%nat) (c0 0%nat)) (sub (c1 1%nat) (c0 1%nat)))))
    by (apply same_sub; apply same_mul; apply S; lia).
  destruct K as [K|((s & K1) & (s' & K2))]; [now rewrite <- K|]. rewrite K1, K2. reflexivity.
Qed.
End T.
Print Assumptions C103_jacobian_error.
Print Assumptions C103_jacobian.
Print Assumptions C103_quadrilateral.
Print Assumptions C103_triangle.

(** the quadrilateral (0,0), (2,0), (0,1), (3,2) at (1/2, 1/4): the integration element 13/4 from both classes; the triangle of its first three corners: 2 *)
Example C103_quad_example :
  let zz := fun _ _ : nat => sgl 0 0 in let x := two (sgl 1 (-1)) (sgl 1 (-2)) in
  option_map B2SF (flf_integrationElement 24 128 p24 e128 2 2 zz zz (fq1_jacobians 24 128 p24 e128 2 x) quad102) = Some (B2SF (sgl 13 (-2))) /\
  option_map B2SF (fmlg_integrationElement 24 128 p24 e128 2 3 2 zz zz zz zz quad102 x) = Some (B2SF (sgl 13 (-2))) /\
  option_map B2SF (flf_integrationElement 24 128 p24 e128 2 2 zz zz (fp1_jacobians 24 128 p24 e128 2 x) (firstn 3 quad102)) = Some (B2SF (sgl 2 0)).
Proof. repeat split; vm_compute; reflexivity. Qed.
