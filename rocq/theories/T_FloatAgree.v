(** C103: the Lagrange geometry of order one against MultiLinearGeometry on cubes and AffineGeometry on simplices, in IEEE arithmetic (C81 is the exact statement) *)
From Coq Require Import PeanoNat NArith ZArith Bool List Reals Lra Lia.
From Flocq Require Import Core IEEE754.BinarySingleNaN.
From Verif Require Import M_Type M_RefTopo M_RefGeo M_Matrix M_MultiLinear M_LocalFE M_Float M_FloatGlobal M_FloatLocal M_FloatLFE S_Topo S_RefGeo S_Matrix S_MultiLinear S_FloatMat S_FloatGlobal
  P_Type P_Topo P_RefTopo P_RefTopo3 P_RSum P_RefGeo P_RefGeo2 P_RefGeo3 P_RefGeo4 P_Polytope3 P_ML1 P_ML2 P_ML3 P_ML4 P_LocalFE P_Float P_Float2 P_FloatNear P_FloatErr P_FloatRef P_FloatGlobal P_FloatGlobal3 P_FloatMat2 P_FloatMat3 P_FloatMat4
  T_RefGeo T_LocalFE T_Float T_FloatGlobal T_FloatLocal T_FloatLFE T_FloatLFE2.
Import ListNotations.
Local Open Scope R_scope.

Lemma shape_q1 T : cubT T -> forall x i, (i < nv T)%nat -> shape T x i = q1p x i (tdim T).
Proof.
  induction T as [|b IH|b IH]; intros H x i Hi; cbn [cubT] in H.
  - cbn in *. reflexivity.
  - cbn [shape tdim nv] in *. rewrite (cub_nv b H) in *. rewrite q1p_S. destruct (Nat.ltb_spec i (2 ^ tdim b)) as [K|K].
    + rewrite IH by (auto; rewrite cub_nv; auto). unfold q1_factor. rewrite (proj1 (testbit_high _ _ K)). ring.
    + set (i' := (i - 2 ^ tdim b)%nat) in *. assert (Hi' : (i' < 2 ^ tdim b)%nat) by (unfold i'; lia).
      rewrite IH by (auto; rewrite cub_nv; auto). replace i with (i' + 2 ^ tdim b)%nat by (unfold i'; lia).
      rewrite q1p_low by lia. unfold q1_factor. rewrite (proj2 (testbit_high _ _ Hi')). ring.
  - subst b. cbn [shape tdim nv] in *. rewrite q1p_S. destruct i as [|[|i]]; [| |lia]; cbn; ring.
Qed.
Lemma inside_cube T : cubT T -> forall x, (forall k, (k < tdim T)%nat -> 0 <= x k <= 1) -> insideT T x 1.
Proof.
  induction T as [|b IH|b IH]; intros H x Hx; cbn [cubT insideT tdim] in *; [exact I| |].
  - split; [apply Hx; lia|]. apply IH; [exact H|]. intros; apply Hx; lia.
  - subst b. split; [apply Hx; cbn; lia|exact I].
Qed.
Lemma ncones_cube T : cubT T -> ncones T = 0%nat.
Proof. induction T as [|b IH|b IH]; intros H; cbn [cubT ncones] in *; [reflexivity|now apply IH|now subst]. Qed.

Lemma Ssum_ge1 n f i : (forall j, (j < n)%nat -> 0 <= f j) -> (i < n)%nat -> f i <= Ssum n f.
Proof.
  intros H Hi. replace n with (i + S (n - S i))%nat in * by lia. rewrite Ssum_shift. replace (S (n - S i)) with (1 + (n - S i))%nat in * by lia. rewrite Ssum_shift. cbn [Ssum]. rewrite Nat.add_0_r.
  assert (A := Ssum_pos i f ltac:(intros; apply H; lia)). assert (B := Ssum_pos (n - S i) (fun t => f (i + (1 + t))%nat) ltac:(intros; apply H; lia)). lra.
Qed.
Lemma adot_pos n a b : 0 <= adot n a b.
Proof. apply Ssum_pos. intros. apply Rabs_pos. Qed.

Section T.
Variables (prec emax : Z).
Context (Hp : Prec_gt_0 prec) (He : Prec_lt_emax prec emax).
Notation float := (binary_float prec emax).
Notation FVec := (nat -> float).
Notation u := (uro prec).
Notation eta := (tiny prec emax).
Notation grow := (grow prec).
Notation gam := (gam prec).
Notation fin := (@is_finite prec emax).
Notation val := (@B2R prec emax).
Notation add := (fadd prec emax Hp He).
Notation mul := (fmul prec emax Hp He).
Notation zero := (B754_zero false : float).
Notation fzeros := (fun _ : nat => zero).
Notation exact x := (fun k : nat => val (x k)).

Lemma grow_lin m : 2 * INR m * u <= 1 -> grow m <= 1 + 2 * INR m * u.
Proof.
  pose proof (u_pos' prec) as U. induction m as [|m IH]; [intros _; cbn; lra|]. rewrite S_INR, growS. intro H. pose proof (pos_INR m). assert (X : 2 * INR m * u <= 1) by lra.
  specialize (IH X). assert ((1 + u) * grow m <= (1 + u) * (1 + 2 * INR m * u)) by (apply Rmult_le_compat_l; lra). assert (u * (2 * INR m * u) <= u * 1) by (apply Rmult_le_compat_l; lra). lra.
Qed.
Lemma dot_finite (P2 : (2 <= prec)%Z) (a b : nat -> float) B : 0 <= B -> forall n, (forall i, (i < n)%nat -> fin (a i) = true /\ fin (b i) = true /\ Rabs (val (a i)) <= 1 /\ Rabs (val (b i)) <= B) ->
  INR n * grow n * ((1 + u) * B + eta) <= bpow radix2 (emax - 1) ->
  let s := forN n (fun i s => add s (mul (a i) (b i))) zero in fin s = true /\ Rabs (val s) <= INR n * grow n * ((1 + u) * B + eta).
Proof.
  intros B0. pose proof (u_pos' prec) as U. pose proof (eta_pos' prec emax) as Et. set (C := (1 + u) * B + eta). assert (C0 : 0 <= C) by (unfold C; nra). assert (BC : B <= C) by (unfold C; nra).
  induction n as [|n IH]; intros H HB; cbv zeta in *.
  - cbn [forN]. split; [reflexivity|]. cbn. rewrite Rabs_R0. lra.
  - pose proof (pos_INR n) as I0. pose proof (grow1 prec n) as g1. rewrite S_INR, growS in HB |- *. set (g := grow n) in *. clearbody g.
    assert (gC : C <= g * C) by nra. assert (G1 : 0 <= INR n * (g * C)) by (apply Rmult_le_pos; nra).
    assert (G2 : INR n * g * C + g * C <= (INR n + 1) * ((1 + u) * g) * C).
    { replace ((INR n + 1) * ((1 + u) * g) * C) with ((1 + u) * (INR n * (g * C) + g * C)) by ring. assert (0 <= u * (INR n * (g * C) + g * C)) by (apply Rmult_le_pos; lra). lra. }
    destruct (IH ltac:(intros; apply H; lia) ltac:(lra)) as (F & V). cbn [forN]. set (s := forN n _ zero) in *. clearbody s. clear IH.
    destruct (H n ltac:(lia)) as (Fa & Fb & Va & Vb).
    assert (AB : Rabs (val (a n) * val (b n)) <= B) by (rewrite Rabs_mult; apply Rle_trans with (1 * B); [apply Rmult_le_compat; auto using Rabs_pos|lra]).
    destruct (fmul_ok prec emax Hp He P2 (a n) (b n) Fa Fb) as (M1 & M2); [lra|].
    assert (MC : Rabs (val (mul (a n) (b n))) <= C).
    { pose proof (forw_any prec emax Hp (val (a n) * val (b n))) as Q. rewrite <- M1 in Q. change (bpow radix2 (- prec)) with u in Q. change (bpow radix2 (2 - emax - prec)) with eta in Q.
      assert (u * Rabs (val (a n) * val (b n)) <= u * B) by (apply Rmult_le_compat_l; lra). unfold C.
      replace (val (mul (a n) (b n))) with ((val (mul (a n) (b n)) - val (a n) * val (b n)) + val (a n) * val (b n)) by ring. eapply Rle_trans; [apply Rabs_triang|]. lra. }
    set (m := mul (a n) (b n)) in *. clearbody m.
    assert (SM : Rabs (val s + val m) <= INR n * g * C + g * C) by (eapply Rle_trans; [apply Rabs_triang|]; lra).
    pose proof (Bplus_correct prec emax Hp He mode_NE s m F M2) as K. rewrite Rlt_bool_true in K by (apply (rnd_bound2 prec emax Hp He P2); lra). destruct K as (K1 & K2 & _).
    split; [exact K2|]. change (Bplus mode_NE s m) with (add s m) in K1. rewrite K1.
    destruct (rel_plus prec emax Hp (val s) (val m) (generic_format_B2R _ _ _) (generic_format_B2R _ _ _)) as (e & Ee & ->). change (bpow radix2 (- prec)) with u in Ee.
    rewrite Rabs_mult. replace ((INR n + 1) * ((1 + u) * g) * C) with ((INR n * g * C + g * C) * (1 + u)) by ring. apply Rmult_le_compat; [apply Rabs_pos|apply Rabs_pos|exact SM|].
    eapply Rle_trans; [apply Rabs_triang|]. rewrite Rabs_R1. lra.
Qed.
(** Values of shape functions between -1 and 1 and vertices bounded by B do not overflow. *)
Theorem C103_finite : (2 <= prec)%Z -> forall cdim sv vs B, 0 <= B -> length sv = length vs ->
  (forall w, In w sv -> fin w = true /\ Rabs (val w) <= 1) -> (forall v k, In v vs -> (k < cdim)%nat -> fin (v k) = true /\ Rabs (val (v k)) <= B) ->
  INR (length vs) * grow (length vs) * ((1 + u) * B + eta) <= bpow radix2 (emax - 1) ->
  exists out, flf_global prec emax Hp He cdim sv vs = Some out /\ forall k, (k < cdim)%nat -> fin (out k) = true.
Proof.
  intros P2 cdim sv vs B B0 L Hw Hv HB. unfold flf_global. rewrite L, Nat.eqb_refl. eexists. split; [reflexivity|]. intros k Hk. rewrite (lf_at prec emax Hp He) by exact Hk.
  refine (proj1 (dot_finite P2 (fun i => nth i sv zero) (fun i => nth i vs fzeros k) B B0 (length vs) _ HB)).
  intros i Hi. destruct (Hw (nth i sv zero)) as (W1 & W2); [apply nth_In; lia|]. destruct (Hv (nth i vs fzeros) k) as (V1 & V2); [apply nth_In; lia|exact Hk|]. auto.
Qed.

(** ** cubes *)
Lemma exactly_nth (vs : list FVec) i k : (i < length vs)%nat -> nth i (exactly vs) vzero k = val (nth i vs fzeros k).
Proof. intro H. unfold exactly. rewrite (nth_indep _ vzero ((fun (c : FVec) k => val (c k)) fzeros)) by (rewrite map_length; exact H). now rewrite (map_nth (fun (c : FVec) k => val (c k))). Qed.
(** The error of the Lagrange geometry of order one on the cube, for vertices bounded by B; [image] is the specification of C68. *)
Theorem C103_cube_error : (2 <= prec)%Z -> forall id dim, (dim < 256)%nat -> (id < bit dim)%N -> isCube (GT2 id dim) = true ->
  let N := INR (2 ^ dim) in (6 * N + 28 * INR dim + 66) * u <= / 4 ->
  forall cdim vs x B, length vs = (2 ^ dim)%nat -> 0 <= B -> 3 * N * (B + eta) <= bpow radix2 (emax - 1) ->
  (forall v k, In v vs -> (k < cdim)%nat -> fin (v k) = true /\ Rabs (val (v k)) <= B) ->
  (forall j, (j < dim)%nat -> fin (x j) = true /\ 0 <= val (x j) <= 1) ->
  exists out, flf_global prec emax Hp He cdim (fq1_values prec emax Hp He dim x) vs = Some out /\ forall k, (k < cdim)%nat ->
    fin (out k) = true /\ Rabs (val (out k) - image id dim (exactly vs) (exact x) k) <= ((3 * N + 4 * INR dim + 3) * u + 4 * N * INR dim * eta) * B + 2 * N * eta.
Proof.
  intros P2 id dim Hd Hid HC N HN cdim vs x B L B0 HB Hv Hx. pose proof (u_pos' prec) as U. pose proof (eta_pos' prec emax) as Et. pose proof (pos_INR dim) as D0.
  assert (N1 : 1 <= N) by (unfold N; change 1 with (INR 1); apply le_INR; apply Nat.neq_0_lt_0, Nat.pow_nonzero; lia).
  assert (NU : N * u <= / 4 * / 6) by lra || (assert (0 <= (28 * INR dim + 66) * u) by (apply Rmult_le_pos; lra); lra).
  assert (DU : INR dim * u <= / 4 * / 28) by (assert (0 <= (6 * N + 66) * u) by (apply Rmult_le_pos; lra); lra).
  assert (U1 : u <= / 4 * / 66) by (assert (0 <= (6 * N + 28 * INR dim) * u) by (apply Rmult_le_pos; lra); lra).
  assert (NE : INR (length vs) = N) by (unfold N; now rewrite L).
  assert (GN : grow (length vs) <= 1 + 2 * N * u) by (rewrite <- NE; apply grow_lin; rewrite NE; lra).
  assert (GS : gam (S (length vs)) <= 2 * (N + 1) * u) by (unfold S_FloatMat.gam; rewrite <- NE; pose proof (grow_lin (S (length vs))) as X; rewrite S_INR, NE in X; rewrite NE; specialize (X ltac:(lra)); lra).
  assert (GD : grow (2 * dim) <= 1 + 4 * INR dim * u) by (pose proof (grow_lin (2 * dim)) as X; rewrite mult_INR in X; change (INR 2) with (1 + 1) in X; specialize (X ltac:(lra)); lra).
  assert (Gd : grow dim <= 1 + 2 * INR dim * u) by (apply grow_lin; lra).
  destruct (C103_finite P2 cdim (fq1_values prec emax Hp He dim x) vs B B0) as (out & E & F).
  - unfold fq1_values. now rewrite entries_len.
  - intros w Hw. apply (In_nth _ _ zero) in Hw. destruct Hw as (i & Hi & <-). unfold fq1_values in Hi. rewrite entries_len in Hi.
    destruct (proj1 (C102_q1_values prec emax Hp He P2 dim x i Hi Hx)) as (W1 & W2 & _). split; [exact W1|]. rewrite Rabs_pos_eq; apply W2.
  - exact Hv.
  - rewrite NE. eapply Rle_trans; [|exact HB]. replace (3 * N * (B + eta)) with (N * (3 * (B + eta))) by ring. rewrite Rmult_assoc. apply Rmult_le_compat_l; [lra|].
    pose proof (grow1 prec (length vs)) as g1. apply Rle_trans with (2 * ((1 + u) * B + eta)); [apply Rmult_le_compat_r; nra|]. assert (u * B <= / 2 * B) by (apply Rmult_le_compat_r; lra). lra.
  - exists out. split; [exact E|]. intros k Hk. split; [now apply F|].
    pose proof (C102_q1_error prec emax Hp He P2 dim cdim vs x B out k L Hx (fun v Hv' => proj2 (Hv v k Hv' Hk)) E Hk (F k Hk)) as Q. cbv zeta in Q. rewrite NE in Q.
    assert (HC' := HC). apply isCube_cubT in HC'; [|exact Hd|exact Hid].
    assert (IM : image id dim (exactly vs) (exact x) k = rsum (length vs) (fun i => nth i (q1_values dim (exact x)) 0 * val (nth i vs fzeros k))).
    { unfold image. pose proof (cubT_verts_length _ HC') as LV. rewrite nv_verts, tdim_topo_of in LV. rewrite LV, L. apply rsum_ext. intros i Hi.
      rewrite exactly_nth by lia. rewrite shape_q1 by (auto; lia). rewrite tdim_topo_of, q1_nth by exact Hi. reflexivity. }
    rewrite IM. eapply Rle_trans; [exact Q|].
    set (c := N * (INR dim * grow dim * eta)).
    assert (c0 : 0 <= c) by (unfold c; pose proof (grow1 prec dim); repeat apply Rmult_le_pos; lra).
    assert (c1 : c <= 2 * N * INR dim * eta).
    { unfold c. replace (2 * N * INR dim * eta) with (N * (INR dim * 2 * eta)) by ring. apply Rmult_le_compat_l; [lra|]. apply Rmult_le_compat_r; [lra|]. apply Rmult_le_compat_l; lra. }
    assert (gs0 : 0 <= gam (S (length vs))) by apply gam_pos. pose proof (gam_pos prec (2 * dim)) as gd0. unfold S_FloatMat.gam at 2.
    assert (X1 : gam (S (length vs)) * (grow (2 * dim) + c) <= 2 * (N + 1) * u * (1 + / 28) * (1 + 4 * / 28) + 1 * c).
    { rewrite Rmult_plus_distr_l. apply Rplus_le_compat; [|apply Rmult_le_compat_r; lra].
      apply Rle_trans with (2 * (N + 1) * u * (1 + 4 * / 28)); [apply Rmult_le_compat; try lra; pose proof (grow1 prec (2 * dim)); lra|].
      assert (0 <= 2 * (N + 1) * u) by (repeat apply Rmult_le_pos; lra). nra. }
    assert (X2 : grow (length vs) * N * eta <= 2 * N * eta) by (apply Rmult_le_compat_r; [lra|]; apply Rmult_le_compat_r; lra).
    apply Rplus_le_compat; [|exact X2]. apply Rmult_le_compat_r; [exact B0|].
    assert (0 <= N * u) by (apply Rmult_le_pos; lra). lra.
Qed.
(** The two implementations of the multilinear map agree up to rounding. *)
Theorem C103_cube : (7 <= prec)%Z -> forall id dim, (dim < 256)%nat -> (id < bit dim)%N -> isCube (GT2 id dim) = true -> (Z.of_nat dim + 2 <= emax)%Z ->
  let N := INR (2 ^ dim) in (6 * N + 28 * INR dim + 66) * u <= / 4 ->
  forall cdim jv vs x B, length vs = (2 ^ dim)%nat -> 0 <= B <= bpow radix2 (emax - 4) -> 3 * N * (B + eta) <= bpow radix2 (emax - 1) ->
  (forall v k, In v vs -> (k < cdim)%nat -> fin (v k) = true /\ Rabs (val (v k)) <= B) ->
  (forall j, (j < dim)%nat -> fin (x j) = true /\ 0 <= val (x j) <= 1) ->
  exists out y, flf_global prec emax Hp He cdim (fq1_values prec emax Hp He dim x) vs = Some out /\ fmlg_global prec emax Hp He cdim id dim jv vs x = Some y /\ forall k, (k < cdim)%nat ->
    fin (out k) = true /\ fin (y k) = true /\ Rabs (val (out k) - val (y k)) <= ((9 * N + 32 * INR dim + 69) * u + 4 * N * INR dim * eta) * B + 5 * N * eta.
Proof.
  intros P7 id dim Hd Hid HC Hem N HN cdim jv vs x B L (B0 & B1) HB Hv Hx.
  destruct (C103_cube_error ltac:(lia) id dim Hd Hid HC HN cdim vs x B L B0 HB Hv Hx) as (out & E & Q). fold N in Q.
  assert (HC' := HC). apply isCube_cubT in HC'; [|exact Hd|exact Hid].
  assert (SZ : size id dim dim = (2 ^ dim)%nat).
  { pose proof (cubT_verts_length _ HC') as LV. rewrite nv_verts, tdim_topo_of in LV. rewrite size_lt, nv_lt. exact LV. }
  destruct (C68_error prec emax Hp He P7 id dim Hid) with (cdim := cdim) (jv := jv) (corners := vs) (x := x) (B := B) as (y & Ey & Qy).
  - left. rewrite (ncones_cube _ HC'). lia.
  - exact Hem.
  - rewrite (ncones_cube _ HC'). lia.
  - rewrite SZ. exact HN.
  - now rewrite SZ.
  - exact B1.
  - exact Hv.
  - intros k Hk. now apply Hx.
  - apply hull_inside. apply inside_cube; [exact HC'|]. intros k Hk. rewrite tdim_topo_of in Hk. now apply Hx.
  - exists out, y. split; [exact E|]. split; [exact Ey|]. intros k Hk. destruct (Q k Hk) as (F1 & Q1'). destruct (Qy k Hk) as (F2 & Q2'). split; [exact F1|]. split; [exact F2|].
    rewrite SZ in Q2'. fold N in Q2'. change (bpow radix2 (- prec)) with u in Q2'. change (bpow radix2 (2 - emax - prec)) with eta in Q2'.
    set (I := image _ _ _ _ _) in *. replace (val (out k) - val (y k)) with ((val (out k) - I) + - (val (y k) - I)) by ring.
    eapply Rle_trans; [apply Rabs_triang|]. rewrite Rabs_Ropp. lra.
Qed.

(** ** simplices *)
Theorem C103_simplex_error : (7 <= prec)%Z -> forall dim cdim vs x B, length vs = S dim -> INR dim * (4 * INR dim + 8) * u <= 1 -> 0 <= B -> (8 * INR dim + 8) * (B + eta) <= bpow radix2 (emax - 1) ->
  (forall v k, In v vs -> (k < cdim)%nat -> fin (v k) = true /\ Rabs (val (v k)) <= B) ->
  (forall j, (j < dim)%nat -> fin (x j) = true /\ 0 <= val (x j)) -> rsum dim (exact x) <= 1 ->
  exists out, flf_global prec emax Hp He cdim (fp1_values prec emax Hp He dim x) vs = Some out /\ forall k, (k < cdim)%nat ->
    let c i := val (nth i vs fzeros k) in
    fin (out k) = true /\ Rabs (val (out k) - (c 0%nat + rsum dim (fun i => (c (S i) - c 0%nat) * val (x i)))) <= (4 * INR dim + 5) * u * B + 2 * (INR dim + 1) * eta.
Proof.
  intros P7 dim cdim vs x B L HD B0 HB Hv Hx Hs. assert (P2 : (2 <= prec)%Z) by lia. pose proof (u_pos' prec) as U. pose proof (eta_pos' prec emax) as Et. pose proof (pos_INR dim) as D0.
  assert (U1 : u <= / 128).
  { unfold S_FloatMat.uro. change (/ 128) with (bpow radix2 (-7)). apply bpow_le. lia. }
  assert (DU : INR dim * u <= / 12).
  { destruct dim as [|d]; [cbn; lra|]. assert (D1 : 1 <= INR (S d)) by (change 1 with (INR 1); apply le_INR; lia).
    assert (INR (S d) * u * 12 <= INR (S d) * u * (4 * INR (S d) + 8)) by (apply Rmult_le_compat_l; [apply Rmult_le_pos; lra|lra]). lra. }
  assert (NE : INR (length vs) = INR dim + 1) by (rewrite L; apply S_INR).
  assert (GN : grow (length vs) <= 1 + 2 * (INR dim + 1) * u) by (rewrite <- NE; apply grow_lin; rewrite NE; lra).
  assert (GS : gam (S (length vs)) <= 2 * (INR dim + 2) * u) by (unfold S_FloatMat.gam; pose proof (grow_lin (S (length vs))) as X; rewrite S_INR, NE in X; specialize (X ltac:(lra)); lra).
  destruct (C102_p1_values prec emax Hp He P2 dim x ltac:(lra) Hx Hs) as ((F0 & V0 & E0) & VS). rewrite p1_0 in E0.
  assert (SP : forall m, (m <= dim)%nat -> 0 <= rsum m (exact x) <= 1).
  { intros m Hm. rewrite !rsum_Ssum in *. replace dim with (m + (dim - m))%nat in Hs by lia. rewrite Ssum_shift in Hs.
    assert (P : forall a n, (a + n <= dim)%nat -> 0 <= Ssum n (fun t => val (x (a + t)%nat))).
    { intros a n. induction n as [|n IH]; intro Hn; cbn [Ssum]; [lra|]. specialize (IH ltac:(lia)). destruct (Hx (a + n)%nat ltac:(lia)). lra. }
    pose proof (P 0%nat m ltac:(lia)) as P1. pose proof (P m (dim - m)%nat ltac:(lia)) as P3. cbn [Nat.add] in P1. lra. }
  assert (X1 : forall j, (j < dim)%nat -> val (x j) <= 1).
  { intros j Hj. pose proof (SP (S j) ltac:(lia)) as A. pose proof (SP j ltac:(lia)) as A'. rewrite (rsum_S j (exact x)) in A. lra. }
  pose proof (SP dim (le_n _)) as (SP0 & _).
  assert (LV : length (fp1_values prec emax Hp He dim x) = S dim) by (unfold fp1_values; now rewrite entries_len).
  set (w := fun i => nth i (fp1_values prec emax Hp He dim x) zero) in *.
  change (nth 0 (fp1_values prec emax Hp He dim x) zero) with (w 0%nat) in *.
  assert (W0 : Rabs (val (w 0%nat)) <= 1) by (apply abs_le in E0; apply abs_le; lra).
  destruct (C103_finite P2 cdim (fp1_values prec emax Hp He dim x) vs B B0) as (out & E & F).
  - now rewrite LV.
  - intros a Ha. apply (In_nth _ _ zero) in Ha. destruct Ha as (i & Hi & <-). rewrite LV in Hi. destruct i as [|i]; [split; assumption|].
    rewrite (proj1 (VS i ltac:(lia))). destruct (Hx i ltac:(lia)) as (A1 & A2). split; [exact A1|]. rewrite Rabs_pos_eq by exact A2. apply X1. lia.
  - exact Hv.
  - rewrite NE. eapply Rle_trans; [|exact HB]. replace ((8 * INR dim + 8) * (B + eta)) with ((INR dim + 1) * (8 * (B + eta))) by ring. rewrite Rmult_assoc. apply Rmult_le_compat_l; [lra|].
    pose proof (grow1 prec (length vs)) as g1. apply Rle_trans with (2 * ((1 + u) * B + eta)); [apply Rmult_le_compat_r; nra|]. assert (u * B <= / 2 * B) by (apply Rmult_le_compat_r; lra). lra.
  - exists out. split; [exact E|]. intros k Hk c. split; [now apply F|].
    destruct (proj2 (proj1 (C102_combination prec emax Hp He) cdim (fp1_values prec emax Hp He dim x) vs) out k E Hk (F k Hk)) as (_ & Q). rewrite NE in Q.
    change (fun i => val (nth i vs fzeros k)) with c in Q. change (fun i => val (nth i (fp1_values prec emax Hp He dim x) zero)) with (fun i => val (w i)) in Q.
    assert (cB : forall i, (i <= dim)%nat -> Rabs (c i) <= B) by (intros i Hi; apply (Hv (nth i vs fzeros) k); [apply nth_In; lia|exact Hk]).
    set (s := rsum dim (exact x)) in *.
    assert (A1 : adot (length vs) (fun i => val (w i)) c <= (1 + INR dim * u) * B).
    { unfold adot. rewrite L. rewrite (Ssum_shift dim 1). cbn [Ssum]. rewrite Rplus_0_l.
      assert (T1 : Ssum dim (fun t => Rabs (val (w (1 + t)%nat) * c (1 + t)%nat)) <= s * B).
      { replace (s * B) with (Ssum dim (fun i => B * val (x i))) by (rewrite (Ssum_scal dim B (exact x)), <- (rsum_Ssum dim (exact x)); fold s; ring). apply Ssum_le. intros i Hi. cbn [Nat.add]. unfold w. rewrite (proj1 (VS i Hi)). rewrite Rabs_mult, (Rabs_pos_eq (val (x i))) by now apply Hx.
        rewrite Rmult_comm. apply Rmult_le_compat_r; [now apply Hx|]. apply cB. lia. }
      assert (T2 : Rabs (val (w 0%nat) * c 0%nat) <= (1 - s + INR dim * u) * B).
      { rewrite Rabs_mult. apply Rmult_le_compat; [apply Rabs_pos|apply Rabs_pos| |apply cB; lia]. apply abs_le in E0. apply abs_le. lra. }
      lra. }
    assert (A2 : Rabs (rdot (length vs) (fun i => val (w i)) c - (c 0%nat + rsum dim (fun i => (c (S i) - c 0%nat) * val (x i)))) <= INR dim * u * B).
    { unfold rdot. rewrite L. rewrite (Ssum_shift dim 1). cbn [Ssum]. rewrite Rplus_0_l.
      replace (rsum dim (fun i => (c (S i) - c 0%nat) * val (x i))) with (Ssum dim (fun t => val (w (1 + t)%nat) * c (1 + t)%nat) - c 0%nat * s).
      - replace (val (w 0%nat) * c 0%nat + Ssum dim (fun t => val (w (1 + t)%nat) * c (1 + t)%nat) - (c 0%nat + (Ssum dim (fun t => val (w (1 + t)%nat) * c (1 + t)%nat) - c 0%nat * s))) with ((val (w 0%nat) - (1 - s)) * c 0%nat) by ring.
        rewrite Rabs_mult. apply Rmult_le_compat; [apply Rabs_pos|apply Rabs_pos|exact E0|apply cB; lia].
      - rewrite (rsum_Ssum dim (fun i => (c (S i) - c 0%nat) * val (x i))), (Ssum_ext dim (fun t => val (w (1 + t)%nat) * c (1 + t)%nat) (fun t => (c (S t) - c 0%nat) * val (x t) + c 0%nat * val (x t))).
        + rewrite (Ssum_plus dim (fun t => (c (S t) - c 0%nat) * val (x t)) (fun t => c 0%nat * val (x t))), (Ssum_scal dim (c 0%nat) (exact x)), <- (rsum_Ssum dim (exact x)). fold s. ring.
        + intros i Hi. cbn [Nat.add]. unfold w. rewrite (proj1 (VS i Hi)). ring. }
    set (ex := c 0%nat + rsum dim (fun i => (c (S i) - c 0%nat) * val (x i))) in *.
    replace (val (out k) - ex) with ((val (out k) - rdot (length vs) (fun i => val (w i)) c) + (rdot (length vs) (fun i => val (w i)) c - ex)) by ring.
    eapply Rle_trans; [apply Rabs_triang|]. pose proof (gam_pos prec (S (length vs))) as G0.
    assert (A3 : gam (S (length vs)) * adot (length vs) (fun i => val (w i)) c <= 2 * (INR dim + 2) * u * ((1 + / 12) * B)).
    { apply Rmult_le_compat; [exact G0|apply adot_pos|exact GS|]. eapply Rle_trans; [exact A1|]. apply Rmult_le_compat_r; lra. }
    assert (A4 : grow (length vs) * (INR dim + 1) * eta <= 2 * (INR dim + 1) * eta) by (apply Rmult_le_compat_r; [lra|]; apply Rmult_le_compat_r; lra).
    assert (0 <= INR dim * u * B) by (repeat apply Rmult_le_pos; lra). assert (0 <= u * B) by (apply Rmult_le_pos; lra). lra.
Qed.
(** ... and the affine map. *)
Theorem C103_simplex : (7 <= prec)%Z -> forall dim cdim junk vs x B, length vs = S dim -> INR dim * (4 * INR dim + 8) * u <= 1 -> 0 <= B -> (8 * INR dim + 8) * (B + eta) <= bpow radix2 (emax - 1) ->
  (forall v k, In v vs -> (k < cdim)%nat -> fin (v k) = true /\ Rabs (val (v k)) <= B) ->
  (forall j, (j < dim)%nat -> fin (x j) = true /\ 0 <= val (x j)) -> rsum dim (exact x) <= 1 ->
  exists out g, flf_global prec emax Hp He cdim (fp1_values prec emax Hp He dim x) vs = Some out /\ fag_make prec emax Hp He dim vs junk = Some g /\ forall k, (k < cdim)%nat ->
    let y := fag_global prec emax Hp He cdim dim g x k in
    fin (out k) = true /\ fin y = true /\ Rabs (val (out k) - val y) <= (INR dim * (4 * INR dim + 11) + 5) * u * B + (7 * INR dim + 2) * eta.
Proof.
  intros P7 dim cdim junk vs x B L HD B0 HB Hv Hx Hs. pose proof (eta_pos' prec emax) as Et. pose proof (pos_INR dim) as D0.
  destruct (C103_simplex_error P7 dim cdim vs x B L HD B0 HB Hv Hx Hs) as (out & E & Q).
  destruct (C68_affine_error prec emax Hp He P7 dim cdim vs junk x B L HD) as (g & Eg & Qg).
  - eapply Rle_trans; [|exact HB]. apply Rmult_le_compat_l; lra.
  - exact Hv.
  - intros i Hi. split; [now apply Hx|]. rewrite Rabs_pos_eq by now apply Hx. rewrite rsum_Ssum in Hs. eapply Rle_trans; [|exact Hs].
    apply (Ssum_ge1 dim (exact x) i); [intros; now apply Hx|exact Hi].
  - exists out, g. split; [exact E|]. split; [exact Eg|]. intros k Hk y. destruct (Q k Hk) as (F1 & Q1'). destruct (Qg k Hk) as (F2 & Q2'). split; [exact F1|]. split; [exact F2|]. fold y in Q2'.
    change (bpow radix2 (- prec)) with u in Q2'. change (bpow radix2 (2 - emax - prec)) with eta in Q2'.
    rewrite (rsum_ext dim (fun i => (nth (S i) (exactly vs) vzero k - nth 0 (exactly vs) vzero k) * val (x i)) (fun i => (val (nth (S i) vs fzeros k) - val (nth 0 vs fzeros k)) * val (x i))) in Q2' by (intros i Hi; now rewrite !exactly_nth by lia).
    rewrite exactly_nth in Q2' by lia.
    set (I := val (nth 0 vs fzeros k) + _) in *. replace (val (out k) - val y) with ((val (out k) - I) + - (val y - I)) by ring.
    eapply Rle_trans; [apply Rabs_triang|]. rewrite Rabs_Ropp. lra.
Qed.
(** ** lines and quadrilaterals: the same operations *)
Notation one := (ofZ prec emax Hp He 1).
Lemma mul_comm (a b : float) : mul a b = mul b a.
Proof.
  unfold fmul. pose proof (Bmult_correct prec emax Hp He mode_NE a b) as C1. pose proof (Bmult_correct prec emax Hp He mode_NE b a) as C2. rewrite (Rmult_comm (val b)), (xorb_comm (Bsign b)) in C2.
  destruct (Rlt_bool _ _).
  - destruct C1 as (V1 & F1 & S1), C2 as (V2 & F2 & S2). rewrite (andb_comm (fin b)) in F2. destruct (fin a && fin b)%bool eqn:E.
    + apply B2R_Bsign_inj; [exact F1|exact F2|congruence|]. rewrite S1, S2; [reflexivity|destruct (Bmult mode_NE b a); try discriminate F2; reflexivity|destruct (Bmult mode_NE a b); try discriminate F1; reflexivity].
    + destruct a as [[]|[]| |[]], b as [[]|[]| |[]]; try discriminate E; reflexivity.
  - apply B2SF_inj. congruence.
Qed.
Lemma mul_1_l (P2 : (2 <= prec)%Z) (a : float) : mul one a = a.
Proof.
  destruct (ofZ_1 prec emax Hp He P2) as (O1 & O2). set (o := one) in *. clearbody o. destruct (fin a) eqn:F.
  - destruct (fmt prec emax a) as (G1 & G2). unfold fmul. pose proof (Bmult_correct prec emax Hp He mode_NE o a) as C. rewrite O1, Rmult_1_l in C.
    rewrite round_generic in C by (try typeclasses eauto; exact G1). rewrite Rlt_bool_true in C by exact G2. destruct C as (V & F1 & S). rewrite O2, F in F1. change (true && true)%bool with true in F1.
    apply B2R_Bsign_inj; [exact F1|exact F|exact V|]. rewrite S by (destruct (Bmult mode_NE o a); try discriminate F1; reflexivity).
    assert (S1 : Bsign o = false).
    { destruct o as [s|s| |s m e B]; try discriminate O2; [cbn in O1; lra|]. destruct s; [|reflexivity]. exfalso. pose proof (F2R_lt_0 radix2 (Float radix2 (Zneg m) e) ltac:(cbn; lia)) as K. cbn in O1, K. lra. }
    now rewrite S1, xorb_false_l.
  - assert (S1 : exists m e B, o = B754_finite false m e B).
    { destruct o as [s|s| |s m e B]; try discriminate O2; [cbn in O1; lra|]. destruct s; [|now exists m, e, B]. exfalso. pose proof (F2R_lt_0 radix2 (Float radix2 (Zneg m) e) ltac:(cbn; lia)) as K. cbn in O1, K. lra. }
    destruct S1 as (m & e & Bd & ->). destruct a as [|[]| |]; try discriminate F; reflexivity.
Qed.
(** equal, also infinite or not a number, up to the sign of zero *)
Definition same_number (a b : float) : Prop := a = b \/ (exists s, a = B754_zero s) /\ (exists s, b = B754_zero s).
Lemma same_add a b c : same_number a b -> same_number (add a c) (add b c).
Proof.
  intros [->|((s & ->) & (s' & ->))]; [now left|]. destruct c as [t|t| |t m e Bd]; [right|left; reflexivity|left; reflexivity|left; reflexivity].
  split; [destruct s, t|destruct s', t]; eexists; reflexivity.
Qed.
Lemma same_zero_add c : same_number (add zero c) c.
Proof. destruct c as [[]|[]| |]; [right; split; eexists; reflexivity|left; reflexivity..]. Qed.
(** On lines and quadrilaterals both classes compute the same numbers, for all vertices and points, finite or not. *)
Theorem C103_plane : (2 <= prec)%Z -> forall id dim, (dim <= 2)%nat -> (id < bit dim)%N -> isCube (GT2 id dim) = true -> forall cdim jv vs x, length vs = (2 ^ dim)%nat ->
  exists out y, flf_global prec emax Hp He cdim (fq1_values prec emax Hp He dim x) vs = Some out /\ fmlg_global prec emax Hp He cdim id dim jv vs x = Some y /\ forall k, (k < cdim)%nat -> same_number (out k) (y k).
Proof.
  intros P2 id dim Hd Hid HC cdim jv vs x L. unfold flf_global. unfold fq1_values at 1. rewrite entries_len, L, Nat.eqb_refl.
  assert (HC' := HC). apply isCube_cubT in HC'; [|lia|exact Hid].
  assert (LT : lt id dim = match dim with O => Pt | S O => Pri Pt | _ => Pri (Pri Pt) end).
  { destruct dim as [|[|[|d]]]; [reflexivity| | |lia].
    - rewrite lt_S, orb_true_r. reflexivity.
    - rewrite !lt_S. rewrite orb_true_r. rewrite topo_S in HC'. destruct (N.testbit id (N.of_nat 1)); [reflexivity|]. exfalso. cbn in HC'. destruct (N.testbit id 0); discriminate HC'. }
  eexists _, _. split; [reflexivity|]. split; [apply (fglobal_spec prec emax Hp He); rewrite LT, L; destruct dim as [|[|[|d]]]; [reflexivity..|lia]|].
  intros k Hk. rewrite (lf_at prec emax Hp He) by exact Hk. unfold fset. rewrite (proj2 (Nat.ltb_lt k cdim) Hk). rewrite LT. unfold fq1_values at 1. rewrite entries_len.
  assert (M : forall a, mul one a = a) by (apply mul_1_l; exact P2).
  destruct dim as [|[|[|d]]]; [| | |lia].
  - destruct vs as [|v0 [|]]; try discriminate L. cbn. apply same_zero_add.
  - destruct vs as [|v0 [|v1 [|]]]; try discriminate L. cbn -[fmul fadd fsub ofZ]. rewrite !M. apply same_add, same_zero_add.
  - destruct vs as [|v0 [|v1 [|v2 [|v3 [|]]]]]; try discriminate L. cbn -[fmul fadd fsub ofZ]. rewrite !M.
    rewrite !(mul_comm (fsub _ _ _ _ _ (x 1%nat))), !(mul_comm (x 1%nat)). do 3 apply same_add. apply same_zero_add.
Qed.
End T.
Print Assumptions C103_finite.
Print Assumptions C103_cube_error.
Print Assumptions C103_cube.
Print Assumptions C103_simplex_error.
Print Assumptions C103_simplex.
Print Assumptions C103_plane.

(** In dimension three the products are formed in different order: on the cube whose last vertex is the only one different from the origin the images differ by one unit in the last place. *)
Definition hex103 : list (nat -> binary_float 24 128) := repeat (fun _ => sgl 0 0) 7 ++ [fun _ => sgl 1 0].
Definition x103 (k : nat) : binary_float 24 128 := match k with O => sgl 5 (-3) | _ => sgl 16776815 (-24) end.
Lemma at_value (o : option (nat -> binary_float 24 128)) m e : option_map (fun y => B2SF (y 0%nat)) o = Some (SpecFloat.S754_finite false m e) -> option_map (fun y => B2R (y 0%nat)) o = Some (IZR (Z.pos m) * bpow radix2 e).
Proof. destruct o as [y|]; [|discriminate]. cbn. intro H. injection H as H. f_equal. now apply sgl_value. Qed.
Theorem C103_space_refuted : exists (vs : list (nat -> binary_float 24 128)) (x : nat -> binary_float 24 128), length vs = 8%nat /\
  (forall v k, In v vs -> is_finite (v k) = true) /\ (forall k, is_finite (x k) = true /\ 0 <= B2R (x k) <= 1) /\
  option_map (fun y => B2R (y 0%nat)) (flf_global 24 128 p24 e128 3 (fq1_values 24 128 p24 e128 3 x) vs) = Some (10485258 * bpow radix2 (-24)) /\
  forall jv, option_map (fun y => B2R (y 0%nat)) (fmlg_global 24 128 p24 e128 3 7 3 jv vs x) = Some (10485259 * bpow radix2 (-24)).
Proof.
  exists hex103, x103. split; [reflexivity|]. split; [intros v k H; cbn in H; repeat (destruct H as [<-|H]; [reflexivity|]); destruct H|]. split; [|split].
  - intro k. split; [destruct k; reflexivity|]. destruct k; unfold x103.
    + rewrite (sgl_value (sgl 5 (-3)) 10485760 (-24)) by (vm_compute; reflexivity). cbn. lra.
    + rewrite (sgl_value _ 16776815 (-24)) by (vm_compute; reflexivity). cbn. lra.
  - apply at_value. vm_compute. reflexivity.
  - intro jv. apply at_value. vm_compute. reflexivity.
Qed.
Print Assumptions C103_space_refuted.

(** the trilinear map of a hexahedron in single precision: the bound for corners up to 1 *)
Example C103_example : forall cdim jv vs x, length vs = 8%nat -> (forall v k, In v vs -> (k < cdim)%nat -> is_finite (v k) = true /\ Rabs (B2R (v k)) <= 1) ->
  (forall j, (j < 3)%nat -> is_finite (x j) = true /\ 0 <= B2R (x j) <= 1) ->
  exists out y, flf_global 24 128 p24 e128 cdim (fq1_values 24 128 p24 e128 3 x) vs = Some out /\ fmlg_global 24 128 p24 e128 cdim 7 3 jv vs x = Some y /\
    forall k, (k < cdim)%nat -> Rabs (B2R (out k) - B2R (y k)) <= 238 * bpow radix2 (-24).
Proof.
  intros cdim jv vs x L Hv Hx. destruct (C103_cube 24 128 p24 e128 ltac:(lia) 7 3 ltac:(lia) ltac:(reflexivity) ltac:(reflexivity) ltac:(lia)) with (cdim := cdim) (jv := jv) (vs := vs) (x := x) (B := 1) as (out & y & E1 & E2 & Q).
  - unfold uro. cbn. lra.
  - exact L.
  - cbn. lra.
  - unfold tiny. cbn. lra.
  - exact Hv.
  - exact Hx.
  - exists out, y. split; [exact E1|]. split; [exact E2|]. intros k Hk. destruct (Q k Hk) as (_ & _ & D). eapply Rle_trans; [exact D|]. unfold uro, tiny. cbn. lra.
Qed.
