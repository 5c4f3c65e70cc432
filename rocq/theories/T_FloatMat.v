(** C71: rounding errors of the matrix helper (utility/defaultmatrixhelper.hh) for matrices of every
    size and every binary format: if the results are finite, they satisfy their equations up to
    componentwise bounds.  [uro] is the unit roundoff, [tiny] half the smallest positive number,
    [gam k] is (1+uro)^k - 1. *)
From Coq Require Import PeanoNat NArith ZArith Bool List Reals Lra Lia.
From Flocq Require Import Core IEEE754.BinarySingleNaN.
From Verif Require Import M_RefTopo M_Matrix M_Float M_FloatGlobal M_FloatLocal S_RefGeo S_FloatMat P_FloatErr P_FloatMat2 P_FloatMat3 P_FloatMat4 P_FloatMat5 T_Float T_FloatGlobal T_FloatLocal.
Import ListNotations.
Local Open Scope R_scope.

Section T.
Variables (prec emax : Z).
Context (Hp : Prec_gt_0 prec) (He : Prec_lt_emax prec emax).
Notation float := (binary_float prec emax).
Notation u := (uro prec).
Notation eta := (tiny prec emax).
Notation grow := (grow prec).
Notation gam := (gam prec).
Notation low := (low prec emax).
Notation symm := (symm prec emax).
Notation low_finite := (low_finite prec emax).
Notation all_finite := (all_finite prec emax).
Notation fin := (@is_finite prec emax).
Notation val := (@B2R prec emax).

(** invLx: L x = b up to one relative error per operation *)
Theorem C71_forward : forall n L b, low_finite n L -> all_finite n (finvLx prec emax Hp He n L b) -> forall i, (i < n)%nat ->
  let x := fun j => val (finvLx prec emax Hp He n L b j) in
  fin (b i) = true /\
  Rabs (val (b i) - rdot n (low L i) x) <= gam (S i) * adot n (low L i) x + grow i * (INR i + Rabs (val (L i i))) * eta.
Proof. intros n L b H Fx i Hi. exact (invLx_err prec emax Hp He n L b H Fx i Hi). Qed.

(** invLTx *)
Theorem C71_backward : forall n L b, low_finite n L -> all_finite n (finvLTx prec emax Hp He n L b) -> forall i, (i < n)%nat ->
  let x := fun j => val (finvLTx prec emax Hp He n L b j) in
  fin (b i) = true /\
  Rabs (val (b i) - rdot n (fun k => low L k i) x) <= gam (n - i) * adot n (fun k => low L k i) x + grow (n - S i) * (INR (n - S i) + Rabs (val (L i i))) * eta.
Proof. intros n L b H Fx i Hi. exact (invLTx_err prec emax Hp He n L b H Fx i Hi). Qed.

Section Wide.
Hypothesis H2 : (2 <= prec)%Z.
Hypothesis H4 : (4 <= emax)%Z.

(** cholesky_L: the computed factor is the exact factor of a nearby matrix; its diagonal is positive *)
Theorem C71_cholesky : forall n A ret cs Q, fcholesky_L prec emax Hp He n A ret cs = Some (true, Q) -> low_finite n Q ->
  forall i j, (j <= i < n)%nat -> fin (A i j) = true /\ 0 < val (Q j j) /\
  Rabs (val (A i j) - rdot n (low Q i) (low Q j)) <= gam (j + 3) * adot n (low Q i) (low Q j) + grow j * (INR j + 2 * val (Q j j)) * eta.
Proof. exact (cholesky_err prec emax Hp He H2 H4). Qed.

(** spdInvAx: the residual of the solution *)
Theorem C71_solve : forall n A y junk cs x, fspdInvAx prec emax Hp He n A y junk cs = Some (true, x) ->
  exists Q, fcholesky_L prec emax Hp He n A junk cs = Some (true, Q) /\
  (low_finite n Q -> all_finite n x -> forall i, (i < n)%nat -> fin (y i) = true /\
    Rabs (val (y i) - rdot n (symm A i) (fun k => val (x k))) <= solve_bound prec emax n Q (fun k => val (x k)) i).
Proof. exact (solve_err prec emax Hp He H2 H4). Qed.

(** xTRightInvA, the step of local: the residual of the normal equations A A^T x = A d *)
Theorem C71_normal : forall m n A d j1 j2 x, (0 < n)%nat -> fxTRightInvA prec emax Hp He m n A d j1 j2 = Some (true, x) ->
  exists Q, fcholesky_L prec emax Hp He m (fAAT_L prec emax Hp He m n A j1) j2 true = Some (true, Q) /\
  (low_finite m Q -> all_finite m x -> forall i, (i < m)%nat ->
    let a := fun i k => val (A i k) in let xr := fun k => val (x k) in let dr := fun k => val (d k) in
    (forall k, (k < n)%nat -> fin (A i k) = true /\ fin (d k) = true) /\
    Rabs (rdot n (a i) dr - rdot m (fun j => rdot n (a i) (a j)) xr) <=
      solve_bound prec emax m Q xr i + (gam (S n) * adot n (a i) dr + grow n * INR n * eta)
      + Ssum m (fun j => (gam n * adot n (a i) (a j) + grow (n - 1) * INR n * eta) * Rabs (xr j))).
Proof. exact (normal_err prec emax Hp He H2 H4). Qed.

(** invL, in place: L N = 1 *)
Theorem C71_invL : forall n L det N, finvL prec emax Hp He n L = (det, N) -> low_finite n L -> low_finite n N ->
  det = fdetL prec emax Hp He n L /\
  forall i j, (j <= i < n)%nat ->
    let A := adot n (low L i) (fun k => low N k j) in let t := (i - j)%nat in
    Rabs (rdot n (low L i) (fun k => low N k j) - (if Nat.eqb i j then 1 else 0))
      <= gam (S t) * A + (grow t * INR t + Rabs (val (L i i)) * (1 + grow t * (A + INR t * eta))) * eta.
Proof. exact (invL_err prec emax Hp He H2). Qed.

(** detL, where no partial product underflows: one relative error per factor *)
Theorem C71_detL : forall n L, fin (fdetL prec emax Hp He n L) = true ->
  (forall m, (m <= n)%nat -> bpow radix2 (2 - emax) <= Rabs (val (fdetL prec emax Hp He m L))) ->
  (forall i, (i < n)%nat -> fin (L i i) = true) /\
  Rabs (val (fdetL prec emax Hp He n L) - rprodn n (fun i => val (L i i))) <= gam n * Rabs (val (fdetL prec emax Hp He n L)).
Proof. exact (detL_err prec emax Hp He H2). Qed.

(** spdInvA: A is nearly Q Q^T, Q N nearly 1, the result nearly N^T N and exactly symmetric, and the
    determinant is that of Q *)
Theorem C71_spdInvA : forall n A junk det B, fspdInvA prec emax Hp He n A junk = Some (det, B) ->
  exists Q N, fcholesky_L prec emax Hp He n A junk false = Some (true, Q) /\
    det = fdetL prec emax Hp He n Q /\
    (forall i j, (i < n)%nat -> (j < n)%nat -> B i j = B j i) /\
    (low_finite n Q -> low_finite n N -> low_finite n B -> forall i j, (j <= i < n)%nat ->
      Rabs (val (A i j) - rdot n (low Q i) (low Q j)) <= gam (j + 3) * adot n (low Q i) (low Q j) + grow j * (INR j + 2 * val (Q j j)) * eta /\
      Rabs (rdot n (low Q i) (fun k => low N k j) - (if Nat.eqb i j then 1 else 0)) <=
        gam (S (i - j)) * adot n (low Q i) (fun k => low N k j) +
        (grow (i - j) * INR (i - j) + Rabs (val (Q i i)) * (1 + grow (i - j) * (adot n (low Q i) (fun k => low N k j) + INR (i - j) * eta))) * eta /\
      Rabs (val (B i j) - rdot n (fun k => low N k i) (fun k => low N k j)) <=
        gam (S (n - i)) * adot n (fun k => low N k i) (fun k => low N k j) + grow (n - i) * INR (n - i) * eta).
Proof.
  intros n A junk det B E. unfold fspdInvA in E. destruct (fcholesky_L prec emax Hp He n A junk false) as [[b Q]|] eqn:C; cbn [obind] in E; [|discriminate].
  assert (b = true) as ->.
  { revert C. unfold fcholesky_L. set (body := fun i f => fbind f _).
    assert (K : forall m, match forN m body (Run junk) with Ret _ _ => False | _ => True end).
    { induction m; [exact I|]. cbn [forN]. destruct (forN m body (Run junk)) as [Q'| |]; [|destruct IHm|exact I]. unfold body. cbn [fbind andb]. destruct (negb _); exact I. }
    specialize (K n). destruct (forN n body (Run junk)); [now intro X; injection X|destruct K|discriminate]. }
  destruct (finvL prec emax Hp He n Q) as (d, N) eqn:V. injection E as <- <-. exists Q, N. split; [reflexivity|].
  assert (Ed : d = fdetL prec emax Hp He n Q) by (pose proof (finvL_entry prec emax Hp He n Q) as K; rewrite V in K; exact (proj1 K)).
  split; [exact Ed|]. split.
  - intros i j Hi Hj. destruct (Nat.le_gt_cases j i).
    + symmetry. apply (proj2 (fLTL_entry prec emax Hp He n N A i j ltac:(lia))).
    + apply (proj2 (fLTL_entry prec emax Hp He n N A j i ltac:(lia))).
  - intros FQ FN FB i j Hij. split; [apply (C71_cholesky n A junk false Q C FQ i j Hij)|]. split.
    + exact (proj2 (C71_invL n Q d N V FQ FN) i j Hij).
    + exact (proj2 (proj2 (fLTL_err prec emax Hp He n N A i j Hij (FB i j Hij)))).
Qed.

(** the 2x2 inverse: D is the computed determinant, the entries times D are the adjugate *)
Theorem C71_inv22 : forall A ret, let D := fdet22 prec emax Hp He A in let r := finv22 prec emax Hp He A ret in
  fin D = true -> (forall i j, (i < 2)%nat -> (j < 2)%nat -> fin (snd r i j) = true) ->
  val (fst r) = Rabs (val D) /\
  forall i j, (i < 2)%nat -> (j < 2)%nat ->
    let adj := if Nat.eqb i j then val (A (1 - i) (1 - i))%nat else - val (A i j) in
    Rabs (val (snd r i j) * val D - adj) <= gam 2 * Rabs adj + ((1 + u) * Rabs adj + 1) * Rabs (val D) * eta.
Proof.
  intros A ret D r FD F. split; [apply B2R_Babs|]. intros i j Hi Hj.
  specialize (F i j Hi Hj).
  assert (E : snd r i j = fmul prec emax Hp He (if Nat.eqb i j then A (1 - i) (1 - i) else Bopp (A i j))%nat (fdiv prec emax Hp He (ofZ prec emax Hp He 1) D)).
  { destruct i as [|[|i]], j as [|[|j]]; try lia; reflexivity. }
  rewrite E in F |- *. pose proof (inv_entry prec emax Hp He H2 _ D FD F) as K. destruct (Nat.eqb i j); [exact K|]. rewrite B2R_Bopp in K. exact K.
Qed.
End Wide.

(** the products *)
Theorem C71_products :
  (forall n A x i, fin (fmv prec emax Hp He n A x i) = true ->
    Rabs (val (fmv prec emax Hp He n A x i) - rdot n (fun j => val (A i j)) (fun j => val (x j)))
      <= gam (S n) * adot n (fun j => val (A i j)) (fun j => val (x j)) + grow n * INR n * eta) /\
  (forall m A x j, fin (fmtv prec emax Hp He m A x j) = true ->
    Rabs (val (fmtv prec emax Hp He m A x j) - rdot m (fun i => val (A i j)) (fun i => val (x i)))
      <= gam (S m) * adot m (fun i => val (A i j)) (fun i => val (x i)) + grow m * INR m * eta) /\
  (forall m n p A B ret i j, (i < n)%nat -> (j < p)%nat -> fin (fATBT prec emax Hp He m n p A B ret i j) = true ->
    Rabs (val (fATBT prec emax Hp He m n p A B ret i j) - rdot m (fun k => val (A k i)) (fun k => val (B j k)))
      <= gam (S m) * adot m (fun k => val (A k i)) (fun k => val (B j k)) + grow m * INR m * eta) /\
  (forall m n A ret i j, (j <= i < m)%nat -> (0 < n)%nat -> fin (fAAT_L prec emax Hp He m n A ret i j) = true ->
    Rabs (val (fAAT_L prec emax Hp He m n A ret i j) - rdot n (fun k => val (A i k)) (fun k => val (A j k)))
      <= gam n * adot n (fun k => val (A i k)) (fun k => val (A j k)) + grow (n - 1) * INR n * eta) /\
  (forall n L ret i j, (j <= i < n)%nat -> fin (fLTL prec emax Hp He n L ret i j) = true ->
    fLTL prec emax Hp He n L ret j i = fLTL prec emax Hp He n L ret i j /\
    Rabs (val (fLTL prec emax Hp He n L ret i j) - rdot n (fun k => low L k i) (fun k => low L k j))
      <= gam (S (n - i)) * adot n (fun k => low L k i) (fun k => low L k j) + grow (n - i) * INR (n - i) * eta).
Proof.
  split; [|split; [|split; [|split]]].
  - intros n A x i F. exact (proj2 (fmv_err prec emax Hp He n A x i F)).
  - intros m A x j F. exact (proj2 (fmtv_err prec emax Hp He m A x j F)).
  - intros m n p A B ret i j Hi Hj F. exact (proj2 (fATBT_err prec emax Hp He m n p A B ret i j Hi Hj F)).
  - intros m n A ret i j Hij Hn F. exact (proj2 (fAAT_err prec emax Hp He m n A ret i j Hij Hn F)).
  - intros n L ret i j Hij F. destruct (fLTL_err prec emax Hp He n L ret i j Hij F) as (S1 & _ & B). auto.
Qed.

(** sqrtDetAAT of a 2x2 matrix *)
Theorem C71_det2 : forall A j1 j2 v, fsqrtDetAAT prec emax Hp He 2 2 A j1 j2 = Some v -> fin v = true ->
  let a := fun i j => val (A i j) in
  0 <= val v /\
  Rabs (val v - Rabs (a 0%nat 0%nat * a 1%nat 1%nat - a 1%nat 0%nat * a 0%nat 1%nat))
    <= gam 2 * (Rabs (a 0%nat 0%nat * a 1%nat 1%nat) + Rabs (a 1%nat 0%nat * a 0%nat 1%nat)) + 2 * (1 + u) * eta.
Proof.
  intros A j1 j2 v E F a. injection E as <-. rewrite is_finite_Babs in F. rewrite B2R_Babs. split; [apply Rabs_pos|].
  eapply Rle_trans; [apply Rabs_triang_inv2|]. exact (cross_err prec emax Hp He _ _ _ _ F).
Qed.
(** ... and of a 3x3 matrix: five relative errors on the sum of the absolute values of the six terms *)
Theorem C71_det3 : forall A j1 j2 v, fsqrtDetAAT prec emax Hp He 3 3 A j1 j2 = Some v -> fin v = true ->
  let a := fun i j => val (A i j) in
  0 <= val v /\
  Rabs (val v - Rabs (a 0%nat 0%nat * a 1%nat 1%nat * a 2%nat 2%nat + a 0%nat 1%nat * a 1%nat 2%nat * a 2%nat 0%nat + a 0%nat 2%nat * a 1%nat 0%nat * a 2%nat 1%nat
                      - a 0%nat 2%nat * a 1%nat 1%nat * a 2%nat 0%nat - a 0%nat 0%nat * a 1%nat 2%nat * a 2%nat 1%nat - a 0%nat 1%nat * a 1%nat 0%nat * a 2%nat 2%nat))
    <= gam 5 * (Rabs (a 0%nat 0%nat * a 1%nat 1%nat * a 2%nat 2%nat) + Rabs (a 0%nat 1%nat * a 1%nat 2%nat * a 2%nat 0%nat) + Rabs (a 0%nat 2%nat * a 1%nat 0%nat * a 2%nat 1%nat)
                + Rabs (a 0%nat 2%nat * a 1%nat 1%nat * a 2%nat 0%nat) + Rabs (a 0%nat 0%nat * a 1%nat 2%nat * a 2%nat 1%nat) + Rabs (a 0%nat 1%nat * a 1%nat 0%nat * a 2%nat 2%nat))
       + grow 2 * (3 + 2 * grow 2 * (Rabs (a 2%nat 0%nat) + Rabs (a 2%nat 1%nat) + Rabs (a 2%nat 2%nat))) * eta.
Proof.
  intros A j1 j2 v E F a. injection E as <-. rewrite is_finite_Babs in F. rewrite B2R_Babs. split; [apply Rabs_pos|].
  eapply Rle_trans; [apply Rabs_triang_inv2|]. pose proof (det3_err prec emax Hp He _ _ _ _ _ _ _ _ _ F) as K. cbv zeta in K.
  fold (a 0%nat 0%nat) (a 0%nat 1%nat) (a 0%nat 2%nat) (a 1%nat 0%nat) (a 1%nat 1%nat) (a 1%nat 2%nat) (a 2%nat 0%nat) (a 2%nat 1%nat) (a 2%nat 2%nat) in K.
  match type of K with Rabs (?w - ?d) <= ?r => set (W := w) in *; replace d with (a 0%nat 0%nat * a 1%nat 1%nat * a 2%nat 2%nat + a 0%nat 1%nat * a 1%nat 2%nat * a 2%nat 0%nat + a 0%nat 2%nat * a 1%nat 0%nat * a 2%nat 1%nat
     - a 0%nat 2%nat * a 1%nat 1%nat * a 2%nat 0%nat - a 0%nat 0%nat * a 1%nat 2%nat * a 2%nat 1%nat - a 0%nat 1%nat * a 1%nat 0%nat * a 2%nat 2%nat) in K by ring end.
  eapply Rle_trans; [exact K|]. apply Req_le. rewrite !Rabs_mult. ring.
Qed.
(** sqrtDetAAT of a 2x3 matrix: the square of the result against the squared norm of the cross
    product; M is the sum of the absolute values of the two terms of a component *)
Theorem C71_det23 : (2 <= prec)%Z -> (4 <= emax)%Z -> forall A j1 j2 v, fsqrtDetAAT prec emax Hp He 2 3 A j1 j2 = Some v -> fin v = true ->
  let minor := fun p q => val (A 0%nat p) * val (A 1%nat q) - val (A 0%nat q) * val (A 1%nat p) in
  let M := fun p q => Rabs (val (A 0%nat p) * val (A 1%nat q)) + Rabs (val (A 0%nat q) * val (A 1%nat p)) in
  let B := fun p q => grow 2 * M p q + 2 * (1 + u) * eta in
  let sq := fun f : nat -> nat -> R => f 0%nat 1%nat * f 0%nat 1%nat + f 0%nat 2%nat * f 0%nat 2%nat + f 1%nat 2%nat * f 1%nat 2%nat in
  0 <= val v /\
  Rabs (val v * val v - sq minor) <= gam 2 * (val v * val v) + (grow 3 * sq B - sq M) + 3 * grow 2 * eta.
Proof.
  intros H2 H4 A j1 j2 v E F minor M B sq. injection E as <-.
  destruct (sqr_fin prec emax Hp He _ F) as (Fs & _). destruct (add_fin prec emax Hp He _ _ Fs) as (F01 & F2 & _). destruct (add_fin prec emax Hp He _ _ F01) as (F0 & F1 & _).
  destruct (mul_fin prec emax Hp He _ _ F0) as (G0 & _). destruct (mul_fin prec emax Hp He _ _ F1) as (G1 & _). destruct (mul_fin prec emax Hp He _ _ F2) as (G2 & _).
  assert (X : forall a b c d, fin (fsub prec emax Hp He (fmul prec emax Hp He a b) (fmul prec emax Hp He c d)) = true ->
    Rabs (val (fsub prec emax Hp He (fmul prec emax Hp He a b) (fmul prec emax Hp He c d)) - (val a * val b - val c * val d))
      <= (grow 2 * (Rabs (val a * val b) + Rabs (val c * val d)) + 2 * (1 + u) * eta) - (Rabs (val a * val b) + Rabs (val c * val d))).
  { intros a b c d G. eapply Rle_trans; [apply (cross_err prec emax Hp He _ _ _ _ G)|]. unfold S_FloatMat.gam. lra. }
  assert (EM : forall p q, M p q = Rabs (val (A 0%nat p) * val (A 1%nat q)) + Rabs (val (A 1%nat p) * val (A 0%nat q))) by (intros; unfold M; f_equal; f_equal; ring).
  assert (Em : forall p q, minor p q = val (A 0%nat p) * val (A 1%nat q) - val (A 1%nat p) * val (A 0%nat q)) by (intros; unfold minor; ring).
  pose proof (X _ _ _ _ G0) as X0. pose proof (X _ _ _ _ G1) as X1. pose proof (X _ _ _ _ G2) as X2.
  rewrite <- (EM 0%nat 2%nat), <- Em in X1.
  refine (cross_norm_err prec emax Hp He H2 _ _ _ (minor 0 1)%nat (minor 0 2)%nat (minor 1 2)%nat (B 0 1)%nat (B 0 2)%nat (B 1 2)%nat (M 0 1)%nat (M 0 2)%nat (M 1 2)%nat H4 F X0 X1 X2 _ _ _);
    unfold minor, M, Rminus; (eapply Rle_trans; [apply Rabs_triang|]); rewrite Rabs_Ropp; lra.
Qed.
End T.
Print Assumptions C71_forward.
Print Assumptions C71_backward.
Print Assumptions C71_cholesky.
Print Assumptions C71_solve.
Print Assumptions C71_normal.
Print Assumptions C71_invL.
Print Assumptions C71_detL.
Print Assumptions C71_spdInvA.
Print Assumptions C71_inv22.
Print Assumptions C71_products.
Print Assumptions C71_det2.
Print Assumptions C71_det3.
Print Assumptions C71_det23.

(** The bounds on the determinants are relative to the sum of the absolute values of the terms.  A
    bound relative to the determinant does not exist: in single precision the integration element
    of a matrix with determinant 1 is computed as 0, and the inverse is not finite. *)
Definition thin : nat -> nat -> binary_float 24 128 := vec3 (vec3 (sgl 4097 0) (sgl 4096 0) (sgl 0 0)) (vec3 (sgl 4098 0) (sgl 4097 0) (sgl 0 0)) zro.
Theorem C71_relative_refuted : exists A : nat -> nat -> binary_float 24 128,
  B2R (A 0%nat 0%nat) * B2R (A 1%nat 1%nat) - B2R (A 1%nat 0%nat) * B2R (A 0%nat 1%nat) = 1 /\
  forall j1 j2 ret, option_map (fun r => B2R r) (fsqrtDetAAT 24 128 p24 e128 2 2 A j1 j2) = Some 0 /\
    forall i j, (i < 2)%nat -> (j < 2)%nat -> is_finite (snd (finv22 24 128 p24 e128 A ret) i j) = false.
Proof.
  exists thin. split.
  - unfold thin, vec3. rewrite (sf_value _ _ (sgl 4097 0) 8390656 (-11)), (sf_value _ _ (sgl 4096 0) 8388608 (-11)), (sf_value _ _ (sgl 4098 0) 8392704 (-11)) by (vm_compute; reflexivity).
    cbn. lra.
  - intros j1 j2 ret. split.
    + rewrite (coord_zero (fun r => r) _ false) by (vm_compute; reflexivity). reflexivity.
    + intros [|[|i]] [|[|j]] Hi Hj; try lia; vm_compute; reflexivity.
Qed.
Print Assumptions C71_relative_refuted.

(** Solving in double precision with the matrix ((3,1),(1,2)) and right-hand side (1,0): the factor
    contains the root of 3, everything is finite, the solution is 2/5, -1/5 up to rounding. *)
Definition two2 (a b c d : binary_float 53 1024) : nat -> nat -> binary_float 53 1024 := fun i j =>
  match i, j with O, O => a | O, _ => b | _, O => c | _, _ => d end.
Example C71_example : forall junk,
  option_map (fun '(b, Q) => (b, map (fun x => B2SF x) [Q 0 0; Q 1 0; Q 1 1]%nat))
      (fcholesky_L 53 1024 p53 e1024 2 (two2 (dbl 3 0) (dbl 0 0) (dbl 1 0) (dbl 2 0)) junk true)
    = Some (true, [B2SF (dbl 7800463371553962 (-52)); B2SF (dbl 5200308914369309 (-53)); B2SF (dbl 5814122118263953 (-52))]) /\
  option_map (fun '(b, x) => (b, map (fun k => B2SF (x k)) [0; 1]%nat))
      (fspdInvAx 53 1024 p53 e1024 2 (two2 (dbl 3 0) (dbl 0 0) (dbl 1 0) (dbl 2 0)) (two2 (dbl 1 0) (dbl 0 0) (dbl 0 0) (dbl 0 0) 0%nat) junk true)
    = Some (true, [B2SF (dbl 7205759403792795 (-54)); B2SF (dbl (-7205759403792796) (-55))]) /\
  Rabs (B2R (dbl 7205759403792795 (-54)) - 2 / 5) <= bpow radix2 (-53) /\ Rabs (B2R (dbl 7205759403792796 (-55)) - 1 / 5) <= bpow radix2 (-53).
Proof.
  intro junk. split; [vm_compute; reflexivity|]. split; [vm_compute; reflexivity|].
  rewrite (sf_value _ _ (dbl 7205759403792795 (-54)) 7205759403792795 (-54)), (sf_value _ _ (dbl 7205759403792796 (-55)) 7205759403792796 (-55)) by (vm_compute; reflexivity).
  split; cbn; apply Rabs_le; lra.
Qed.
