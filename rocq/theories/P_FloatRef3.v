(** Refined elements in floating point: conversion between types, the cells of the cube and the
    corners of simplices and triangulations at a lattice point. *)
From Coq Require Import PeanoNat NArith ZArith Bool List Reals Lra Lia Factorial.
From Flocq Require Import Core IEEE754.BinarySingleNaN.
From Verif Require Import M_Type M_RefTopo M_RefGeo M_Matrix M_Affine M_Float M_Refine M_FloatRefine S_RefGeo S_Refine S_Refine2 S_Matrix
  P_RefGeo P_RefGeo3 P_RSum P_Refine1 P_Refine2 P_Refine3 P_Refine4 P_Refine5 P_Refine6 P_Refine7 P_Float P_Float2 P_FloatRef P_FloatRef2.
Import ListNotations.
Local Open Scope R_scope.

Section Conv.
Variables (pd ed prec emax : Z).
Context (Hpd : Prec_gt_0 pd) (Hed : Prec_lt_emax pd ed) (Hp : Prec_gt_0 prec) (He : Prec_lt_emax prec emax).
Hypothesis Hd2 : (2 <= pd)%Z.
Hypothesis H2 : (2 <= prec)%Z.
Notation rndd := (round radix2 (SpecFloat.fexp pd ed) (round_mode mode_NE)).
Notation rnd := (round radix2 (SpecFloat.fexp prec emax) (round_mode mode_NE)).
Local Instance vexpC : Valid_exp (SpecFloat.fexp prec emax) := fexp_correct prec emax Hp.

Lemma fconv_nn : forall x r, fnn pd ed x r -> r <= bpow radix2 (emax - 1) -> fnn prec emax (fconv pd ed prec emax Hp He x) (rnd r).
Proof.
  intros x r (F & S & V) H. destruct x as [s|s| |s m e B]; cbn in F, S; try discriminate; subst s.
  - cbn in V. subst r. rewrite round_0 by typeclasses eauto. repeat split.
  - cbn [fconv]. pose proof (binary_normalize_correct prec emax Hp He mode_NE (Zpos m) e false) as C. cbn zeta in C.
    assert (E : F2R (Float radix2 (Zpos m) e) = r) by exact V. rewrite E in C.
    assert (Pr : 0 < r) by (rewrite <- E; apply F2R_gt_0; reflexivity).
    rewrite Rlt_bool_true in C by (apply rnd_big; [assumption..|]; rewrite Rabs_pos_eq; lra).
    destruct C as (C1 & C2 & C3). split; [exact C2|split; [|exact C1]].
    rewrite C3. destruct (Rcompare_spec r 0); auto. lra.
Qed.

(** multiplication with 1.0 changes nothing *)
Lemma times_one : forall k, INR k <= bpow radix2 (ed - 1) ->
  fmul pd ed Hpd Hed (ofZ pd ed Hpd Hed (Z.of_nat k)) (ofZ pd ed Hpd Hed 1) = ofZ pd ed Hpd Hed (Z.of_nat k).
Proof.
  intros k Hk. rewrite INR_IZR_INZ in Hk. pose proof (ofZ_gen pd ed Hpd Hed Hd2 _ (Zle_0_nat k) Hk) as A.
  pose proof (ofZ_bit pd ed Hpd Hed Hd2 1%nat Nat.lt_0_1 true) as B. cbv beta iota in B.
  assert (B0 : 0 <= rndd (IZR (Z.of_nat k))) by (apply rnd_nn; [assumption..|]; apply IZR_le; lia).
  assert (B1 : rndd (IZR (Z.of_nat k)) <= bpow radix2 (ed - 1)).
  { apply round_le_generic; [apply fexp_correct; assumption|typeclasses eauto| |exact Hk].
    apply format_bpow; try assumption. pose proof (prec_emax pd ed Hed). lia. }
  apply (fnn_eq pd ed _ _ (rndd (IZR (Z.of_nat k)))); [|exact A].
  rewrite <- (rnd_id pd ed (rndd (IZR (Z.of_nat k)))) by now apply rnd_fmt.
  rewrite <- (Rmult_1_r (rndd (IZR (Z.of_nat k)))) at 1. apply mul_nn; try assumption; lra.
Qed.
End Conv.

Lemma k2r_ext {A} : forall (f : A -> A -> A) dim x y p, isPerm dim p -> agree dim x y ->
  agree dim (kuhnToReference f dim x p) (kuhnToReference f dim y p).
Proof.
  intros f dim x y p P A' j Hj. destruct (k2r_spec f dim p x P) as (A1 & A2 & _). destruct (k2r_spec f dim p y P) as (B1 & B2 & _).
  destruct (perm_onto dim p P j Hj) as (i & Hi & <-). destruct (Nat.eq_dec (S i) dim) as [E|N].
  - assert (i = dim - 1)%nat by lia. subst i. rewrite A2, B2 by lia. apply A', P. lia.
  - rewrite A1, B1 by lia. f_equal; apply A', P; lia.
Qed.

(** [x] is entry [i] of the list [l] *)
Definition corner_at {A} (l : option (list A)) (i : nat) (x : A) : Prop := exists cs, l = Some cs /\ nth_error cs i = Some x.
Lemma corner_at_map {A} : forall (g : nat -> A) N i x, corner_at (Some (map g (seq 0 N))) i x <-> (i < N)%nat /\ x = g i.
Proof.
  intros g N i x. unfold corner_at. split.
  - intros (cs & E & H). injection E as <-. assert (L : (i < N)%nat).
    { apply nth_error_Some_lt in H || (assert (K : nth_error (map g (seq 0 N)) i <> None) by congruence; apply nth_error_Some in K; rewrite map_length, seq_length in K; exact K). }
    split; [exact L|]. rewrite nth_error_map, (nth_error_nth' _ 0%nat) in H by (rewrite seq_length; exact L).
    rewrite seq_nth in H by exact L. now injection H as <-.
  - intros (L & ->). eexists. split; [reflexivity|]. rewrite nth_error_map, (nth_error_nth' _ 0%nat) by (rewrite seq_length; exact L).
    now rewrite seq_nth by exact L.
Qed.

Section FP.
Variables (prec emax : Z).
Context (Hp : Prec_gt_0 prec) (He : Prec_lt_emax prec emax).
Hypothesis H2 : (2 <= prec)%Z.
Notation float := (binary_float prec emax).
Notation fexp := (SpecFloat.fexp prec emax).
Notation rnd := (round radix2 fexp (round_mode mode_NE)).
Notation u := (bpow radix2 (- prec)).
Notation add := (fadd prec emax Hp He).
Notation sub := (fsub prec emax Hp He).
Notation ofZ := (ofZ prec emax Hp He).
Notation nn := (fnn prec emax).
Variable n : nat.
Hypothesis Hn : (0 < n)%nat.
Hypothesis Nn : INR n <= bpow radix2 prec.
Notation vh := (vh prec emax n).
Notation cval := (cval prec emax n).
Notation cexact := (cexact n).
Notation radd := (radd prec emax).

(** corner [i] of an element of the refined simplex *)
Lemma se_corner_lattice : forall dim k r p q i c, (0 < dim)%nat -> (k < n ^ dim)%nat ->
  getPermutation dim (se_kuhn (elemAt dim n k)) = Some p -> isPerm dim p -> isPerm dim q ->
  (forall i, (i < dim)%nat -> q (p i) = i) -> (forall i, (i < dim)%nat -> p (q i) = i) ->
  corner_at (se_corners dim r (elemAt dim n k)) i c ->
  let w := cornerAt q (se_origin (elemAt dim n k)) (chainPos q i) in
  gridPoint dim n w /\ agree dim c (cexact dim w) /\ (i <= dim)%nat
  /\ exists x, corner_at (se_cornersF prec emax Hp He dim (elemAt dim n k)) i x /\ forall j, (j < dim)%nat -> nn (x j) (cval dim w j).
Proof.
  intros dim k r p q i c Hd Hk E P Q qp pq C w.
  destruct (elem_spec dim n k Hd Hn Hk) as (p1 & q1 & E1 & P1 & Q1 & qp1 & pq1 & D & B & IC & _).
  assert (p1 = p) by congruence. subst p1.
  assert (QQ : forall i, (i < dim)%nat -> q1 i = q i).
  { intros l Hl. pose proof (proj1 Q l Hl) as Ql. rewrite <- (pq l Hl) at 1. now apply qp1. }
  assert (IC' : inCond dim q (se_origin (elemAt dim n k))).
  { intros l Hl. rewrite <- !QQ by lia. now apply IC. }
  assert (GP : forall i, gridPoint dim n (cornerAt q (se_origin (elemAt dim n k)) i)) by (intros; apply corner_grid; assumption).
  rewrite (se_corners_eq dim r _ p E) in C. apply corner_at_map in C. destruct C as (L & ->).
  assert (Hi : (i <= dim)%nat) by lia.
  split; [apply GP|]. split; [|split; [exact Hi|]].
  - intros j Hj. cbn [se_size elemAt]. rewrite (corner_coords dim n p q _ i P qp pq Q Hn Hi j Hj). fold w.
    symmetry. now apply cexact_k2r.
  - destruct (se_cornersF_spec prec emax Hp He H2 n Hn Nn dim (elemAt dim n k) p q E P Q qp pq eq_refl (fun i _ => GP i)) as (cs & A & _ & X).
    destruct (X i Hi) as (x & X1 & X2). exists x. split; [now exists cs|exact X2].
Qed.
Lemma se_corner_exists : forall dim k r i c, (0 < dim)%nat -> (k < n ^ dim)%nat ->
  corner_at (se_corners dim r (elemAt dim n k)) i c ->
  exists w, gridPoint dim n w /\ agree dim c (cexact dim w) /\ (i <= dim)%nat
  /\ exists x, corner_at (se_cornersF prec emax Hp He dim (elemAt dim n k)) i x /\ forall j, (j < dim)%nat -> nn (x j) (cval dim w j).
Proof.
  intros dim k r i c Hd Hk C. destruct (elem_spec dim n k Hd Hn Hk) as (p & q & E & P & Q & qp & pq & _).
  exact (ex_intro _ _ (se_corner_lattice dim k r p q i c Hd Hk E P Q qp pq C)).
Qed.
(** the exact corners determine the lattice point *)
Lemma cexact_inj : forall dim w w', agree dim (cexact dim w) (cexact dim w') -> agree dim w w'.
Proof.
  intros dim w w' A.
  assert (B : agree dim (fun i => INR (w i) / INR n) (fun i => INR (w' i) / INR n)).
  { rewrite <- (r2k_k2r dim idp (fun i => INR (w i) / INR n)) by apply isPerm_id.
    rewrite <- (r2k_k2r dim idp (fun i => INR (w' i) / INR n)) by apply isPerm_id.
    apply r2k_ext; [apply isPerm_id|]. intros j Hj. rewrite <- !cexact_k2r by exact Hj. now apply A. }
  intros j Hj. specialize (B j Hj). cbv beta in B. apply INR_eq. apply Rmult_eq_reg_r with (/ INR n); [exact B|].
  apply Rinv_neq_0_compat. apply not_0_INR. lia.
Qed.

(** ** triangulations *)
(** the final transformation with floating point operations *)
Inductive FShape : nat -> Triang -> ((nat -> float) -> nat -> float) -> Prop :=
| fs_cube : forall dim, (0 < dim < 256)%nat -> FShape dim (tr_cube dim) (fun p => p)
| fs_prism : FShape 3 tr_prism (fprismTransform prec emax Hp He)
| fs_pyramid : FShape 3 tr_pyramid (fpyramidTransform prec emax Hp He).
Lemma fshape_coarse : forall dim t ft, FShape dim t ft -> exists id, CoarseShape dim t id.
Proof. intros dim t ft []; eexists; constructor; assumption. Qed.
Lemma ft_ext : forall dim t ft, FShape dim t ft -> forall x y, agree dim x y -> agree dim (ft x) (ft y).
Proof.
  intros dim t ft [] x y A i Hi; [now apply A| |]; destruct i as [|[|[|i]]]; try lia; cbn; rewrite ?(A 0%nat), ?(A 1%nat), ?(A 2%nat) by lia; reflexivity.
Qed.
Lemma tr_ext : forall dim t ft, FShape dim t ft -> forall x y, agree dim x y -> agree dim (tr_transform t x) (tr_transform t y).
Proof.
  intros dim t ft [] x y A i Hi; [now apply A| |]; destruct i as [|[|[|i]]]; try lia; cbn; rewrite ?(A 0%nat), ?(A 1%nat), ?(A 2%nat) by lia; reflexivity.
Qed.
Lemma tr_inj : forall dim t ft, FShape dim t ft -> forall x y, agree dim (tr_transform t x) (tr_transform t y) -> agree dim x y.
Proof.
  intros dim t ft [] x y A; [exact A| |]; pose proof (A 0%nat ltac:(lia)) as A0; pose proof (A 1%nat ltac:(lia)) as A1; pose proof (A 2%nat ltac:(lia)) as A2;
    cbn in A0, A1, A2; intros [|[|[|i]]] Hi; try lia; lra.
Qed.
(** one more rounding for the components 1 - p *)
Lemma ft_err : forall dim t ft, FShape dim t ft -> forall (x : nat -> float) (y c : nat -> R) d, d < 1 ->
  (forall j, (j < dim)%nat -> nn (x j) (y j) /\ 0 <= y j /\ 0 <= c j <= 1 /\ Rabs (y j - c j) <= d) ->
  forall j, (j < dim)%nat -> is_finite (ft x j) = true /\ Rabs (B2R (ft x j) - tr_transform t c j) <= d + u.
Proof.
  intros dim t ft S x y c d D H. pose proof (u_pos prec) as U.
  assert (One : nn (ofZ 1) 1) by exact (ofZ_bit prec emax Hp He H2 1%nat Nat.lt_0_1 true).
  assert (A : forall j, (j < dim)%nat -> is_finite (x j) = true /\ Rabs (B2R (x j) - c j) <= d + u).
  { intros j Hj. destruct (H j Hj) as ((F & _ & V) & _ & _ & E). rewrite V. split; [exact F|lra]. }
  assert (B : forall j, (j < dim)%nat -> is_finite (sub (ofZ 1) (x j)) = true /\ Rabs (B2R (sub (ofZ 1) (x j)) - (1 - c j)) <= d + u).
  { intros j Hj. destruct (H j Hj) as ((F & _ & V) & Y0 & C & E). apply Rabs_le_inv in E. destruct One as (F1 & _ & V1).
    destruct (fsub_small prec emax Hp He H2 (ofZ 1) (x j)) as (S1 & S2); try assumption.
    { rewrite V1, V. apply Rabs_le. lra. }
    split; [exact S2|]. rewrite S1, V1, V.
    pose proof (rnd_err prec emax Hp He H2 (1 - y j)) as X.
    assert (Rabs (1 - y j) < 2) by (apply Rabs_def1; lra). specialize (X H0). apply Rabs_le_inv in X. apply Rabs_le. lra. }
  destruct S; intros j Hj; [now apply A| |]; destruct j as [|[|[|j]]]; try lia; cbn [tr_transform tr_prism tr_pyramid prismTransform pyramidTransform fprismTransform fpyramidTransform].
  - apply A. lia.
  - apply B. lia.
  - now apply A.
  - now apply B.
  - now apply B.
  - now apply A.
Qed.

Notation kp dim t k := (permOf dim (tr_perm t k)).
Lemma kp_perm : forall dim t ft k, FShape dim t ft -> (k < tr_count t)%nat ->
  getPermutation dim (tr_perm t k) = Some (kp dim t k) /\ isPerm dim (kp dim t k).
Proof.
  intros dim t ft k S H. apply permOf_spec. destruct S.
  - exact H.
  - destruct k as [|[|[|k]]]; cbn in H |- *; lia.
  - destruct k as [|[|k]]; cbn in H |- *; lia.
Qed.
(** corner [i] of an element of a triangulation *)
Lemma te_corner_lattice : forall dim t ft k r p q i c, FShape dim t ft -> (k < tr_nElements dim t n)%nat -> 4 * INR dim * u < 1 ->
  let e := elemAt dim n (k mod n ^ dim) in
  getPermutation dim (se_kuhn e) = Some p -> isPerm dim p -> isPerm dim q ->
  (forall i, (i < dim)%nat -> q (p i) = i) -> (forall i, (i < dim)%nat -> p (q i) = i) ->
  corner_at (te_corners dim t r (teAt dim n k)) i c ->
  let w := cornerAt q (se_origin e) (chainPos q i) in let s := kp dim t (k / n ^ dim) in
  gridPoint dim n w /\ isPerm dim s /\ (k / n ^ dim < tr_count t)%nat
  /\ agree dim c (tr_transform t (referenceToKuhn Rplus dim (cexact dim w) s))
  /\ exists y x, corner_at (te_cornersF prec emax Hp He dim t ft (teAt dim n k)) i x /\ agree dim x (ft y)
       /\ forall j, (j < dim)%nat -> nn (y j) (referenceToKuhn radd dim (cval dim w) s j)
            /\ 0 <= referenceToKuhn radd dim (cval dim w) s j
            /\ Rabs (referenceToKuhn radd dim (cval dim w) s j - referenceToKuhn Rplus dim (cexact dim w) s j) <= 4 * INR dim * u.
Proof.
  intros dim t ft k r p q i c S Hk Sm e E P Q qp pq C w s.
  destruct (fshape_coarse dim t ft S) as (id & CS).
  assert (Hd : (0 < dim)%nat) by (destruct S; lia).
  assert (NP : (0 < n ^ dim)%nat) by (pose proof (Nat.pow_nonzero n dim); lia).
  assert (K1 : (k / n ^ dim < tr_count t)%nat) by (apply Nat.div_lt_upper_bound; [lia|exact Hk]).
  assert (K2 : (k mod n ^ dim < n ^ dim)%nat) by (apply Nat.mod_upper_bound; lia).
  destruct (kp_perm dim t ft _ S K1) as (G & PS). fold s in G, PS.
  assert (HP : forall k, (k < tr_count t)%nat -> (tr_perm t k < fact dim)%nat).
  { intros l Hl. destruct S; [exact Hl| |]; destruct l as [|[|[|l]]]; cbn in Hl |- *; lia. }
  rewrite (te_corners_eq dim t Hd HP r (teAt dim n k) p K1 E) in C. apply corner_at_map in C. destruct C as (L & ->).
  destruct (se_corner_lattice dim (k mod n ^ dim) r p q i (Gmap dim p (se_origin e) n (sc i)) Hd K2 E P Q qp pq) as (GP & A & Hi & x & X1 & X2).
  { unfold e. rewrite (se_corners_eq dim r (elemAt dim n (k mod n ^ dim)) p E). apply corner_at_map. split; [exact L|reflexivity]. }
  fold e in GP, A, X1, X2. fold w in GP, A, X2.
  split; [exact GP|]. split; [exact PS|]. split; [exact K1|]. split.
  - apply (tr_ext dim t ft S). fold s. apply r2k_ext; [exact PS|exact A].
  - exists (referenceToKuhn add dim x s), (ft (referenceToKuhn add dim x s)). split; [|split].
    + destruct X1 as (cs & Ec & Ex). unfold te_cornersF, teAt. cbn [te_backend]. fold e. rewrite Ec. cbn [obind].
      destruct (se_cornersF_spec prec emax Hp He H2 n Hn Nn dim e p q E P Q qp pq eq_refl) as (cs' & Ec' & Len & All).
      { intros l Hl. destruct (elem_spec dim n _ Hd Hn K2) as (p1 & q1 & E1 & P1 & Q1 & qp1 & pq1 & D & B & IC & _). fold e in E1, D, B, IC.
        assert (p1 = p) by congruence. subst p1.
        apply corner_grid; try assumption. intros m Hm.
        assert (QQ : forall i, (i < dim)%nat -> q1 i = q i) by (intros a Ha; pose proof (proj1 Q a Ha); rewrite <- (pq a Ha) at 1; now apply qp1).
        rewrite <- !QQ by lia. now apply IC. }
      assert (cs' = cs) by congruence. subst cs'.
      rewrite (sequence_map _ (fun i => ft (referenceToKuhn add dim (nth i cs (fun _ => ofZ 0)) s))).
      * apply corner_at_map. split; [lia|]. now rewrite (nth_error_nth cs i _ Ex).
      * intros a Ia. apply in_seq in Ia. destruct (All a ltac:(lia)) as (xa & Xa & _). rewrite Xa, (nth_error_nth cs a _ Xa). cbn [obind].
        unfold te_globalF. cbn [te_kuhn]. rewrite G. reflexivity.
    + intros j Hj. reflexivity.
    + apply corner_chain; assumption.
Qed.
Lemma tv_lattice : forall dim t ft k c, FShape dim t ft -> (k < tr_nVertices dim t n)%nat -> 2 * INR dim * u < 1 ->
  tv_coords dim t (tvAt dim n k) = Some c ->
  let s := kp dim t (k / sx_nVertices dim n) in
  exists w, gridPoint dim n w /\ isPerm dim s
  /\ agree dim c (tr_transform t (referenceToKuhn Rplus dim (cexact dim w) s))
  /\ exists y x, tv_coordsF prec emax Hp He dim t ft (tvAt dim n k) = Some x /\ agree dim x (ft y)
       /\ forall j, (j < dim)%nat -> nn (y j) (referenceToKuhn radd dim (fun j => vh (dl dim w j)) s j)
            /\ 0 <= referenceToKuhn radd dim (fun j => vh (dl dim w j)) s j
            /\ Rabs (referenceToKuhn radd dim (fun j => vh (dl dim w j)) s j - referenceToKuhn Rplus dim (cexact dim w) s j) <= 2 * INR dim * u.
Proof.
  intros dim t ft k c S Hk Sm C s.
  assert (Hd : (0 < dim)%nat) by (destruct S; lia).
  pose proof (nvpos dim n) as NP.
  assert (K1 : (k / sx_nVertices dim n < tr_count t)%nat) by (apply Nat.div_lt_upper_bound; [lia|exact Hk]).
  assert (K2 : (k mod sx_nVertices dim n < sx_nVertices dim n)%nat) by (apply Nat.mod_upper_bound; lia).
  destruct (kp_perm dim t ft _ S K1) as (G & PS). fold s in G, PS.
  set (v := svAt dim n (k mod sx_nVertices dim n)) in *.
  assert (GP : gridPoint dim n (sv_vertex v)).
  { split; [intros _; apply vseq_bound; [exact Hd|exact K2]|]. intros a Ha. apply (vseq_decr dim _ Hd). exact Ha. }
  exists (sv_vertex v). split; [exact GP|]. split; [exact PS|].
  destruct (sv_coordsF_spec prec emax Hp He H2 n Hn Nn dim v eq_refl GP) as (x & X1 & X2).
  split.
  - unfold tv_coords, tvAt in C. cbn [tv_backend tv_kuhn] in C. fold v in C. rewrite sv_coords_eq in C by exact Hd. cbn [obind] in C.
    rewrite G in C. cbn [obind] in C. injection C as <-. apply (tr_ext dim t ft S). apply r2k_ext; [exact PS|].
    intros j Hj. symmetry. now apply cexact_k2r.
  - exists (referenceToKuhn add dim x s), (ft (referenceToKuhn add dim x s)). split; [|split].
    + unfold tv_coordsF, tvAt. cbn [tv_backend tv_kuhn]. fold v. rewrite X1. cbn [obind]. rewrite G. reflexivity.
    + intros j Hj. reflexivity.
    + apply vertex_chain; assumption.
Qed.

(** ** equality of corners *)
Lemma chain_int : forall dim w p, gridPoint dim n w -> isPerm dim p -> forall j, (j < dim)%nat ->
  INR (referenceToKuhn Nat.add dim (dl dim w) p j) / INR n = referenceToKuhn Rplus dim (cexact dim w) p j.
Proof.
  intros w0 w p G P j Hj. rename w0 into dim.
  destruct (r2k_spec Nat.add dim p (dl dim w) P) as (A1 & A2 & _). destruct (r2k_spec Rplus dim p (cexact dim w) P) as (B1 & B2 & _).
  assert (X : forall m i, (i + m = dim - 1)%nat -> (i < dim)%nat ->
    INR (referenceToKuhn Nat.add dim (dl dim w) p (p i)) / INR n = referenceToKuhn Rplus dim (cexact dim w) p (p i)).
  { induction m as [|m IH]; intros i Ei Hi; (assert (Pi : (p i < dim)%nat) by now apply P).
    - assert (i = dim - 1)%nat by lia. subst i. rewrite A2, B2 by lia. now apply dl_exact.
    - rewrite A1, B1 by lia. rewrite plus_INR. unfold Rdiv. rewrite Rmult_plus_distr_r. fold (INR (dl dim w (p i)) / INR n).
      rewrite dl_exact by assumption. f_equal. apply IH; lia. }
  destruct (perm_onto dim p P j Hj) as (i & Hi & <-). apply (X (dim - 1 - i)%nat); lia.
Qed.
Lemma sep : forall a b, INR n * Rabs (INR a / INR n - INR b / INR n) < 1 -> a = b.
Proof.
  intros a b H. assert (NP : 0 < INR n) by now apply lt_0_INR.
  assert (E : INR n * Rabs (INR a / INR n - INR b / INR n) = Rabs (INR a - INR b)).
  { rewrite <- (Rabs_pos_eq (INR n)) at 1 by lra. rewrite <- Rabs_mult. f_equal. field. lra. }
  rewrite E in H. rewrite !INR_IZR_INZ, <- minus_IZR, <- abs_IZR in H. apply lt_IZR in H. lia.
Qed.
(** the exact points are separated by at least 1/n *)
Lemma tr_sep : forall dim t ft w w' s s' c c', FShape dim t ft -> gridPoint dim n w -> gridPoint dim n w' -> isPerm dim s -> isPerm dim s' ->
  agree dim c (tr_transform t (referenceToKuhn Rplus dim (cexact dim w) s)) ->
  agree dim c' (tr_transform t (referenceToKuhn Rplus dim (cexact dim w') s')) ->
  (forall j, (j < dim)%nat -> INR n * Rabs (c j - c' j) < 1) -> agree dim c c'.
Proof.
  intros dim t ft w w' s s' c c' S G G' P P' A A' H.
  assert (NP : 0 < INR n) by now apply lt_0_INR.
  enough (E : agree dim (referenceToKuhn Rplus dim (cexact dim w) s) (referenceToKuhn Rplus dim (cexact dim w') s')).
  { intros j Hj. rewrite (A j Hj), (A' j Hj). now apply (tr_ext dim t ft S). }
  assert (X : forall i j, (i < dim)%nat -> (j < dim)%nat ->
    (c j - c' j = referenceToKuhn Rplus dim (cexact dim w) s i - referenceToKuhn Rplus dim (cexact dim w') s' i
     \/ c j - c' j = - (referenceToKuhn Rplus dim (cexact dim w) s i - referenceToKuhn Rplus dim (cexact dim w') s' i)) ->
    referenceToKuhn Rplus dim (cexact dim w) s i = referenceToKuhn Rplus dim (cexact dim w') s' i).
  { intros i j Hi Hj E. specialize (H j Hj). rewrite <- !chain_int in E |- * by assumption. f_equal. f_equal. apply sep.
    destruct E as [E|E]; rewrite E in H; [exact H|]. now rewrite Rabs_Ropp in H. }
  destruct S; intros i Hi; [apply (X i i Hi Hi); left; rewrite (A i Hi), (A' i Hi); reflexivity| |];
    pose proof (A 0%nat ltac:(lia)) as A0; pose proof (A 1%nat ltac:(lia)) as A1; pose proof (A 2%nat ltac:(lia)) as A2;
    pose proof (A' 0%nat ltac:(lia)) as B0; pose proof (A' 1%nat ltac:(lia)) as B1; pose proof (A' 2%nat ltac:(lia)) as B2;
    cbn [tr_transform tr_prism tr_pyramid prismTransform pyramidTransform] in A0, A1, A2, B0, B1, B2; unfold prismTransform, pyramidTransform in *;
    destruct i as [|[|[|i]]]; try lia.
  - apply (X 0%nat 1%nat); try lia. right. rewrite A1, B1. ring.
  - apply (X 1%nat 0%nat); try lia. left. rewrite A0, B0. ring.
  - apply (X 2%nat 2%nat); try lia. left. rewrite A2, B2. ring.
  - apply (X 0%nat 0%nat); try lia. right. rewrite A0, B0. ring.
  - apply (X 1%nat 1%nat); try lia. right. rewrite A1, B1. ring.
  - apply (X 2%nat 2%nat); try lia. left. rewrite A2, B2. ring.
Qed.

(** the same point of two Kuhn simplices whose permutations differ by the exchange of the first two entries *)
Lemma front_conform : forall dim w w' p p', (2 <= dim)%nat -> gridPoint dim n w -> gridPoint dim n w' -> isPerm dim p -> isPerm dim p' ->
  p 0%nat = 0%nat -> p 1%nat = 1%nat -> p' 0%nat = 1%nat -> p' 1%nat = 0%nat -> (forall i, (2 <= i < dim)%nat -> p i = i /\ p' i = i) ->
  agree dim (referenceToKuhn Rplus dim (cexact dim w) p) (referenceToKuhn Rplus dim (cexact dim w') p') ->
  agree dim (referenceToKuhn radd dim (cval dim w) p) (referenceToKuhn radd dim (cval dim w') p').
Proof.
  intros dim w w' p p' D G G' P P' p0 p1 p0' p1' pi A.
  assert (NP : 0 < INR n) by now apply lt_0_INR.
  assert (IC : agree dim (referenceToKuhn Nat.add dim (dl dim w) p) (referenceToKuhn Nat.add dim (dl dim w') p')).
  { intros j Hj. apply INR_eq. apply Rmult_eq_reg_r with (/ INR n); [|apply Rinv_neq_0_compat; lra].
    pose proof (A j Hj) as E. rewrite <- !chain_int in E by assumption. exact E. }
  (* the tails agree *)
  destruct (r2k_spec Nat.add dim p (dl dim w) P) as (A1 & A2 & _). destruct (r2k_spec Nat.add dim p' (dl dim w') P') as (A1' & A2' & _).
  destruct (r2k_spec radd dim p (cval dim w) P) as (B1 & B2 & _). destruct (r2k_spec radd dim p' (cval dim w') P') as (B1' & B2' & _).
  set (a := referenceToKuhn Nat.add dim (dl dim w) p) in *. set (a' := referenceToKuhn Nat.add dim (dl dim w') p') in *.
  set (b := referenceToKuhn radd dim (cval dim w) p) in *. set (b' := referenceToKuhn radd dim (cval dim w') p') in *.
  assert (Sum : forall m i, (2 <= i)%nat -> (i + m = dim - 1)%nat -> (i < dim)%nat -> a i = w i /\ a' i = w' i).
  { induction m as [|m IH]; intros i I2 Ei Hi.
    - assert (i = dim - 1)%nat by lia. subst i. destruct (pi (dim - 1)%nat ltac:(lia)) as (q1 & q2). specialize (A2 ltac:(lia)). specialize (A2' ltac:(lia)).
      rewrite q1 in A2. rewrite q2 in A2'. rewrite A2, A2'. unfold dl. destruct (Nat.ltb_spec (S (dim - 1)) dim); lia.
    - destruct (pi i ltac:(lia)) as (q1 & q2). destruct (pi (S i) ltac:(lia)) as (q3 & q4). specialize (A1 i ltac:(lia)). specialize (A1' i ltac:(lia)).
      rewrite q1, q3 in A1. rewrite q2, q4 in A1'. destruct (IH (S i) ltac:(lia) ltac:(lia) ltac:(lia)) as (I3 & I4). rewrite A1, A1', I3, I4.
      pose proof (proj2 G i ltac:(lia)). pose proof (proj2 G' i ltac:(lia)).
      unfold dl. destruct (Nat.ltb_spec (S i) dim); lia. }
  assert (WT : forall i, (2 <= i < dim)%nat -> w i = w' i).
  { intros i Hi. destruct (Sum (dim - 1 - i)%nat i ltac:(lia) ltac:(lia) ltac:(lia)) as (<- & <-). apply IC. lia. }
  (* the two leading entries *)
  set (v := if Nat.ltb 2 dim then w 2%nat else 0%nat). set (v' := if Nat.ltb 2 dim then w' 2%nat else 0%nat).
  assert (VV : v = v') by (unfold v, v'; destruct (Nat.ltb_spec 2 dim); [apply WT; lia|reflexivity]).
  assert (E0 : forall x, dl dim x 0 = (x 0 - x 1)%nat) by (intros x; unfold dl; now rewrite (proj2 (Nat.ltb_lt 1 dim)) by lia).
  pose proof (proj2 G 0%nat ltac:(lia)) as G0. pose proof (proj2 G' 0%nat ltac:(lia)) as G0'.
  assert (Gv : (v <= w 1)%nat) by (unfold v; destruct (Nat.ltb_spec 2 dim); [apply (proj2 G); lia|lia]).
  assert (Gv' : (v' <= w' 1)%nat) by (unfold v'; destruct (Nat.ltb_spec 2 dim); [apply (proj2 G'); lia|lia]).
  assert (a1 : a 1%nat = w 1%nat /\ a' 0%nat = (w' 0 - w' 1 + v')%nat).
  { destruct (Nat.eq_dec dim 2) as [D2|D2].
    - specialize (A2 ltac:(lia)). specialize (A2' ltac:(lia)). replace (dim - 1)%nat with 1%nat in A2, A2' by lia.
      rewrite p1 in A2. rewrite p1' in A2'. rewrite A2, A2', E0. unfold v'. destruct (Nat.ltb_spec 2 dim); [lia|].
      unfold dl. destruct (Nat.ltb_spec 2 dim); lia.
    - specialize (A1 1%nat ltac:(lia)). specialize (A1' 1%nat ltac:(lia)). destruct (pi 2%nat ltac:(lia)) as (q1 & q2).
      rewrite p1, q1 in A1. rewrite p1', q2 in A1'. destruct (Sum (dim - 3)%nat 2%nat ltac:(lia) ltac:(lia) ltac:(lia)) as (S1 & S2).
      rewrite A1, A1', E0, S1, S2. unfold v in Gv. unfold v'. unfold dl. destruct (Nat.ltb_spec 2 dim); lia. }
  destruct a1 as (a1 & a0').
  pose proof (A1 0%nat ltac:(lia)) as a0. pose proof (A1' 0%nat ltac:(lia)) as a1'. rewrite p0, p1, E0, a1 in a0.
  rewrite p0', p1', a0' in a1'.
  assert (a1'' : a' 1%nat = w' 0%nat).
  { rewrite a1'. unfold v' in *. unfold dl. destruct (Nat.ltb_spec 2 dim); lia. }
  pose proof (IC 0%nat ltac:(lia)) as IC0. pose proof (IC 1%nat ltac:(lia)) as IC1.
  assert (w1 : w 1%nat = w' 0%nat) by lia. assert (w0 : w 0%nat = w 1%nat) by lia. assert (w2 : w' 1%nat = v') by lia.
  (* the computed values *)
  assert (C0 : forall x, cval dim x 0 = rnd (vh (x 0%nat) - vh (x 1%nat))) by (intros x; unfold P_FloatRef.cval; now rewrite (proj2 (Nat.ltb_lt 1 dim)) by lia).
  assert (C1 : forall x, cval dim x 1 = rnd (vh (x 1%nat) - vh (if Nat.ltb 2 dim then x 2%nat else 0%nat))).
  { intros x. unfold P_FloatRef.cval. destruct (Nat.ltb_spec 2 dim); [reflexivity|]. now rewrite vh_0. }
  assert (Z0 : rnd 0 = 0) by (apply round_0; typeclasses eauto).
  assert (bT : forall m i, (2 <= i)%nat -> (i + m = dim - 1)%nat -> (i < dim)%nat -> b i = b' i).
  { assert (CT : forall i, (2 <= i < dim)%nat -> cval dim w i = cval dim w' i).
    { intros i Hi. unfold P_FloatRef.cval. rewrite (WT i Hi). destruct (Nat.ltb_spec (S i) dim); [|reflexivity]. now rewrite (WT (S i)) by lia. }
    induction m as [|m IH]; intros i I2 Ei Hi.
    - assert (i = dim - 1)%nat by lia. subst i. destruct (pi (dim - 1)%nat ltac:(lia)) as (q1 & q2). specialize (B2 ltac:(lia)). specialize (B2' ltac:(lia)).
      rewrite q1 in B2. rewrite q2 in B2'. rewrite B2, B2'. apply CT. lia.
    - destruct (pi i ltac:(lia)) as (q1 & q2). destruct (pi (S i) ltac:(lia)) as (q3 & q4). specialize (B1 i ltac:(lia)). specialize (B1' i ltac:(lia)).
      rewrite q1, q3 in B1. rewrite q2, q4 in B1'. rewrite B1, B1', CT by lia. f_equal. apply IH; lia. }
  assert (FB : forall i, (i < dim)%nat -> rnd (b' i) = b' i).
  { intros i Hi. apply rnd_id. destruct (perm_onto dim p' P' i Hi) as (j & Hj & <-). destruct (Nat.eq_dec (S j) dim) as [Ej|Nj].
    - assert (j = dim - 1)%nat by lia. subst j. rewrite B2' by lia. now apply rnd_fmt.
    - rewrite B1' by lia. now apply rnd_fmt. }
  assert (b1 : b 1%nat = b' 0%nat).
  { destruct (Nat.eq_dec dim 2) as [D2|D2].
    - specialize (B2 ltac:(lia)). specialize (B2' ltac:(lia)). replace (dim - 1)%nat with 1%nat in B2, B2' by lia.
      rewrite p1 in B2. rewrite p1' in B2'. rewrite B2, B2', C0, C1. fold v. rewrite w1, w2, VV. reflexivity.
    - specialize (B1 1%nat ltac:(lia)). specialize (B1' 1%nat ltac:(lia)). destruct (pi 2%nat ltac:(lia)) as (q1 & q2).
      rewrite p1, q1 in B1. rewrite p1', q2 in B1'. rewrite B1, B1', C0, C1. fold v. rewrite w1, w2, VV. f_equal. apply (bT (dim - 3)%nat); lia. }
  assert (b0 : b 0%nat = b 1%nat).
  { pose proof (B1 0%nat ltac:(lia)) as E. rewrite p0, p1, C0, w0, Rminus_eq_0, Z0 in E. rewrite E, b1. unfold P_FloatRef2.radd. rewrite Rplus_0_l. apply FB. lia. }
  assert (b1' : b' 1%nat = b' 0%nat).
  { pose proof (B1' 0%nat ltac:(lia)) as E. rewrite p0', p1', C1 in E. fold v' in E. rewrite w2, Rminus_eq_0, Z0 in E. rewrite E. unfold P_FloatRef2.radd. rewrite Rplus_0_l. apply FB. lia. }
  intros j Hj. destruct j as [|[|j]]; [congruence..|]. apply (bT (dim - 1 - S (S j))%nat); lia.
Qed.
End FP.
