(** * C66  Corners of refined elements pass the test of the reference element *)
From Coq Require Import PeanoNat NArith ZArith Bool List Reals Lra Lia Factorial.
From Flocq Require Import Core IEEE754.BinarySingleNaN.
From Verif Require Import M_Type M_RefTopo M_RefGeo M_Matrix M_MultiLinear M_Float M_Refine M_FloatRefine S_RefGeo S_Refine S_Refine2 S_Matrix
  P_RSum P_RefGeo2 P_RefGeo3 P_Refine1 P_Refine7 P_Refine8 P_Refine9 T_Refine P_Float P_FloatNear T_Float P_FloatRef P_FloatRef2 P_FloatRef3 T_FloatRef.
Import ListNotations.
Local Open Scope R_scope.

Lemma hull_nth : forall n (cs : list Vec) i c, nth_error cs i = Some c -> in_hull n cs c.
Proof.
  intros n cs i c H. assert (L : (i < length cs)%nat) by (apply nth_error_Some; congruence).
  exists (fun j => if Nat.eqb j i then 1 else 0). split; [|split].
  - intros j _. destruct (Nat.eqb j i); lra.
  - rewrite Ssum_rsum. now apply (rsum_delta (length cs) i (fun _ => 1)).
  - intros k _. rewrite Ssum_rsum. rewrite (rsum_ext _ _ (fun j => if Nat.eqb j i then c k else 0)).
    + symmetry. now apply (rsum_delta (length cs) i (fun _ => c k)).
    + intros j _. destruct (Nat.eqb_spec j i) as [->|]; [|ring]. rewrite (nth_error_nth _ _ _ H). ring.
Qed.

Section C66.
Variables (prec emax : Z).
Context (Hp : Prec_gt_0 prec) (He : Prec_lt_emax prec emax).
Notation u := (bpow radix2 (- prec)).
Hypothesis H7 : (7 <= prec)%Z.
Variable n : nat.
Hypothesis Hn : (0 < n)%nat.
Hypothesis Nn : INR n <= bpow radix2 prec.

Lemma near_const : forall id dim (x : nat -> binary_float prec emax) (y : nat -> R) d,
  in_hull dim (referenceCorners id dim) y -> (forall k, (k < dim)%nat -> is_finite (x k) = true /\ Rabs (B2R (x k) - y k) <= d * u) ->
  INR dim * (1 + d) < 128 -> re_checkInside prec emax Hp He id dim x = true.
Proof.
  intros id dim x y d Hy Hx L. apply (near_hull prec emax Hp He ltac:(lia) H7 id dim x y (fun _ => d * u) Hy Hx).
  rewrite rsum_const. pose proof (u_pos prec). nra.
Qed.

(** simplex: dimensions up to 31 *)
Theorem C66_simplex_inside : forall fuel dim st r, (0 < dim <= 31)%nat -> (fact dim <= fuel)%nat -> simplexElements fuel dim n st ->
  forall k i c x, (k < n ^ dim)%nat -> corner_at (se_corners dim r (st k)) i c -> corner_at (se_cornersF prec emax Hp He dim (st k)) i x ->
  re_checkInside prec emax Hp He simplexId dim x = true.
Proof.
  intros fuel dim st r Hd Hf ES k i c x Hk C X.
  destruct (C66_simplex_corners prec emax Hp He ltac:(lia) n Hn Nn fuel dim st r ltac:(lia) Hf ES k i c Hk C) as (x' & X' & V).
  assert (x' = x) as -> by (destruct X as (l & E1 & E2), X' as (l' & E3 & E4); congruence).
  apply (near_const simplexId dim x c 3).
  - destruct C as (cs & E & N). eapply (C52_inside fuel dim n r st ltac:(lia) Hn Hf ES k); [exact Hk| |].
    + unfold se_geometry. rewrite E. reflexivity.
    + cbn [ml_corners]. eapply hull_nth. exact N.
  - intros j Hj. destruct (V j Hj) as (V1 & _ & V2). split; assumption.
  - destruct Hd as (_ & Hd). apply le_INR in Hd. replace (INR 31) with 31 in Hd by (rewrite INR_IZR_INZ; reflexivity). lra.
Qed.

(** triangulations of cube, prism and pyramid: dimensions up to 5 *)
Theorem C66_inside : forall fuel dim t ft id st r, FShape prec emax Hp He dim t ft -> CoarseShape dim t id -> (dim <= 5)%nat -> (fact dim <= fuel)%nat ->
  triangElements fuel dim t n st ->
  forall k i c x, (k < tr_nElements dim t n)%nat -> corner_at (te_corners dim t r (st k)) i c -> corner_at (te_cornersF prec emax Hp He dim t ft (st k)) i x ->
  re_checkInside prec emax Hp He id dim x = true.
Proof.
  intros fuel dim t ft id st r Sh Co Hd Hf ES k i c x Hk C X.
  assert (D5 : INR dim <= 5) by (apply le_INR in Hd; replace (INR 5) with 5 in Hd by (rewrite INR_IZR_INZ; reflexivity); lra).
  assert (U : u <= / 128) by (apply Rle_trans with (bpow radix2 (-7)); [apply bpow_le; lia|cbn; lra]).
  pose proof (u_pos prec) as U0. pose proof (pos_INR dim) as D0.
  destruct (C66_corners prec emax Hp He ltac:(lia) n Hn Nn fuel dim t ft st (tvAt dim n) r Sh Hf ES (tvertices dim t n (shape_dim _ _ _ Co) Hn) k i c Hk ltac:(nra) C) as (x' & X' & V).
  assert (x' = x) as -> by (destruct X as (l & E1 & E2), X' as (l' & E3 & E4); congruence).
  apply (near_const id dim x c (4 * INR dim + 1)).
  - destruct C as (cs & E & N). eapply (C53_inside fuel dim t id n r st Co Hn Hf ES k); [exact Hk| |].
    + unfold te_geometry. rewrite E. reflexivity.
    + cbn [ml_corners]. eapply hull_nth. exact N.
  - exact V.
  - nra.
Qed.
End C66.
Print Assumptions C66_simplex_inside.
Print Assumptions C66_inside.
