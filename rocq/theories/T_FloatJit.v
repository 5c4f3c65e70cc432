(** C106, continued: the determinant that the inverse of the Jacobian carries, in IEEE arithmetic *)
From Coq Require Import PeanoNat NArith ZArith Bool List Reals Lra Lia.
From Flocq Require Import Core IEEE754.BinarySingleNaN.
From Verif Require Import M_Type M_RefTopo M_RefGeo M_Matrix M_Affine M_Float M_FloatGlobal M_FloatLocal M_FloatVolume M_FloatCache P_Matrix T_Float T_FloatLocal T_FloatAgree3 T_FloatMem T_FloatCache.
Import ListNotations.

Section T.
Variables (prec emax : Z).
Context (Hp : Prec_gt_0 prec) (He : Prec_lt_emax prec emax).
Notation float := (binary_float prec emax).
Notation FVec := (nat -> float).
Notation FMat := (nat -> nat -> float).

(** MultiLinearGeometry: detInv() of the returned inverse has the bits of integrationElement at the same point, or both are undefined, for every element type, corners and point; not for surfaces and volumes in space. *)
Theorem C106_detInv : forall cdim id dim jm jk j1 j2 l1 l2 vs x, (dim <= cdim)%nat -> ~ (cdim = 3 /\ (dim = 2 \/ dim = 3))%nat ->
  answer (fmlg_jacobianInverseTransposed prec emax Hp He cdim id dim jm jk j1 j2 vs x) = fmlg_integrationElement prec emax Hp He cdim id dim jm jk l1 l2 vs x.
Proof.
  intros cdim id dim jm jk j1 j2 l1 l2 vs x L N. unfold fmlg_jacobianInverseTransposed, fmlg_integrationElement. destruct (fmlg_jacobianTransposed _ _ _ _ _ _ _ _ _ _ _) as [A|]; [|reflexivity]. cbn [obind].
  unfold answer. rewrite (det_rinv prec emax Hp He cdim dim j1 j2 A jm L N). apply C104_determinant. intros i k _ _. reflexivity.
Qed.
(** In the plane neither is ever undefined, not even on degenerate elements. *)
Theorem C106_plane : forall id jm jk j1 j2 vs x A, fmlg_jacobianTransposed prec emax Hp He 2 id 2 jm jk vs x = Some A ->
  exists D J, fmlg_jacobianInverseTransposed prec emax Hp He 2 id 2 jm jk j1 j2 vs x = Some (D, J) /\ fmlg_integrationElement prec emax Hp He 2 id 2 jm jk j1 j2 vs x = Some D /\
    D = Babs (fdet22 prec emax Hp He A).
Proof.
  intros id jm jk j1 j2 vs x A E. unfold fmlg_jacobianInverseTransposed, fmlg_integrationElement. rewrite E. cbn [obind]. unfold frightInvA, fsqrtDetAAT. cbn [Nat.eqb andb].
  eexists _, _. split; [unfold finv22; reflexivity|]. split; reflexivity.
Qed.
(** CachedMultiLinearGeometry: the inverse carries the determinant integrationElement returns afterwards, in all dimensions, for affine elements and any history. *)
Theorem C106_carried : forall cdim id dim (jv : FVec) jm jk j1 j2 vs jit0 d0 c0 qs c x y D J c', fk_make prec emax Hp He cdim id dim jm jk vs jit0 d0 = Some c0 -> fk_affine prec emax c0 = true ->
  fk_run prec emax Hp He cdim id dim jm jk j1 j2 vs c0 qs = Some c -> fk_jacobianInverseTransposed prec emax Hp He cdim id dim jm jk j1 j2 vs c x = Some (D, J, c') ->
  answer (fk_integrationElement prec emax Hp He cdim id dim jm jk j1 j2 vs c' y) = Some D.
Proof.
  intros cdim id dim jv jm jk j1 j2 vs jit0 d0 c0 qs c x y D J c' M Ha E EJ.
  assert (R : forall q c1 c2, fk_run prec emax Hp He cdim id dim jm jk j1 j2 vs c1 q = Some c2 -> fk_run prec emax Hp He cdim id dim jm jk j1 j2 vs c1 (q ++ [FJIT prec emax x]) = option_map snd (fk_jacobianInverseTransposed prec emax Hp He cdim id dim jm jk j1 j2 vs c2 x)).
  { induction q as [|a q IH]; intros c1 c2 E1; cbn [app fk_run] in *.
    - injection E1 as <-. cbn [fk_call]. destruct (fk_jacobianInverseTransposed _ _ _ _ _ _ _ _ _ _ _ _ c1 x) as [(p, e)|]; reflexivity.
    - destruct (fk_call _ _ _ _ _ _ _ _ _ _ _ _ c1 a) as [c3|]; [|discriminate E1]. cbn [obind] in *. now apply IH. }
  specialize (R qs c0 c E). rewrite EJ in R. cbn [option_map snd] in R.
  rewrite (proj1 (C106_integration prec emax Hp He cdim id dim jv jm jk j1 j2 vs jit0 d0 c0 _ c' y M R Ha)). rewrite existsb_app. cbn [existsb]. rewrite orb_true_r. cbn [orb].
  pose proof (proj2 (C106_inverse prec emax Hp He cdim id dim jv jm jk j1 j2 vs jit0 d0 c0 qs c x M E)) as K. rewrite EJ in K. unfold fk_jacobianInverseTransposed in K. rewrite Ha in K.
  destruct (make_fresh prec emax Hp He cdim id dim jm jk vs jit0 d0 c0 M) as (F & _). rewrite F in K. cbn [negb] in K.
  destruct (frightInvA _ _ _ _ _ _ _ _ _ _) as [(d, Q)|]; [|discriminate K]. cbn in K |- *. congruence.
Qed.
End T.
Print Assumptions C106_detInv.
Print Assumptions C106_plane.
Print Assumptions C106_carried.

(** the trapezoid (0,0), (2,0), (0,1), (1,1) at (0,1/2): determinant 3/2; a quadrilateral collapsed to a segment: determinant 0 and infinite or nan entries, no assertion *)
Example C106_detInv_example :
  let zz := fun _ _ : nat => sgl 0 0 in let x := two (sgl 0 0) (sgl 1 (-1)) in
  let ask := fun vs => option_map (fun p => (B2SF (fst p), B2SF (snd p 0%nat 0%nat))) (fmlg_jacobianInverseTransposed 24 128 p24 e128 2 3 2 zz zz zz zz vs x) in
  ask [two (sgl 0 0) (sgl 0 0); two (sgl 2 0) (sgl 0 0); two (sgl 0 0) (sgl 1 0); two (sgl 1 0) (sgl 1 0)] = Some (B2SF (sgl 3 (-1)), B2SF (sgl 11184811 (-24))) /\
  ask [two (sgl 0 0) (sgl 0 0); two (sgl 1 0) (sgl 0 0); two (sgl 0 0) (sgl 0 0); two (sgl 1 0) (sgl 0 0)] = Some (B2SF (sgl 0 0), SpecFloat.S754_nan).
Proof. split; vm_compute; reflexivity. Qed.
