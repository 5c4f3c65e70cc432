(** C106, continued: on simplices CachedMultiLinearGeometry becomes AffineGeometry with the first call of jacobianInverseTransposed, in IEEE arithmetic *)
From Coq Require Import PeanoNat NArith ZArith Bool List Reals Lra Lia.
From Flocq Require Import Core IEEE754.BinarySingleNaN.
From Verif Require Import M_Type M_RefTopo M_RefGeo M_Matrix M_MultiLinear M_Affine M_Float M_FloatGlobal M_FloatLocal M_FloatVolume M_FloatCache S_Topo S_RefGeo S_Matrix S_MultiLinear S_FloatGlobal
  P_Matrix P_Type P_RefTopo P_RefTopo3 P_RSum P_RefGeo P_RefGeo2 P_RefGeo3 P_RefGeo4 P_ML1 P_ML2 P_ML3 P_ML4 P_FloatGlobal P_FloatGlobal5 P_FloatGlobal6 P_FloatGlobal7
  T_RefGeo T_Float T_FloatGlobal T_FloatLocal T_FloatAgree3 T_FloatMem T_FloatCache.
Import ListNotations.

Section T.
Variables (prec emax : Z).
Context (Hp : Prec_gt_0 prec) (He : Prec_lt_emax prec emax).
Notation float := (binary_float prec emax).
Notation FVec := (nat -> float).
Notation FMat := (nat -> nat -> float).
Notation veq := (veq prec emax).
Notation meq := (meq prec emax).
Notation isJIT q := (match q with FJIT _ => true | _ => false end).

(** The inverse always has the bits of AffineGeometry, whatever was called before.  After a call of jacobianInverseTransposed the integration element, the volume and local have them too.  Where the constructor of AffineGeometry violates an assertion, so does jacobianInverseTransposed. *)
Theorem C106_simplex : (6 <= prec)%Z -> forall id dim, (id < bit dim)%N -> isSimplex (GT2 id dim) = true ->
  forall cdim jv jm jk j1 j2 ret l1 l2 jit0 d0 vs, (dim <= cdim)%nat -> length vs = size id dim dim ->
  exists c0, fk_make prec emax Hp He cdim id dim jm jk vs jit0 d0 = Some c0 /\ fk_affine prec emax c0 = true /\
  match fai_corners prec emax Hp He dim cdim vs ret l1 l2 with
  | None => forall x, fk_jacobianInverseTransposed prec emax Hp He cdim id dim jm jk j1 j2 vs c0 x = None
  | Some g => forall qs c, fk_run prec emax Hp He cdim id dim jm jk j1 j2 vs c0 qs = Some c ->
      (forall x, exists J, answer (fk_jacobianInverseTransposed prec emax Hp He cdim id dim jm jk j1 j2 vs c x) = Some (fai_int prec emax g, J) /\ meq cdim dim J (fai_jit prec emax g)) /\
      (existsb (fun q => isJIT q) qs = true ->
        (forall x, answer (fk_integrationElement prec emax Hp He cdim id dim jm jk j1 j2 vs c x) = Some (fai_int prec emax g)) /\
        answer (fk_volume prec emax Hp He cdim id dim jm jk j1 j2 vs c) = Some (fai_volume prec emax Hp He id dim g) /\
        forall fuel x0 y, exists z, fk_local prec emax Hp He cdim id dim jv jm jk j1 j2 vs fuel x0 c y = NwPt prec emax z /\ veq dim z (fai_local prec emax Hp He cdim g y))
  end.
Proof.
  intros H6 id dim Hid HS cdim jv jm jk j1 j2 ret l1 l2 jit0 d0 vs Hdc HL. apply isSimplex_simT in HS; [|exact Hid].
  assert (L : length vs = S dim) by (now rewrite HL, size_lt, (lt_chain id dim HS), nv_chain). destruct vs as [|o cs]; [discriminate L|]. injection L as L.
  destruct (fml_affine_simplex prec emax Hp He H6 cdim id dim HS jk dim o cs jm (le_n _) ltac:(lia)) as (jt & EA & V).
  set (c0 := {| fk_affine := true; fk_jt := jt; fk_jit := jit0; fk_detInv := d0; fk_jitComputed := false; fk_intComputed := false |}).
  assert (EM : fk_make prec emax Hp He cdim id dim jm jk (o :: cs) jit0 d0 = Some c0) by (unfold fk_make; rewrite EA; reflexivity).
  exists c0. split; [exact EM|]. split; [reflexivity|].
  unfold fai_corners, fai_make. rewrite (proj2 (Nat.leb_le dim (length cs))) by lia.
  assert (M : meq dim cdim jt (fun i k => fsub prec emax Hp He (nth i cs o k) (o k))).
  { intros i k Hi Hk. apply V; [exact Hi|exact Hk|]. apply nth_error_nth'. lia. }
  pose proof (C104_inverse prec emax Hp He dim cdim jt _ jit0 ret j1 j2 l1 l2 Hdc M) as B.
  destruct (frightInvA prec emax Hp He dim cdim jt jit0 j1 j2) as [(d, J)|] eqn:E1, (frightInvA prec emax Hp He dim cdim _ ret l1 l2) as [(d', J')|]; try contradiction; cbn [obind].
  2: { intro x. unfold fk_jacobianInverseTransposed. cbn. rewrite E1. reflexivity. }
  destruct B as (B1 & B2). cbn [fst snd] in B1, B2. subst d'. cbn [fai_int fai_jit].
  intros qs c ER. split.
  - intro x. exists J. split; [|exact B2]. rewrite (proj2 (C106_inverse prec emax Hp He cdim id dim jv jm jk j1 j2 (o :: cs) jit0 d0 c0 qs c x EM ER)). unfold fk_jacobianInverseTransposed. cbn. rewrite E1. reflexivity.
  - intro HJ. assert (I : forall x, answer (fk_integrationElement prec emax Hp He cdim id dim jm jk j1 j2 (o :: cs) c x) = Some d).
    { intro x. rewrite (proj1 (C106_integration prec emax Hp He cdim id dim jv jm jk j1 j2 (o :: cs) jit0 d0 c0 qs c x EM ER eq_refl)). rewrite HJ. cbn [c0 fk_jt fk_jit]. rewrite E1. reflexivity. }
    split; [exact I|]. split.
    + rewrite (proj2 (C106_integration prec emax Hp He cdim id dim jv jm jk j1 j2 (o :: cs) jit0 d0 c0 qs c o EM ER eq_refl)), I. reflexivity.
    + intros fuel x0 y. rewrite (C106_local prec emax Hp He cdim id dim jv jm jk j1 j2 (o :: cs) jit0 d0 c0 qs c fuel x0 y o cs EM ER eq_refl eq_refl). cbv zeta. rewrite HJ. cbn [c0 fk_jt fk_jit]. rewrite E1. cbn [option_map snd].
      eexists. split; [reflexivity|]. intros j Hj. unfold fai_local. cbn [fai_jit fai_origin]. unfold fmtv. apply forN_ext. intros i s Hi. now rewrite (B2 i j) by assumption.
Qed.
End T.
Print Assumptions C106_simplex.

(** the tetrahedron of C106_space_refuted: after the call of jacobianInverseTransposed the answer is that of AffineGeometry, 1 - 2^-24 *)
Example C106_simplex_example :
  let zz := fun _ _ : nat => sgl 0 0 in let vs := [space 0 0 0; space 1 1 0; space 0 1 0; space 0 0 1] in
  option_map (fun g => B2SF (fai_int 24 128 g)) (fai_corners 24 128 p24 e128 3 3 vs zz zz zz) = Some (B2SF (sgl 16777215 (-24))) /\
  obind (fk_make 24 128 p24 e128 3 0 3 zz zz vs zz (sgl 0 0)) (fun c => obind (fk_run 24 128 p24 e128 3 0 3 zz zz zz zz vs c [FIntEl 24 128 (zz 0%nat); FJIT 24 128 (zz 0%nat)]) (fun c =>
    option_map B2SF (answer (fk_integrationElement 24 128 p24 e128 3 0 3 zz zz zz zz vs c (zz 0%nat))))) = Some (B2SF (sgl 16777215 (-24))).
Proof. split; vm_compute; reflexivity. Qed.
