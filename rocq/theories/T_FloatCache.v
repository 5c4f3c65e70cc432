(** C106: what the members of CachedMultiLinearGeometry hold after any history of calls, in IEEE arithmetic *)
From Coq Require Import PeanoNat NArith ZArith Bool List Reals Lra Lia.
From Flocq Require Import Core IEEE754.BinarySingleNaN.
From Verif Require Import M_Type M_RefTopo M_RefGeo M_Matrix M_Affine M_Float M_FloatGlobal M_FloatLocal M_FloatVolume M_FloatCache P_Matrix P_FloatMat1 P_FloatMat3 T_Float T_FloatLocal T_FloatLFE T_FloatAgree3 T_FloatMem.
Import ListNotations.

Section T.
Variables (prec emax : Z).
Context (Hp : Prec_gt_0 prec) (He : Prec_lt_emax prec emax).
Notation float := (binary_float prec emax).
Notation FVec := (nat -> float).
Notation FMat := (nat -> nat -> float).
Variables (cdim : nat) (tid : N) (mydim : nat) (jv : FVec) (jm jk j1 j2 : FMat) (corners : list FVec).
Notation make := (fk_make prec emax Hp He cdim tid mydim jm jk corners).
Notation run := (fk_run prec emax Hp He cdim tid mydim jm jk j1 j2 corners).
Notation call := (fk_call prec emax Hp He cdim tid mydim jm jk j1 j2 corners).
Notation intel := (fk_integrationElement prec emax Hp He cdim tid mydim jm jk j1 j2 corners).
Notation vol := (fk_volume prec emax Hp He cdim tid mydim jm jk j1 j2 corners).
Notation jit := (fk_jacobianInverseTransposed prec emax Hp He cdim tid mydim jm jk j1 j2 corners).
Notation jtr := (fk_jacobianTransposed prec emax Hp He cdim tid mydim jm jk corners).
Notation loc := (fk_local prec emax Hp He cdim tid mydim jv jm jk j1 j2 corners).
Notation aff := (fk_affine prec emax).
Notation jt := (fk_jt prec emax).
Notation jim := (fk_jit prec emax).
Notation dt := (fk_detInv prec emax).
Notation jc := (fk_jitComputed prec emax).
Notation ic := (fk_intComputed prec emax).
Notation sdet := (fsqrtDetAAT prec emax Hp He mydim cdim).
Notation rinv := (frightInvA prec emax Hp He mydim cdim).
Notation isJIT q := (match q with FJIT _ => true | _ => false end).

(** ** the invariant of the members of an affine geometry *)
Definition inv (c0 c : FCache prec emax) : Prop :=
  aff c = aff c0 /\ jt c = jt c0 /\
  if jc c then ic c = true /\ rinv (jt c0) (jim c0) j1 j2 = Some (dt c, jim c)
  else jim c = jim c0 /\ (ic c = true -> sdet (jt c0) j1 j2 = Some (dt c)).
Lemma inv_int c0 c x d c' : aff c0 = true -> inv c0 c -> intel c x = Some (d, c') -> inv c0 c' /\ jc c' = jc c.
Proof.
  intros Ha I0 E. pose proof I0 as (E1 & E2 & I). unfold fk_integrationElement in E. rewrite E1, Ha in E. destruct (ic c) eqn:EI; cbn [negb obind] in E; [injection E as <- <-; split; [exact I0|reflexivity]|].
  rewrite E2 in E. destruct (sdet (jt c0) j1 j2) as [v|] eqn:ES; [|discriminate E]. cbn [obind] in E. injection E as <- <-. split; [|reflexivity]. unfold inv. cbn. rewrite ?E1, ?Ha.
  destruct (jc c); [destruct I; congruence|]. destruct I. repeat split; auto.
Qed.
Lemma inv_call c0 c q c' : aff c0 = true -> inv c0 c -> call c q = Some c' -> inv c0 c' /\ jc c' = (jc c || isJIT q)%bool.
Proof.
  intros Ha I E. destruct q as [x| |x]; cbn [fk_call] in E.
  - destruct (intel c x) as [(d, c1)|] eqn:EI; [|discriminate E]. injection E as <-. rewrite orb_false_r. apply (inv_int c0 c x d); assumption.
  - unfold fk_volume in E. rewrite (proj1 I), Ha in E. destruct (intel c _) as [(d, c1)|] eqn:EI; [|discriminate E]. injection E as <-. rewrite orb_false_r. eapply inv_int; eassumption.
  - destruct I as (E1 & E2 & I). unfold fk_jacobianInverseTransposed in E. rewrite E1, Ha in E. rewrite orb_true_r. destruct (jc c) eqn:EJ; cbn [negb obind option_map] in E.
    + injection E as <-. split; [|exact EJ]. unfold inv. rewrite EJ. repeat split; tauto.
    + destruct I as (I1 & I2). rewrite E2, I1 in E. destruct (rinv (jt c0) (jim c0) j1 j2) as [(d, J)|] eqn:ER; [|discriminate E]. cbn in E. injection E as <-. split; [|reflexivity].
      unfold inv. cbn. rewrite ?E1, ?Ha, ?ER. repeat split; reflexivity.
Qed.
Lemma inv_run c0 : aff c0 = true -> forall qs c c', inv c0 c -> run c qs = Some c' -> inv c0 c' /\ jc c' = (jc c || existsb (fun q => isJIT q) qs)%bool.
Proof.
  intros Ha. induction qs as [|q qs IH]; intros c c' I E; cbn [fk_run] in E.
  - injection E as <-. cbn. now rewrite orb_false_r.
  - destruct (call c q) as [c1|] eqn:EC; [|discriminate E]. cbn [obind] in E. destruct (inv_call c0 c q c1 Ha I EC) as (I1 & J1). destruct (IH c1 c' I1 E) as (I2 & J2). split; [exact I2|].
    rewrite J2, J1. cbn [existsb]. now rewrite orb_assoc.
Qed.
Lemma make_fresh jit0 d0 c0 : make jit0 d0 = Some c0 -> jc c0 = false /\ ic c0 = false.
Proof. unfold fk_make. destruct (fml_affine _ _ _ _ _ _ _ _ _ _ _) as [((b, l), J)|]; [|discriminate]. cbn. intro E. injection E as <-. auto. Qed.
Lemma fresh_inv c0 : jc c0 = false -> ic c0 = false -> inv c0 c0.
Proof. intros E E'. unfold inv. rewrite E, E'. repeat split; auto. discriminate. Qed.
Lemma rest_run c0 : aff c0 = false -> forall qs c', run c0 qs = Some c' -> c' = c0.
Proof.
  intros Ha. induction qs as [|q qs IH]; intros c' E; cbn [fk_run] in E; [now injection E|].
  assert (K : forall c1, call c0 q = Some c1 -> c1 = c0).
  { intros c1 E1. destruct q as [x| |x]; cbn [fk_call] in E1.
    - unfold fk_integrationElement in E1. rewrite Ha in E1. destruct (fmlg_integrationElement _ _ _ _ _ _ _ _ _ _ _ _ _); [|discriminate E1]. now injection E1.
    - unfold fk_volume in E1. rewrite Ha in E1. destruct (fmlg_volume _ _ _ _ _ _ _ _ _ _ _ _); [|discriminate E1]. now injection E1.
    - unfold fk_jacobianInverseTransposed in E1. rewrite Ha in E1. destruct (fmlg_jacobianInverseTransposed _ _ _ _ _ _ _ _ _ _ _ _ _) as [(d, J)|]; [|discriminate E1]. now injection E1. }
  destruct (call c0 q) as [c1|]; [|discriminate E]. cbn [obind] in E. rewrite (K c1 eq_refl) in E. now apply IH.
Qed.

Definition answer {A B} (o : option (A * B)) : option A := option_map fst o.

(** After any history, the Jacobian and its inverse are those a new object returns, for all dimensions and inputs. *)
Theorem C106_inverse : forall jit0 d0 c0 qs c x, make jit0 d0 = Some c0 -> run c0 qs = Some c -> jtr c x = jtr c0 x /\ answer (jit c x) = answer (jit c0 x).
Proof.
  intros jit0 d0 c0 qs c x M E. destruct (make_fresh _ _ _ M) as (F1 & F2). destruct (aff c0) eqn:Ha; [|rewrite (rest_run c0 Ha qs c E); auto].
  destruct (inv_run c0 Ha qs c0 c (fresh_inv c0 F1 F2) E) as ((E1 & E2 & I) & _). unfold fk_jacobianTransposed, fk_jacobianInverseTransposed. rewrite E1, Ha, E2, F1. split; [reflexivity|]. cbn [negb].
  destruct (jc c); cbn [negb].
  - destruct I as (_ & ->). reflexivity.
  - destruct I as (-> & _). destruct (rinv (jt c0) (jim c0) j1 j2) as [(d, J)|]; reflexivity.
Qed.

(** integrationElement and volume depend on the history only through whether jacobianInverseTransposed was called: then they use the determinant rightInvA leaves, otherwise sqrtDetAAT. *)
Theorem C106_integration : forall jit0 d0 c0 qs c x, make jit0 d0 = Some c0 -> run c0 qs = Some c -> aff c0 = true ->
  answer (intel c x) = (if existsb (fun q => isJIT q) qs then option_map fst (rinv (jt c0) (jim c0) j1 j2) else sdet (jt c0) j1 j2) /\
  answer (vol c) = option_map (fun d => fmul prec emax Hp He d (freferenceVolume prec emax Hp He tid mydim)) (answer (intel c x)).
Proof.
  intros jit0 d0 c0 qs c x M E Ha. destruct (make_fresh _ _ _ M) as (F1 & F2). destruct (inv_run c0 Ha qs c0 c (fresh_inv c0 F1 F2) E) as ((E1 & E2 & I) & J). rewrite F1 in J. cbn [orb] in J. rewrite <- J. split.
  - unfold fk_integrationElement. rewrite E1, Ha. destruct (jc c).
    + destruct I as (-> & ->). reflexivity.
    + destruct I as (_ & I). destruct (ic c); cbn [negb obind]; [rewrite I by reflexivity; reflexivity|]. rewrite E2. destruct (sdet (jt c0) j1 j2); reflexivity.
  - unfold fk_volume. rewrite E1, Ha. unfold fk_integrationElement. rewrite E1, Ha. destruct (ic c); cbn [negb obind]; [reflexivity|]. destruct (sdet (jt c) j1 j2); reflexivity.
Qed.

(** Where both use the same formula (not for triangles and tetrahedra in space), the history does not matter; on elements that are not affine it never does. *)
Lemma det_rinv A r : (mydim <= cdim)%nat -> ~ (cdim = 3 /\ (mydim = 2 \/ mydim = 3))%nat -> option_map fst (rinv A r j1 j2) = sdet A j1 j2.
Proof.
  intros L N. unfold fsqrtDetAAT, frightInvA. destruct (Nat.eqb cdim 2 && Nat.eqb mydim 2)%bool; [reflexivity|].
  replace (Nat.eqb cdim 3 && Nat.eqb mydim 3)%bool with false by (symmetry; apply andb_false_iff; destruct (Nat.eqb_spec cdim 3), (Nat.eqb_spec mydim 3); auto; exfalso; apply N; lia).
  replace (Nat.eqb cdim 3 && Nat.eqb mydim 2)%bool with false by (symmetry; apply andb_false_iff; destruct (Nat.eqb_spec cdim 3), (Nat.eqb_spec mydim 2); auto; exfalso; apply N; lia).
  rewrite (proj2 (Nat.leb_le mydim cdim) L).
  rewrite <- (spdInv_det prec emax Hp He mydim (fAAT_L prec emax Hp He mydim cdim A j1) j2 j2 (fAAT_L prec emax Hp He mydim cdim A j1) ltac:(split; intros; [reflexivity|apply same_refl])).
  destruct (fspdInvA prec emax Hp He mydim (fAAT_L prec emax Hp He mydim cdim A j1) j2) as [(d, t)|]; reflexivity.
Qed.
Theorem C106_history : forall jit0 d0 c0 qs c x, make jit0 d0 = Some c0 -> run c0 qs = Some c -> (mydim <= cdim)%nat ->
  ~ (cdim = 3 /\ (mydim = 2 \/ mydim = 3))%nat \/ aff c0 = false ->
  answer (intel c x) = answer (intel c0 x) /\ answer (vol c) = answer (vol c0).
Proof.
  intros jit0 d0 c0 qs c x M E L H. destruct (aff c0) eqn:Ha; [|rewrite (rest_run c0 Ha qs c E); auto]. destruct H as [H|H]; [|discriminate H].
  destruct (C106_integration jit0 d0 c0 qs c x M E Ha) as (A1 & A2). destruct (C106_integration jit0 d0 c0 [] c0 x M eq_refl Ha) as (B1 & B2). cbn [existsb] in B1.
  assert (K : answer (intel c x) = answer (intel c0 x)) by (rewrite A1, B1; destruct (existsb _ qs); [now apply det_rinv|reflexivity]).
  split; [exact K|]. rewrite A2, B2, K. reflexivity.
Qed.

(** local: before the first call of jacobianInverseTransposed it solves with xTRightInvA, afterwards it multiplies with the stored inverse *)
Theorem C106_local : forall jit0 d0 c0 qs c fuel x0 y o l, make jit0 d0 = Some c0 -> run c0 qs = Some c -> aff c0 = true -> corners = o :: l ->
  loc fuel x0 c y = (let r := fun k => fsub prec emax Hp He (y k) (o k) in
    match (if existsb (fun q => isJIT q) qs then option_map (fun p => fmtv prec emax Hp He cdim (snd p) r) (rinv (jt c0) (jim c0) j1 j2)
           else option_map snd (fxTRightInvA prec emax Hp He mydim cdim (jt c0) r j1 j2)) with
    | Some x => NwPt prec emax x | None => NwUndefined prec emax end).
Proof.
  intros jit0 d0 c0 qs c fuel x0 y o l M E Ha Hc. destruct (make_fresh _ _ _ M) as (F1 & F2). destruct (inv_run c0 Ha qs c0 c (fresh_inv c0 F1 F2) E) as ((E1 & E2 & I) & J). rewrite F1 in J. cbn [orb] in J. rewrite <- J. cbv zeta.
  unfold fk_local. rewrite E1, Ha, Hc, E2. destruct (jc c).
  - destruct I as (_ & ->). reflexivity.
  - destruct (fxTRightInvA _ _ _ _ _ _ _ _ _ _) as [(b, v)|]; reflexivity.
Qed.
End T.
Print Assumptions C106_inverse.
Print Assumptions C106_integration.
Print Assumptions C106_history.
Print Assumptions C106_local.

(** Triangles and tetrahedra in space with corners of the unit cube: the integration element is 1 on a new object and 1 - 2^-24 after a call of jacobianInverseTransposed. *)
Local Open Scope R_scope.
Notation zz := (fun _ _ : nat => sgl 0 0).
Notation z1 := (fun _ : nat => sgl 0 0).
Theorem C106_space_refuted : forall dim, (dim = 2 \/ dim = 3)%nat -> exists vs c0 qs c (v w : binary_float 24 128),
  length vs = S dim /\ (forall p k, In p vs -> @B2R 24 128 (p k) = 0 \/ @B2R 24 128 (p k) = 1) /\
  fk_make 24 128 p24 e128 3 0 dim zz zz vs zz (sgl 0 0) = Some c0 /\ fk_run 24 128 p24 e128 3 0 dim zz zz zz zz vs c0 qs = Some c /\
  option_map B2SF (answer (fk_integrationElement 24 128 p24 e128 3 0 dim zz zz zz zz vs c0 z1)) = Some (B2SF v) /\
  option_map B2SF (answer (fk_integrationElement 24 128 p24 e128 3 0 dim zz zz zz zz vs c z1)) = Some (B2SF w) /\
  B2R v = 1 /\ B2R w = 1 - / 16777216.
Proof.
  intros dim Hd. set (vs := firstn (S dim) [space 0 0 0; space 1 1 0; space 0 1 0; space 0 0 1]).
  assert (V0 : B2R (sgl 0 0) = 0) by (vm_compute; lra). assert (V1 : B2R (sgl 1 0) = 1) by (cbn; unfold F2R; cbn; lra).
  assert (VW : B2R (sgl 16777215 (-24)) = 1 - / 16777216) by (cbn; unfold F2R; cbn; lra).
  assert (H : forall c k, In c [space 0 0 0; space 1 1 0; space 0 1 0; space 0 0 1] -> @B2R 24 128 (c k) = 0 \/ @B2R 24 128 (c k) = 1).
  { intros c k [<-|[<-|[<-|[<-|[]]]]]; unfold space; destruct k as [|[|k]]; rewrite ?V0, ?V1; auto. }
  destruct (fk_make 24 128 p24 e128 3 0 dim zz zz vs zz (sgl 0 0)) as [c0|] eqn:EM; [|exfalso; assert (K : option_map (fun _ => tt) (fk_make 24 128 p24 e128 3 0 dim zz zz vs zz (sgl 0 0)) = Some tt) by (destruct Hd; subst dim; vm_compute; reflexivity); rewrite EM in K; discriminate K].
  destruct (fk_run 24 128 p24 e128 3 0 dim zz zz zz zz vs c0 [FJIT 24 128 z1]) as [c|] eqn:ER.
  2: { exfalso. assert (K : obind (fk_make 24 128 p24 e128 3 0 dim zz zz vs zz (sgl 0 0)) (fun c0 => option_map (fun _ => tt) (fk_run 24 128 p24 e128 3 0 dim zz zz zz zz vs c0 [FJIT 24 128 z1])) = Some tt) by (destruct Hd; subst dim; vm_compute; reflexivity). rewrite EM in K. cbn [obind] in K. rewrite ER in K. discriminate K. }
  exists vs, c0, [FJIT 24 128 z1], c, (sgl 1 0), (sgl 16777215 (-24)).
  split; [destruct Hd; subst dim; reflexivity|]. split; [intros p k HI; apply H; destruct Hd; subst dim; cbn [vs firstn In] in HI |- *; tauto|]. split; [exact EM|]. split; [exact ER|].
  assert (K : obind (fk_make 24 128 p24 e128 3 0 dim zz zz vs zz (sgl 0 0)) (fun c0 => option_map B2SF (answer (fk_integrationElement 24 128 p24 e128 3 0 dim zz zz zz zz vs c0 z1))) = Some (B2SF (sgl 1 0))) by (destruct Hd; subst dim; vm_compute; reflexivity).
  assert (K' : obind (fk_make 24 128 p24 e128 3 0 dim zz zz vs zz (sgl 0 0)) (fun c0 => obind (fk_run 24 128 p24 e128 3 0 dim zz zz zz zz vs c0 [FJIT 24 128 z1]) (fun c => option_map B2SF (answer (fk_integrationElement 24 128 p24 e128 3 0 dim zz zz zz zz vs c z1)))) = Some (B2SF (sgl 16777215 (-24)))) by (destruct Hd; subst dim; vm_compute; reflexivity).
  rewrite EM in K, K'. cbn [obind] in K, K'. rewrite ER in K'. exact (conj K (conj K' (conj V1 VW))).
Qed.
Print Assumptions C106_space_refuted.

(** A thin triangle in the plane, (0,0), (1,1), (1,1+2^-13), in single precision.  local of the corner (1,1) is (1,0) after a call of jacobianInverseTransposed.  On a new object the Cholesky factorisation reports a singular matrix, the report is ignored, and the answer is (2, 2+2^-13). *)
Definition sliver : list (nat -> binary_float 24 128) := [two (sgl 0 0) (sgl 0 0); two (sgl 1 0) (sgl 1 0); two (sgl 1 0) (sgl 8193 (-13))].
Theorem C106_local_refuted : exists c0 qs c (x x' : nat -> binary_float 24 128), let y := two (sgl 1 0) (sgl 1 0) in
  fk_make 24 128 p24 e128 2 0 2 zz zz sliver zz (sgl 0 0) = Some c0 /\ fk_run 24 128 p24 e128 2 0 2 zz zz zz zz sliver c0 qs = Some c /\
  fk_local 24 128 p24 e128 2 0 2 z1 zz zz zz zz sliver 1 z1 c0 y = NwPt 24 128 x /\
  fk_local 24 128 p24 e128 2 0 2 z1 zz zz zz zz sliver 1 z1 c y = NwPt 24 128 x' /\
  B2R (x 0%nat) = 2 /\ B2R (x 1%nat) = 2 + / 8192 /\ B2R (x' 0%nat) = 1 /\ B2R (x' 1%nat) = 0.
Proof.
  destruct (fk_make 24 128 p24 e128 2 0 2 zz zz sliver zz (sgl 0 0)) as [c0|] eqn:EM; [|exfalso; assert (K : option_map (fun _ => tt) (fk_make 24 128 p24 e128 2 0 2 zz zz sliver zz (sgl 0 0)) = Some tt) by (vm_compute; reflexivity); rewrite EM in K; discriminate K].
  destruct (fk_run 24 128 p24 e128 2 0 2 zz zz zz zz sliver c0 [FJIT 24 128 z1]) as [c|] eqn:ER.
  2: { exfalso. assert (K : obind (fk_make 24 128 p24 e128 2 0 2 zz zz sliver zz (sgl 0 0)) (fun c0 => option_map (fun _ => tt) (fk_run 24 128 p24 e128 2 0 2 zz zz zz zz sliver c0 [FJIT 24 128 z1])) = Some tt) by (vm_compute; reflexivity). rewrite EM in K. cbn [obind] in K. rewrite ER in K. discriminate K. }
  set (y := two (sgl 1 0) (sgl 1 0)).
  set (sh := fun r : FLocResult 24 128 => match r with NwPt x => Some (B2SF (x 0%nat), B2SF (x 1%nat)) | _ => None end).
  assert (K : obind (fk_make 24 128 p24 e128 2 0 2 zz zz sliver zz (sgl 0 0)) (fun c0 => sh (fk_local 24 128 p24 e128 2 0 2 z1 zz zz zz zz sliver 1 z1 c0 y)) = Some (B2SF (sgl 2 0), B2SF (sgl 16385 (-13)))) by (vm_compute; reflexivity).
  assert (K' : obind (fk_make 24 128 p24 e128 2 0 2 zz zz sliver zz (sgl 0 0)) (fun c0 => obind (fk_run 24 128 p24 e128 2 0 2 zz zz zz zz sliver c0 [FJIT 24 128 z1]) (fun c => sh (fk_local 24 128 p24 e128 2 0 2 z1 zz zz zz zz sliver 1 z1 c y))) = Some (B2SF (sgl 1 0), B2SF (sgl 0 0))) by (vm_compute; reflexivity).
  rewrite EM in K, K'. cbn [obind] in K, K'. rewrite ER in K'. cbn [obind] in K'.
  destruct (fk_local 24 128 p24 e128 2 0 2 z1 zz zz zz zz sliver 1 z1 c0 y) as [|x| |] eqn:E1; try discriminate K.
  destruct (fk_local 24 128 p24 e128 2 0 2 z1 zz zz zz zz sliver 1 z1 c y) as [|x'| |] eqn:E2; try discriminate K'.
  exists c0, [FJIT 24 128 z1], c, x, x'. cbv zeta. split; [reflexivity|]. split; [exact ER|]. split; [exact E1|]. split; [exact E2|].
  cbn [sh] in K, K'. assert (L : forall a b c d : SpecFloat.spec_float, Some (a, b) = Some (c, d) -> a = c /\ b = d) by (intros; split; congruence).
  apply L in K, K'. destruct K as (A & B), K' as (C & D). apply B2SF_inj in A, B, C, D. rewrite A, B, C, D.
  split; [cbn; unfold F2R; cbn; lra|]. split; [cbn; unfold F2R; cbn; lra|]. split; [cbn; unfold F2R; cbn; lra|]. vm_compute. lra.
Qed.
Print Assumptions C106_local_refuted.

(** the segment from (1,1,0) to (4,5,0): length 5 before and after; a volume of 5 too *)
Example C106_example :
  let vs := [space 1 1 0; space 4 5 0] in
  obind (fk_make 24 128 p24 e128 3 0 1 zz zz vs zz (sgl 0 0)) (fun c0 =>
  obind (fk_run 24 128 p24 e128 3 0 1 zz zz zz zz vs c0 [FVolume 24 128; FJIT 24 128 z1; FIntEl 24 128 z1]) (fun c =>
  Some (option_map B2SF (answer (fk_integrationElement 24 128 p24 e128 3 0 1 zz zz zz zz vs c0 z1)), option_map B2SF (answer (fk_integrationElement 24 128 p24 e128 3 0 1 zz zz zz zz vs c z1)), option_map B2SF (answer (fk_volume 24 128 p24 e128 3 0 1 zz zz zz zz vs c)))))
  = Some (Some (B2SF (sgl 5 0)), Some (B2SF (sgl 5 0)), Some (B2SF (sgl 5 0))).
Proof. vm_compute. reflexivity. Qed.
