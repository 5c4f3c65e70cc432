(** C103, continued: integration elements of the geometry classes in all dimensions *)
From Coq Require Import PeanoNat NArith ZArith Bool List Reals Lra Lia.
From Flocq Require Import Core IEEE754.BinarySingleNaN.
From Verif Require Import M_Type M_RefTopo M_RefGeo M_Matrix M_MultiLinear M_LocalFE M_Float M_FloatGlobal M_FloatLocal M_FloatVolume M_FloatLFE S_Topo S_RefGeo S_Matrix S_MultiLinear S_FloatMat S_FloatGlobal
  P_Matrix P_Type P_Topo P_RefTopo P_RefTopo3 P_RSum P_RefGeo P_RefGeo2 P_RefGeo3 P_RefGeo4 P_Polytope3 P_ML1 P_ML2 P_ML3 P_ML4 P_LocalFE P_Float P_Float2 P_FloatNear P_FloatErr P_FloatRef P_FloatGlobal P_FloatGlobal3 P_FloatMat1 P_FloatMat2 P_FloatMat3 P_FloatMat4 P_FloatJac
  T_RefGeo T_LocalFE T_Float T_FloatGlobal T_FloatLocal T_FloatJac T_FloatVolume T_FloatLFE T_FloatLFE2 T_FloatAgree T_FloatAgree2.
Import ListNotations.
Local Open Scope R_scope.

Section T.
Variables (prec emax : Z).
Context (Hp : Prec_gt_0 prec) (He : Prec_lt_emax prec emax).
Notation float := (binary_float prec emax).
Notation FVec := (nat -> float).
Notation FMat := (nat -> nat -> float).
Notation fin := (@is_finite prec emax).
Notation val := (@B2R prec emax).
Notation add := (fadd prec emax Hp He).
Notation sub := (fsub prec emax Hp He).
Notation mul := (fmul prec emax Hp He).
Notation div := (fdiv prec emax Hp He).
Notation one := (ofZ prec emax Hp He 1).
Notation zero := (B754_zero false : float).
Notation fzeros := (fun _ : nat => zero).
Notation same := (same_number prec emax).
Notation mupd := (fmupd prec emax).

(** ** Operations on numbers that differ in the sign of zero *)
Lemma same_refl a : same a a. Proof. now left. Qed.
Lemma square_same a b : same a b -> mul a a = mul b b.
Proof. intros [->|((s & ->) & (t & ->))]; [reflexivity|]. destruct s, t; reflexivity. Qed.
Lemma abs_same (a b : float) : same a b -> Babs a = Babs b.
Proof. intros [->|((s & ->) & (t & ->))]; reflexivity. Qed.
Lemma same_add2 a a' b b' : same a a' -> same b b' -> same (add a b) (add a' b').
Proof.
  intros Ha Hb. apply (same_trans prec emax) with (add a' b); [now apply (same_add prec emax Hp He)|].
  clear Ha. destruct Hb as [->|((s & ->) & (s' & ->))]; [now left|]. destruct a' as [t|t| |t m e Bd]; [right|left; reflexivity|left; reflexivity|left; reflexivity].
  split; [destruct s, t|destruct s', t]; eexists; reflexivity.
Qed.
Notation smul := (same_mul prec emax Hp He).
Notation ssub := (same_sub prec emax Hp He).

Definition low_same (n m : nat) (R R' : FMat) : Prop :=
  (forall i, (i < m)%nat -> R i i = R' i i) /\ forall k j, (j < m)%nat -> (j < k < n)%nat -> same (R k j) (R' k j).
Lemma chol_same n A A' ret ret' : low_same n n A A' -> match fcholesky_L prec emax Hp He n A ret false, fcholesky_L prec emax Hp He n A' ret' false with
  | Some (b, R), Some (b', R') => b = true /\ b' = true /\ low_same n n R R' | None, None => True | _, _ => False end.
Proof.
  intros (HD & HL). unfold fcholesky_L. set (bA := fun i f => fbind f _). set (bA' := fun i f => fbind f _).
  assert (K : forall m, (m <= n)%nat -> match forN m bA (Run ret), forN m bA' (Run ret') with Run R, Run R' => low_same n m R R' | Fail, Fail => True | _, _ => False end).
  { induction m as [|m IH]; intro Hm; [split; intros; lia|]. specialize (IH ltac:(lia)). cbn [forN].
    destruct (forN m bA (Run ret)) as [Q|b Q|]; destruct (forN m bA' (Run ret')) as [Q'|b' Q'|]; try contradiction; [|exact I].
    destruct IH as (ID & IL). unfold bA, bA'. cbn [fbind andb]. unfold fcholesky_pivot.
    assert (P : forN m (fun j s => sub s (mul (Q m j) (Q m j))) (A m m) = forN m (fun j s => sub s (mul (Q' m j) (Q' m j))) (A' m m)).
    { rewrite (HD m) by lia. apply forN_ext. intros j s Hj. f_equal. apply square_same. apply IL; lia. }
    rewrite P. set (pv := forN m _ (A' m m)). clearbody pv. destruct (fgt prec emax pv _); cbn [negb]; [|exact I].
    unfold fcholesky_column, forR. cbv zeta. set (Z := mupd Q m m _). set (Z' := mupd Q' m m _).
    assert (E : forall k j, (j < m)%nat -> Z k j = Q k j) by (intros; apply mupd_other; lia). assert (E' : forall k j, (j < m)%nat -> Z' k j = Q' k j) by (intros; apply mupd_other; lia).
    assert (D : Z m m = Z' m m) by (unfold Z, Z'; now rewrite !mupd_same).
    split.
    - intros i Hi. rewrite !(column_entry prec emax Hp He n) by lia. rewrite (proj2 (Nat.leb_gt (S m) i)) by lia. rewrite !andb_false_r. cbn [andb]. destruct (Nat.eq_dec i m) as [->|N]; [exact D|]. rewrite E, E' by lia. apply ID. lia.
    - intros k j Hj Hk. rewrite !(column_entry prec emax Hp He n) by lia. destruct (Nat.eqb_spec j m) as [->|N]; cbn [andb].
      + rewrite (proj2 (Nat.leb_le (S m) k)), (proj2 (Nat.ltb_lt k (S m + (n - S m)))) by lia. cbn [andb]. rewrite D. apply smul; [now left|].
        assert (G : forall q, (q <= m)%nat -> same (forN q (fun j x => sub x (mul (Z m j) (Z k j))) (A k m)) (forN q (fun j x => sub x (mul (Z' m j) (Z' k j))) (A' k m))).
        { induction q as [|q IHq]; intro Hq; [cbn [forN]; apply HL; lia|]. cbn [forN]. apply ssub; [apply IHq; lia|]. rewrite !E, !E' by lia. apply smul; apply IL; lia. }
        apply G. lia.
      + rewrite E, E' by lia. apply IL; lia. }
  specialize (K n (le_n n)). destruct (forN n bA (Run ret)), (forN n bA' (Run ret')); try contradiction; auto.
Qed.
Lemma aat_same m n A A' j j' : (1 <= n)%nat -> (forall i k, (i < m)%nat -> (k < n)%nat -> same (A i k) (A' i k)) ->
  low_same m m (fAAT_L prec emax Hp He m n A j) (fAAT_L prec emax Hp He m n A' j').
Proof.
  intros Hn H. split.
  - intros i Hi. rewrite !fAAT_entry by lia. rewrite (square_same (A i 0%nat) (A' i 0%nat)) by (apply H; lia). apply forN_ext. intros k s Hk. f_equal. apply square_same. apply H; lia.
  - intros k l Hl Hk. rewrite !fAAT_entry by lia.
    assert (G : forall q, (q <= n - 1)%nat -> same (forN q (fun t s => add s (mul (A k (1 + t)%nat) (A l (1 + t)%nat))) (mul (A k 0%nat) (A l 0%nat))) (forN q (fun t s => add s (mul (A' k (1 + t)%nat) (A' l (1 + t)%nat))) (mul (A' k 0%nat) (A' l 0%nat)))).
    { induction q as [|q IHq]; intro Hq; cbn [forN]; [apply smul; apply H; lia|]. apply same_add2; [apply IHq; lia|]. apply smul; apply H; lia. }
    apply G. lia.
Qed.
Lemma detL_same n L L' : (forall i, (i < n)%nat -> L i i = L' i i) -> fdetL prec emax Hp He n L = fdetL prec emax Hp He n L'.
Proof. intro H. unfold fdetL. apply forN_ext. intros i s Hi. now rewrite H. Qed.
Lemma spdDet_same n A A' j j' : low_same n n A A' -> fspdDetA prec emax Hp He n A j = fspdDetA prec emax Hp He n A' j'.
Proof.
  intro H. unfold fspdDetA. pose proof (chol_same n A A' j j' H) as C. destruct (fcholesky_L prec emax Hp He n A j false) as [(b, R)|], (fcholesky_L prec emax Hp He n A' j' false) as [(b', R')|]; try contradiction; [|reflexivity].
  cbn [obind]. f_equal. apply detL_same. apply C.
Qed.

(** The volume of a parallelepiped depends neither on the signs of zeros nor on uninitialised storage, for all sizes and all entries, finite or not. *)
Theorem C103_det : forall m n A A' j1 j2 j1' j2', (forall i k, (i < m)%nat -> (k < n)%nat -> same (A i k) (A' i k)) ->
  fsqrtDetAAT prec emax Hp He m n A j1 j2 = fsqrtDetAAT prec emax Hp He m n A' j1' j2'.
Proof.
  intros m n A A' j1 j2 j1' j2' H. unfold fsqrtDetAAT.
  destruct (Nat.eqb_spec n 2) as [->|N2], (Nat.eqb_spec m 2) as [->|M2]; cbn [andb Nat.eqb].
  - f_equal. apply abs_same. unfold fdet22. apply ssub; apply smul; apply H; lia.
  - destruct (Nat.leb_spec m 2); [|reflexivity]. apply spdDet_same. apply aat_same; [lia|exact H].
  - destruct (Nat.eqb_spec n 3) as [->|N3]; cbn [andb].
    + assert (V0 : same (sub (mul (A 0%nat 0%nat) (A 1%nat 1%nat)) (mul (A 0%nat 1%nat) (A 1%nat 0%nat))) (sub (mul (A' 0%nat 0%nat) (A' 1%nat 1%nat)) (mul (A' 0%nat 1%nat) (A' 1%nat 0%nat)))) by (apply ssub; apply smul; apply H; lia).
      assert (V1 : same (sub (mul (A 0%nat 0%nat) (A 1%nat 2%nat)) (mul (A 1%nat 0%nat) (A 0%nat 2%nat))) (sub (mul (A' 0%nat 0%nat) (A' 1%nat 2%nat)) (mul (A' 1%nat 0%nat) (A' 0%nat 2%nat)))) by (apply ssub; apply smul; apply H; lia).
      assert (V2 : same (sub (mul (A 0%nat 1%nat) (A 1%nat 2%nat)) (mul (A 0%nat 2%nat) (A 1%nat 1%nat))) (sub (mul (A' 0%nat 1%nat) (A' 1%nat 2%nat)) (mul (A' 0%nat 2%nat) (A' 1%nat 1%nat)))) by (apply ssub; apply smul; apply H; lia).
      rewrite (square_same _ _ V0), (square_same _ _ V1), (square_same _ _ V2). reflexivity.
    + destruct (Nat.leb_spec 2 n); [|reflexivity]. apply spdDet_same. apply aat_same; [lia|exact H].
  - destruct (Nat.eqb_spec n 3) as [->|N3], (Nat.eqb_spec m 3) as [->|M3]; cbn [andb Nat.eqb].
    + f_equal. apply abs_same. apply same_add2; [apply same_add2|]; (apply smul; [apply ssub; apply smul|]; apply H; lia).
    + destruct (Nat.leb_spec m 3); [|reflexivity]. apply spdDet_same. apply aat_same; [lia|exact H].
    + destruct (Nat.leb_spec 3 n); [|reflexivity]. apply spdDet_same. apply aat_same; [lia|exact H].
    + destruct (Nat.leb_spec m n); [|reflexivity]. destruct n as [|n].
      * assert (m = 0%nat) by lia. subst m. apply spdDet_same. split; intros; lia.
      * apply spdDet_same. apply aat_same; [lia|exact H].
Qed.

(** ** lines and quadrilaterals in any space *)
Lemma lt_line id : (id < bit 1)%N -> lt id 1 = Pri Pt.
Proof. intro Hid. rewrite !lt_S. cbn [Nat.eqb]. now rewrite orb_true_r. Qed.
Theorem C103_integration : (2 <= prec)%Z -> forall dim id, (1 <= dim <= 2)%nat -> (id < bit dim)%N -> isCube (GT2 id dim) = true -> forall cdim jm jk vs x l1 l2 j1 j2, length vs = (2 ^ dim)%nat ->
  flf_integrationElement prec emax Hp He cdim dim l1 l2 (fq1_jacobians prec emax Hp He dim x) vs = fmlg_integrationElement prec emax Hp He cdim id dim jm jk j1 j2 vs x.
Proof.
  intros P2 dim id Hd Hid HC cdim jm jk vs x l1 l2 j1 j2 L. unfold flf_integrationElement, fmlg_integrationElement.
  assert (Main : exists J A, flf_jacobian prec emax Hp He cdim dim (fq1_jacobians prec emax Hp He dim x) vs = Some J /\ fmlg_jacobianTransposed prec emax Hp He cdim id dim jm jk vs x = Some A /\
     forall j k, (j < dim)%nat -> (k < cdim)%nat -> same (J k j) (A j k)).
  { destruct dim as [|[|[|dim]]]; [lia| | |lia].
    2: { destruct (C103_quadrilateral prec emax Hp He P2 id Hid HC jm jk vs x L) as (Q & _). exact (Q cdim). }
    pose proof (lt_line id Hid) as LT.
    assert (C : is_cube id 1) by (apply ncones_cube; apply isCube_cubT in HC; [exact HC|lia|exact Hid]).
    assert (SZ : length vs = size id 1 1) by (rewrite size_lt, LT, L; reflexivity).
    destruct (jac_spec prec emax Hp He cdim id 1 jm jk vs x C SZ) as (A & EA & RA). unfold flf_jacobian. unfold fq1_jacobians at 1. rewrite entries_len, L. rewrite Nat.eqb_refl.
    eexists _, A. split; [reflexivity|]. split; [exact EA|]. intros j k Hj Hk. rewrite (lfj_at prec emax Hp He) by assumption. rewrite RA by assumption. rewrite LT. unfold fq1_jacobians at 1. rewrite entries_len.
    assert (M : forall a, mul one a = a) by (apply (mul_1_l prec emax Hp He P2)). assert (M' : forall a, mul (Bopp one) a = Bopp a) by (apply mul_m1; exact P2).
    destruct vs as [|v0 [|v1 [|]]]; try discriminate L.
    destruct j as [|j]; [|lia]; cbn -[fmul fadd fsub ofZ]; unfold step; cbn [fst snd]; rewrite ?M, ?M'. apply (same_add prec emax Hp He); apply (same_zero_add prec emax Hp He). }
  destruct Main as (J & A & -> & -> & S). cbn [obind]. apply C103_det. intros i k Hi Hk. apply S; assumption.
Qed.

(** ** simplices *)
Lemma spdInv_det n A j j' A' : low_same n n A A' -> option_map fst (fspdInvA prec emax Hp He n A j) = fspdDetA prec emax Hp He n A' j'.
Proof.
  intro H. rewrite <- (spdDet_same n A A' j j' H). unfold fspdInvA, fspdDetA. destruct (fcholesky_L prec emax Hp He n A j false) as [(b, R)|]; [|reflexivity]. cbn [obind].
  pose proof (finvL_entry prec emax Hp He n R) as F. destruct (finvL prec emax Hp He n R) as (d, N). cbn. f_equal. apply F.
Qed.
(** The Jacobian of the Lagrange geometry of order one on simplices is the transposed of the one AffineGeometry stores, and where the matrix helpers use the same formula (not for triangles and tetrahedra in space), the integration elements are equal, or both constructions fail. *)
Theorem C103_simplex_integration : (2 <= prec)%Z -> forall dim cdim vs x l1 l2 ret j1 j2, length vs = S dim -> (dim <= cdim)%nat ->
  (forall c k, In c vs -> (k < cdim)%nat -> fin (c k) = true) ->
  (forall c k, In c vs -> (k < cdim)%nat -> Rabs (val (c k) - val (nth 0 vs fzeros k)) <= bpow radix2 (emax - 1)) ->
  (forall g, fai_corners prec emax Hp He dim cdim vs ret j1 j2 = Some g -> exists J, flf_jacobian prec emax Hp He cdim dim (fp1_jacobians prec emax Hp He dim x) vs = Some J /\
     forall i k, (i < dim)%nat -> (k < cdim)%nat -> same (J k i) (fai_jt prec emax g i k)) /\
  (~ (cdim = 3 /\ (dim = 2 \/ dim = 3))%nat ->
   flf_integrationElement prec emax Hp He cdim dim l1 l2 (fp1_jacobians prec emax Hp He dim x) vs = option_map (fai_int prec emax) (fai_corners prec emax Hp He dim cdim vs ret j1 j2)).
Proof.
  intros P2 dim cdim vs x l1 l2 ret j1 j2 L Hdc Hf Hd. destruct vs as [|o l]; [discriminate L|]. injection L as L. cbn [nth] in Hd.
  destruct (C102_p1_jacobian prec emax Hp He P2 dim cdim (o :: l) x ltac:(cbn; now rewrite L) Hf) as (J & EJ & R).
  set (jt := fun i k => sub (nth i l o k) (o k)).
  assert (S : forall i k, (i < dim)%nat -> (k < cdim)%nat -> same (J k i) (jt i k)).
  { intros i k Hi Hk. assert (In (nth i l o) (o :: l)) as HI by (right; apply nth_In; lia).
    assert (EN : nth (Datatypes.S i) (o :: l) fzeros = nth i l o) by (cbn [nth]; apply nth_indep; lia).
    specialize (R k i Hk Hi). rewrite EN in R. cbn [nth] in R. destruct (R (Hd _ _ HI Hk)) as (F & W). apply (same_value_number prec emax); [exact F| |exact W].
    pose proof (Bminus_correct prec emax Hp He mode_NE (nth i l o k) (o k)) as C.
    specialize (C (Hf _ _ HI Hk) ltac:(apply Hf; [now left|exact Hk])). rewrite Rlt_bool_true in C by (apply (rnd_bound2 prec emax Hp He P2); apply (Hd _ _ HI Hk)). apply C. }
  unfold fai_corners, fai_make. rewrite (proj2 (Nat.leb_le dim (length l))) by lia. fold jt. split.
  - intros g E. exists J. split; [exact EJ|]. destruct (frightInvA prec emax Hp He dim cdim jt ret j1 j2) as [(d, t)|]; [|discriminate E]. cbn in E. injection E as <-. exact S.
  - intro N. unfold flf_integrationElement. rewrite EJ. cbn [obind]. rewrite (C103_det dim cdim (fun i j => J j i) jt l1 l2 j1 j2 S). unfold fsqrtDetAAT, frightInvA.
    destruct (Nat.eqb cdim 2 && Nat.eqb dim 2)%bool; [reflexivity|].
    replace (Nat.eqb cdim 3 && Nat.eqb dim 3)%bool with false by (symmetry; apply andb_false_iff; destruct (Nat.eqb_spec cdim 3), (Nat.eqb_spec dim 3); auto; exfalso; apply N; lia).
    replace (Nat.eqb cdim 3 && Nat.eqb dim 2)%bool with false by (symmetry; apply andb_false_iff; destruct (Nat.eqb_spec cdim 3), (Nat.eqb_spec dim 2); auto; exfalso; apply N; lia).
    rewrite (proj2 (Nat.leb_le dim cdim) Hdc).
    rewrite <- (spdInv_det dim (fAAT_L prec emax Hp He dim cdim jt j1) j2 j2 (fAAT_L prec emax Hp He dim cdim jt j1) ltac:(split; intros; [reflexivity|apply same_refl])).
    destruct (fspdInvA prec emax Hp He dim (fAAT_L prec emax Hp He dim cdim jt j1) j2) as [(d, t)|]; reflexivity.
Qed.
End T.
Print Assumptions C103_det.
Print Assumptions C103_integration.
Print Assumptions C103_simplex_integration.

(** In space the two classes differ already on triangles and tetrahedra with corners of the unit cube: the right integration element 1 of the Lagrange geometry against 1 - 2^-24 of AffineGeometry. *)
Definition space (a b c : Z) : nat -> binary_float 24 128 := fun k => match k with 0%nat => sgl a 0 | 1%nat => sgl b 0 | _ => sgl c 0 end.
Theorem C103_simplex_space_refuted : forall dim, (dim = 2 \/ dim = 3)%nat -> exists vs x l1 l2 ret j1 j2 (v w : binary_float 24 128),
  length vs = S dim /\ (forall c k, In c vs -> @B2R 24 128 (c k) = 0 \/ @B2R 24 128 (c k) = 1) /\
  option_map B2SF (flf_integrationElement 24 128 p24 e128 3 dim l1 l2 (fp1_jacobians 24 128 p24 e128 dim x) vs) = Some (B2SF v) /\
  option_map (fun g => B2SF (fai_int 24 128 g)) (fai_corners 24 128 p24 e128 dim 3 vs ret j1 j2) = Some (B2SF w) /\
  B2R v = 1 /\ B2R w = 1 - / 16777216.
Proof.
  intros dim Hd. exists (firstn (S dim) [space 0 0 0; space 1 1 0; space 0 1 0; space 0 0 1]), (space 0 0 0). do 5 exists (fun _ _ => sgl 0 0). exists (sgl 1 0), (sgl 16777215 (-24)).
  assert (V0 : B2R (sgl 0 0) = 0) by (vm_compute; lra). assert (V1 : B2R (sgl 1 0) = 1) by (cbn; unfold F2R; cbn; lra).
  assert (VW : B2R (sgl 16777215 (-24)) = 1 - / 16777216) by (cbn; unfold F2R; cbn; lra).
  assert (H : forall c k, In c [space 0 0 0; space 1 1 0; space 0 1 0; space 0 0 1] -> @B2R 24 128 (c k) = 0 \/ @B2R 24 128 (c k) = 1).
  { intros c k [<-|[<-|[<-|[<-|[]]]]]; unfold space; destruct k as [|[|k]]; rewrite ?V0, ?V1; auto. }
  destruct Hd as [-> | ->]; (split; [reflexivity|]); (split; [intros c k HI; apply H; cbn [firstn In] in HI |- *; tauto|]); (split; [vm_compute; reflexivity|]); (split; [vm_compute; reflexivity|]); (split; [exact V1|exact VW]).
Qed.
Print Assumptions C103_simplex_space_refuted.

(** the segment from (1,1,0) to (4,5,0): length 5 from all three classes *)
Example C103_segment_example :
  let zz := fun _ _ : nat => sgl 0 0 in let vs := [space 1 1 0; space 4 5 0] in let x := space 0 0 0 in
  option_map B2SF (flf_integrationElement 24 128 p24 e128 3 1 zz zz (fq1_jacobians 24 128 p24 e128 1 x) vs) = Some (B2SF (sgl 5 0)) /\
  option_map B2SF (flf_integrationElement 24 128 p24 e128 3 1 zz zz (fp1_jacobians 24 128 p24 e128 1 x) vs) = Some (B2SF (sgl 5 0)) /\
  option_map B2SF (fmlg_integrationElement 24 128 p24 e128 3 1 1 zz zz zz zz vs x) = Some (B2SF (sgl 5 0)) /\
  option_map (fun g => B2SF (fai_int 24 128 g)) (fai_corners 24 128 p24 e128 1 3 vs zz zz zz) = Some (B2SF (sgl 5 0)).
Proof. repeat split; vm_compute; reflexivity. Qed.
