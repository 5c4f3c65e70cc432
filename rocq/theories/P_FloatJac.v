(** C98: the rows of the Jacobian of a cube in floating point arithmetic are sums of corners with explicit weights; the
    error of the weights and of the sums. *)
From Coq Require Import PeanoNat NArith ZArith Lia Bool List Reals Lra FunctionalExtensionality.
From Flocq Require Import Core IEEE754.BinarySingleNaN.
From Verif Require Import M_Type M_RefTopo M_RefGeo M_Matrix M_MultiLinear M_Float M_FloatGlobal M_FloatLocal S_Topo S_MultiLinear
  P_Type P_RefTopo P_RSum P_RefGeo2 P_ML1 P_ML2 P_Float P_FloatNear P_FloatGlobal P_FloatGlobal2 P_FloatGlobal3 P_FloatGlobal4 P_FloatGlobal6.
Import ListNotations.
Local Open Scope R_scope.

Lemma obind_some {A B} (a : A) (f : A -> option B) : obind (Some a) f = f a. Proof. reflexivity. Qed.

(** ** exact weights *)
Fixpoint erow (T : Topo) (j : nat) (x : nat -> R) (rf : R) : list R :=
  match T with
  | Pri b =>
      if Nat.eqb j (tdim b) then map (Rmult (-1)) (ew b 1 x rf) ++ map (Rmult 1) (ew b 1 x rf)
      else erow b j x (rf * (1 - 1 * x (tdim b))) ++ erow b j x (rf * (1 * x (tdim b)))
  | _ => []
  end.
Lemma erow_length T : forall j x rf, cones T = 0%nat -> (j < tdim T)%nat -> length (erow T j x rf) = nv T.
Proof.
  induction T as [|b IH|b IH]; intros j x rf C Hj; cbn [tdim cones erow nv] in *; [lia| |discriminate C].
  destruct (Nat.eqb_spec j (tdim b)) as [E|N]; rewrite app_length; [rewrite !map_length, !ew_length; reflexivity|]. rewrite !IH by lia. reflexivity.
Qed.
Definition at_j (x : nat -> R) (j : nat) (t : R) : nat -> R := fun k => if Nat.eqb k j then t else x k.
Lemma ew_ext T : forall df x y rf, (forall k, (k < tdim T)%nat -> x k = y k) -> ew T df x rf = ew T df y rf.
Proof.
  induction T as [|b IH|b IH]; intros df x y rf H; cbn [ew tdim] in *; [reflexivity| |]; rewrite (H (tdim b)) by lia; rewrite !(IH _ x y) by (intros; apply H; lia); reflexivity.
Qed.
Lemma ew_zero T df x : forall i, nth i (ew T df x 0) 0 = 0.
Proof.
  intro i. destruct (Nat.lt_ge_cases i (nv T)) as [L|L]; [rewrite ew_shape by assumption; ring|]. apply nth_overflow. rewrite ew_length. lia.
Qed.
Lemma nth_scale s i l : nth i (map (Rmult s) l) 0 = s * nth i l 0.
Proof. rewrite <- (Rmult_0_r s) at 1. apply map_nth. Qed.
(** the exact weights are the differences of the weights at the two ends *)
Lemma erow_diff T : forall j x rf i, cones T = 0%nat -> (j < tdim T)%nat ->
  nth i (erow T j x rf) 0 = nth i (ew T 1 (at_j x j 1) rf) 0 - nth i (ew T 1 (at_j x j 0) rf) 0.
Proof.
  induction T as [|b IH|b IH]; intros j x rf i C Hj; cbn [tdim cones erow ew] in *; [lia| |discriminate C].
  unfold at_j at 2 4 6 8. destruct (Nat.eqb_spec j (tdim b)) as [E|N].
  - subst j. rewrite !Nat.eqb_refl. assert (X : forall t r, ew b 1 (at_j x (tdim b) t) r = ew b 1 x r).
    { intros t r. apply ew_ext. intros k Hk. unfold at_j. destruct (Nat.eqb_spec k (tdim b)); [lia|reflexivity]. }
    rewrite !X. destruct (Nat.lt_ge_cases i (nv b)) as [L|L].
    + rewrite app_nth1 by (rewrite map_length, ew_length; lia). rewrite !app_nth1 by (rewrite ew_length; lia). rewrite nth_scale.
      replace (rf * (1 - 1 * 1)) with 0 by ring. rewrite ew_zero. replace (rf * (1 - 1 * 0)) with rf by ring. ring.
    + rewrite app_nth2 by (rewrite map_length, ew_length; lia). rewrite !app_nth2 by (rewrite ew_length; lia). rewrite map_length, !ew_length, nth_scale.
      replace (rf * (1 * 0)) with 0 by ring. rewrite ew_zero. replace (rf * (1 * 1)) with rf by ring. ring.
  - assert (Hj' : (j < tdim b)%nat) by lia. assert (E : Nat.eqb (tdim b) j = false) by (apply Nat.eqb_neq; lia). rewrite E.
    destruct (Nat.lt_ge_cases i (nv b)) as [L|L].
    + rewrite app_nth1 by (rewrite erow_length by assumption; lia). rewrite !app_nth1 by (rewrite ew_length; lia). apply IH; assumption.
    + rewrite app_nth2 by (rewrite erow_length by assumption; lia). rewrite !app_nth2 by (rewrite ew_length; lia). rewrite erow_length, !ew_length by assumption. apply IH; assumption.
Qed.
Lemma ew_bound T : forall x rf, cones T = 0%nat -> (forall k, (k < tdim T)%nat -> 0 <= x k <= 1) -> 0 <= rf -> forall b, In b (ew T 1 x rf) -> 0 <= b <= rf.
Proof.
  induction T as [|b IH|b IH]; intros x rf C Hx Hr w I; cbn [tdim cones ew] in *; [destruct I as [<-|[]]; lra| |discriminate C].
  pose proof (Hx (tdim b) ltac:(lia)) as X. apply in_app_iff in I.
  destruct I as [I|I]; (apply IH in I; [|exact C|intros; apply Hx; lia|]); rewrite ?Rmult_1_l in *; nra.
Qed.
Lemma erow_bound T : forall j x rf, cones T = 0%nat -> (j < tdim T)%nat -> (forall k, (k < tdim T)%nat -> 0 <= x k <= 1) -> 0 <= rf -> forall b, In b (erow T j x rf) -> Rabs b <= rf.
Proof.
  induction T as [|b IH|b IH]; intros j x rf C Hj Hx Hr w I; cbn [tdim cones erow] in *; [lia| |discriminate C].
  pose proof (Hx (tdim b) ltac:(lia)) as X. destruct (Nat.eqb_spec j (tdim b)) as [E|N]; apply in_app_iff in I.
  - destruct I as [I|I]; apply in_map_iff in I; destruct I as (v & <- & I); apply (ew_bound b x rf C ltac:(intros; apply Hx; lia) Hr) in I; apply abs_le; lra.
  - destruct I as [I|I]; (apply IH in I; [|exact C|lia|intros; apply Hx; lia|rewrite ?Rmult_1_l; nra]); rewrite ?Rmult_1_l in *; nra.
Qed.
Fixpoint asum (m : list R) : R := match m with [] => 0 | b :: m => Rabs b + asum m end.
Lemma asum_app m m' : asum (m ++ m') = asum m + asum m'.
Proof. induction m as [|a m IH]; cbn [app asum]; [ring|rewrite IH; ring]. Qed.
Lemma asum_scale s m : Rabs s = 1 -> (forall b, In b m -> 0 <= b) -> asum (map (Rmult s) m) = lsumR m.
Proof.
  intros S. induction m as [|a m IH]; intro P; cbn [map asum lsumR]; [reflexivity|]. rewrite IH by (intros; apply P; now right).
  rewrite Rabs_mult, S, Rabs_pos_eq by (apply P; now left). ring.
Qed.
Lemma erow_sum T : forall j x rf, cones T = 0%nat -> (j < tdim T)%nat -> (forall k, (k < tdim T)%nat -> 0 <= x k <= 1) -> 0 <= rf -> asum (erow T j x rf) = 2 * rf.
Proof.
  induction T as [|b IH|b IH]; intros j x rf C Hj Hx Hr; cbn [tdim cones erow] in *; [lia| |discriminate C].
  pose proof (Hx (tdim b) ltac:(lia)) as X. destruct (Nat.eqb_spec j (tdim b)) as [E|N]; rewrite asum_app.
  - assert (P : forall w, In w (ew b 1 x rf) -> 0 <= w) by (intros w I; apply (ew_bound b x rf C ltac:(intros; apply Hx; lia) Hr) in I; lra).
    rewrite !asum_scale; try assumption; [|apply Rabs_R1|rewrite Rabs_left by lra; ring]. rewrite (proj2 (ew_sum b)). ring.
  - rewrite !IH; try assumption; try lia; try (intros; apply Hx; lia); rewrite ?Rmult_1_l; try nra.
Qed.

Section V.
Variables (prec emax : Z).
Context (Hp : Prec_gt_0 prec) (He : Prec_lt_emax prec emax).
Hypothesis H2 : (7 <= prec)%Z.
Notation float := (binary_float prec emax).
Notation FVec := (nat -> float).
Notation FMat := (nat -> nat -> float).
Notation u := (bpow radix2 (- prec)).
Notation eta := (eta prec emax).
Notation add' := (fadd prec emax Hp He).
Notation sub' := (fsub prec emax Hp He).
Notation mul' := (fmul prec emax Hp He).
Notation one := (ofZ prec emax Hp He 1).
Notation fw := (fw prec emax Hp He).
Notation fcomb := (fcomb prec emax Hp He).
Notation facc := (facc prec emax Hp He).
Notation wdist := (wdist prec emax).
Notation wsum := (wsum prec emax).
Notation wabs := (wabs prec emax).
Notation Ebound := (Ebound prec emax).

(** ** the weights of row j *)
Fixpoint frow (T : Topo) (j : nat) (df : float) (x : FVec) (rf : float) : list float :=
  match T with
  | Pri b =>
      let xn := mul' df (x (tdim b)) in
      if Nat.eqb j (tdim b) then fw b df x (Bopp rf) ++ fw b df x rf
      else frow b j df x (mul' rf (sub' one xn)) ++ frow b j df x (mul' rf xn)
  | _ => []
  end.
Lemma frow_length T : forall j df x rf, cones T = 0%nat -> (j < tdim T)%nat -> length (frow T j df x rf) = nv T.
Proof.
  induction T as [|b IH|b IH]; intros j df x rf C Hj; cbn [tdim cones frow nv] in *; [lia| |discriminate C]. cbv zeta.
  destruct (Nat.eqb_spec j (tdim b)) as [E|N]; rewrite app_length; [rewrite !fw_length; reflexivity|]. rewrite !IH by lia. reflexivity.
Qed.
Lemma combine_ne (l : list float) (c : list FVec) : (0 < length l)%nat -> (length l <= length c)%nat -> combine l c <> [].
Proof. intros H1 H3 E. apply (f_equal (@length _)) in E. rewrite combine_length in E. simpl in E. lia. Qed.

Variables (cdim : nat) (tid : N) (mydim : nat).
Notation jtf := (fml_jt prec emax Hp He cdim tid mydim).
Lemma jt_spec jk : forall dim add cit df x rf (jt : FMat), (dim <= mydim)%nat -> cones (lt tid dim) = 0%nat -> (nv (lt tid dim) <= length cit)%nat ->
  exists jt', jtf jk dim add cit df x rf jt = Some (skipn (nv (lt tid dim)) cit, jt') /\
    (forall j k, (j < dim)%nat -> (k < cdim)%nat -> jt' j k = fcomb add (combine (frow (lt tid dim) j df x rf) cit) (jt j) k) /\
    (forall j, (dim <= j)%nat -> jt' j = jt j).
Proof.
  induction dim; intros add cit df x rf jt Hd HC Hl.
  - change (lt tid 0) with Pt in *. cbn [fml_jt nv] in *. destruct cit as [|o cit]; [simpl in Hl; lia|]. exists jt. cbn [skipn]. split; [reflexivity|]. split; [intros; lia|reflexivity].
  - unfold lt in *. cbn [topo_of] in *. cbn [fml_jt]. rewrite isPrism_level by assumption.
    set (b := topo_of (N.lor tid 1) dim) in *. assert (Db : tdim b = dim) by (apply tdim_topo).
    destruct (N.testbit (N.lor tid 1) (N.of_nat dim)) eqn:TB; [|discriminate HC].
    assert (HC' : cones b = 0%nat) by exact HC. cbn [nv] in Hl.
    set (xn := mul' df (x dim)). set (cxn := sub' one xn).
    destruct (IHdim add cit df x (mul' rf cxn) jt ltac:(lia) HC' ltac:(lia)) as (jt1 & E1 & R1 & U1). rewrite E1, obind_some.
    destruct (IHdim true (skipn (nv b) cit) df x (mul' rf xn) jt1 ltac:(lia) HC' ltac:(rewrite skipn_length; lia)) as (jt2 & E2 & R2 & U2). fold b in E2. rewrite E2, obind_some.
    assert (GS := fglob_spec prec emax Hp He cdim tid mydim dim). unfold lt in GS. fold b in GS.
    rewrite GS by lia. rewrite obind_some. rewrite GS by (rewrite ?skipn_length; lia). rewrite obind_some.
    eexists. split; [rewrite skipn_add; cbn [nv]; reflexivity|]. split.
    + intros j k Hj Hk. unfold fmrow. cbn [frow]. rewrite Db. cbv zeta. destruct (Nat.eqb_spec j dim) as [Ej|Nj].
      * rewrite fset_in by assumption. unfold fcomb at 1. rewrite fset_in by assumption. subst j. rewrite (U2 dim (le_n _)), (U1 dim (le_n _)).
        rewrite combine_app by (rewrite fw_length; lia). rewrite fcomb_app by (apply combine_fw_ne; lia). now rewrite fw_length.
      * rewrite R2 by lia. unfold fcomb at 1. rewrite R1 by lia. fold xn cxn.
        assert (FL : forall r, length (frow b j df x r) = nv b) by (intro r; apply frow_length; [exact HC'|lia]).
        rewrite combine_app by (rewrite FL; lia). rewrite fcomb_app by (apply combine_ne; rewrite FL; [apply nv_pos|lia]). now rewrite FL.
    + intros j Hj. unfold fmrow. destruct (Nat.eqb_spec j dim) as [Ej|Nj]; [lia|]. rewrite U2, U1 by lia. reflexivity.
Qed.

(** ** errors of the weights *)
Lemma prisms_sgn a s : 0 <= a <= / 16 -> s = 1 \/ s = -1 -> forall T, cones T = 0%nat -> forall df dfR (x : FVec) rf r eps e,
  (forall k, (k < tdim T)%nat -> is_finite (mul' df (x k)) = true /\ 0 <= dfR * B2R (x k) <= 1 /\
     Rabs (B2R (mul' df (x k)) - dfR * B2R (x k)) <= a) ->
  is_finite rf = true -> Rabs (B2R rf) <= bpow radix2 e -> (0 <= e)%Z -> (e + Z.of_nat (tdim T) + 1 <= emax)%Z ->
  0 <= r -> 0 <= eps -> Rabs (s * B2R rf - r) <= eps ->
  Forall (fun w => is_finite w = true) (fw T df x rf) /\
  wdist (fw T df x rf) (map (Rmult s) (ew T dfR (fun k => B2R (x k)) r)) <= Ebound (2 * a + 3 * u) (INR (tdim T) * (2 * a + 3 * u)) (tdim T) eps r.
Proof.
  intros A S. destruct (u_small prec H2) as (U0 & U1).
  assert (SS : s * s = 1) by (destruct S as [-> | ->]; ring). assert (SA : Rabs s = 1) by (destruct S as [-> | ->]; [apply Rabs_R1|rewrite Rabs_left by lra; ring]).
  assert (SX : forall v w, Rabs (s * v - w) = Rabs (v - s * w)).
  { intros v w. replace (s * v - w) with (s * (v - s * w)) by (rewrite Rmult_minus_distr_l, <- Rmult_assoc, SS; ring). rewrite Rabs_mult, SA. ring. }
  induction T as [|b IH|b IH]; intros Z df dfR x rf r eps e Hx Fr Lr E0 E1 R0 P0 Ee; cbn [cones] in Z; [| |discriminate Z].
  - cbn [P_FloatGlobal.fw ew map P_FloatGlobal3.wdist tdim]. split; [repeat constructor; exact Fr|]. unfold P_FloatGlobal3.Ebound. cbn [INR pow]. rewrite SX in Ee. lra.
  - cbn [P_FloatGlobal.fw ew tdim] in *. cbv zeta. rewrite map_app.
    destruct (Hx (tdim b) (Nat.lt_succ_diag_r _)) as (Fx & X & Ex).
    set (xn := mul' df (x (tdim b))) in *. set (xr := dfR * B2R (x (tdim b))) in *.
    pose proof Ex as Ex'. apply abs_le in Ex'.
    destruct (level_fp prec emax Hp He H2 rf xn e Fr Fx Lr E0 ltac:(lia)) as (Fc & Ec & F1 & F2 & Q1 & Q2 & L1 & L2); [apply abs_le; lra|apply abs_le; lra|].
    set (c := sub' one xn) in *.
    assert (Ec' : Rabs (B2R c - (1 - xr)) <= a + u) by (apply abs_le; apply abs_le in Ec; lra).
    assert (SQ : forall v w, Rabs (s * v - s * B2R rf * w) = Rabs (v - B2R rf * w) /\ Rabs (s * B2R rf * w) = Rabs (B2R rf * w)).
    { intros v w. split; [replace (s * v - s * B2R rf * w) with (s * (v - B2R rf * w)) by ring|rewrite Rmult_assoc]; rewrite Rabs_mult, SA; ring. }
    destruct (level_err prec emax H2 (s * B2R rf) r (B2R c) (1 - xr) (B2R xn) xr (s * B2R (mul' rf c)) (s * B2R (mul' rf xn)) eps a R0 X eq_refl P0 A Ee Ec' Ex) as (e1 & e2 & W1 & W2 & P1 & P2 & SE).
    { rewrite (proj1 (SQ _ _)), (proj2 (SQ 0 _)). exact Q1. }
    { rewrite (proj1 (SQ _ _)), (proj2 (SQ 0 _)). exact Q2. }
    assert (Hx' : forall k, (k < tdim b)%nat -> is_finite (mul' df (x k)) = true /\ 0 <= dfR * B2R (x k) <= 1 /\
      Rabs (B2R (mul' df (x k)) - dfR * B2R (x k)) <= a) by (intros; apply Hx; lia).
    destruct (IH Z df dfR x (mul' rf c) (r * (1 - xr)) e1 (e + 1)%Z Hx' F1 L1 ltac:(lia) ltac:(lia)) as (G1 & D1); auto;
      [apply Rmult_le_pos; lra|].
    destruct (IH Z df dfR x (mul' rf xn) (r * xr) e2 (e + 1)%Z Hx' F2 L2 ltac:(lia) ltac:(lia)) as (G2 & D2); auto;
      [apply Rmult_le_pos; lra|].
    split; [apply Forall_app; now split|].
    rewrite wdist_app by (rewrite fw_length, map_length, ew_length; reflexivity).
    eapply Rle_trans; [apply Rplus_le_compat; [exact D1|exact D2]|].
    rewrite S_INR. replace ((INR (tdim b) + 1) * (2 * a + 3 * u)) with (INR (tdim b) * (2 * a + 3 * u) + (2 * a + 3 * u)) by ring.
    apply Ebound_split; auto; try lra.
    + apply Rmult_le_pos; [apply pos_INR|lra].
Qed.

Lemma Ebound_S b d eps r : 0 <= b -> 0 <= eps -> 0 <= r -> Ebound b (INR d * b) d eps r <= Ebound b (INR (S d) * b) (S d) eps r.
Proof.
  intros B E R0. destruct (eta_small prec emax He H2) as (N0 & N1).
  pose proof (Ebound_split prec emax He H2 b (INR d * b) d eps eps 0 r r 0 B) as Q.
  assert (K : 0 <= INR d * b) by (apply Rmult_le_pos; [apply pos_INR|exact B]). specialize (Q K E R0 (Rplus_0_r r)).
  assert (0 <= Ebound b (INR d * b) d 0 0).
  { unfold P_FloatGlobal3.Ebound. rewrite Rmult_0_r, Rplus_0_r, Rmult_0_r, Rplus_0_l.
    repeat apply Rmult_le_pos; try apply pow_le; try apply pos_INR; lra. }
  rewrite S_INR. replace ((INR d + 1) * b) with (INR d * b + b) by ring. nra.
Qed.
Lemma rows_err T : cones T = 0%nat -> forall j df (x : FVec) rf r eps e, (j < tdim T)%nat ->
  (forall k, (k < tdim T)%nat -> is_finite (mul' df (x k)) = true /\ 0 <= 1 * B2R (x k) <= 1 /\
     Rabs (B2R (mul' df (x k)) - 1 * B2R (x k)) <= 0) ->
  is_finite rf = true -> Rabs (B2R rf) <= bpow radix2 e -> (0 <= e)%Z -> (e + Z.of_nat (tdim T) + 1 <= emax)%Z ->
  0 <= r -> 0 <= eps -> Rabs (B2R rf - r) <= eps ->
  Forall (fun w => is_finite w = true) (frow T j df x rf) /\
  wdist (frow T j df x rf) (erow T j (fun k => B2R (x k)) r) <= 2 * Ebound (3 * u) (INR (tdim T) * (3 * u)) (tdim T) eps r.
Proof.
  destruct (u_small prec H2) as (U0 & U1).
  induction T as [|b IH|b IH]; intros Z j df x rf r eps e Hj Hx Fr Lr E0 E1 R0 P0 Ee; cbn [cones] in Z; [cbn [tdim] in Hj; lia| |discriminate Z].
  cbn [frow erow tdim] in *. cbv zeta.
  assert (Hx' : forall k, (k < tdim b)%nat -> is_finite (mul' df (x k)) = true /\ 0 <= 1 * B2R (x k) <= 1 /\
      Rabs (B2R (mul' df (x k)) - 1 * B2R (x k)) <= 0) by (intros; apply Hx; lia).
  destruct (Nat.eqb_spec j (tdim b)) as [Ej|Nj].
  - assert (A0 : 0 <= 0 <= / 16) by lra.
    destruct (prisms_sgn 0 (-1) A0 (or_intror eq_refl) b Z df 1 x (Bopp rf) r eps e Hx') as (G1 & D1); auto; try lia.
    { now rewrite is_finite_Bopp. } { now rewrite B2R_Bopp, Rabs_Ropp. }
    { rewrite B2R_Bopp. replace (-1 * - B2R rf - r) with (B2R rf - r) by ring. exact Ee. }
    destruct (prisms_sgn 0 1 A0 (or_introl eq_refl) b Z df 1 x rf r eps e Hx') as (G2 & D2); auto; try lia.
    { now rewrite Rmult_1_l. }
    split; [apply Forall_app; now split|].
    rewrite wdist_app by (rewrite fw_length, map_length, ew_length; reflexivity).
    replace (2 * 0 + 3 * u) with (3 * u) in * by ring.
    pose proof (Ebound_S (3 * u) (tdim b) eps r ltac:(lra) P0 R0). lra.
  - destruct (Hx (tdim b) (Nat.lt_succ_diag_r _)) as (Fx & X & Ex).
    set (xn := mul' df (x (tdim b))) in *. set (xr := 1 * B2R (x (tdim b))) in *.
    pose proof Ex as Ex'. apply abs_le in Ex'.
    destruct (level_fp prec emax Hp He H2 rf xn e Fr Fx Lr E0 ltac:(lia)) as (Fc & Ec & F1 & F2 & Q1 & Q2 & L1 & L2); [apply abs_le; lra|apply abs_le; lra|].
    set (c := sub' one xn) in *.
    assert (Ec' : Rabs (B2R c - (1 - xr)) <= 0 + u) by (apply abs_le; apply abs_le in Ec; lra).
    destruct (level_err prec emax H2 (B2R rf) r (B2R c) (1 - xr) (B2R xn) xr (B2R (mul' rf c)) (B2R (mul' rf xn)) eps 0 R0 X eq_refl P0 ltac:(lra) Ee Ec' Ex Q1 Q2) as (e1 & e2 & W1 & W2 & P1 & P2 & SE).
    destruct (IH Z j df x (mul' rf c) (r * (1 - xr)) e1 (e + 1)%Z ltac:(lia) Hx' F1 L1 ltac:(lia) ltac:(lia)) as (G1 & D1); auto;
      [apply Rmult_le_pos; lra|].
    destruct (IH Z j df x (mul' rf xn) (r * xr) e2 (e + 1)%Z ltac:(lia) Hx' F2 L2 ltac:(lia) ltac:(lia)) as (G2 & D2); auto;
      [apply Rmult_le_pos; lra|].
    split; [apply Forall_app; now split|].
    rewrite wdist_app by (rewrite frow_length, erow_length by (auto; lia); reflexivity).
    assert (Ebound (3 * u) (INR (tdim b) * (3 * u)) (tdim b) e1 (r * (1 - xr)) + Ebound (3 * u) (INR (tdim b) * (3 * u)) (tdim b) e2 (r * xr)
      <= Ebound (3 * u) (INR (S (tdim b)) * (3 * u)) (S (tdim b)) eps r); [|lra].
    rewrite S_INR. replace ((INR (tdim b) + 1) * (3 * u)) with (INR (tdim b) * (3 * u) + 3 * u) by ring.
    replace (2 * 0 + 3 * u) with (3 * u) in SE by ring.
    apply Ebound_split; auto; try lra; try ring.
    apply Rmult_le_pos; [apply pos_INR|lra].
Qed.
(** from one, at a point of the cube *)
Lemma row_weights T j (x : FVec) : cones T = 0%nat -> (j < tdim T)%nat -> (Z.of_nat (tdim T) + 2 <= emax)%Z -> 16 * INR (tdim T) * u <= / 4 ->
  (forall k, (k < tdim T)%nat -> is_finite (x k) = true /\ 0 <= B2R (x k) <= 1) ->
  Forall (fun w => is_finite w = true) (frow T j one x one) /\
  wdist (frow T j one x one) (erow T j (fun k => B2R (x k)) 1) <= 16 * INR (tdim T) * u.
Proof.
  intros Z Hj Hd Hu Hx. destruct (u_small prec H2) as (U0 & U1). destruct (eta_small prec emax He H2) as (N0 & N1).
  pose proof (is_one prec emax Hp He ltac:(lia)) as O1. pose proof (pos_INR (tdim T)) as Pd.
  set (d := tdim T) in *. assert (Pdu : 0 <= INR d * u) by (apply Rmult_le_pos; lra).
  destruct (rows_err T Z j one x one 1 0 0 Hj) as (G & D); try lra; try lia.
  - intros k Hk. destruct (Hx k Hk) as (Fk & Xk).
    destruct (mul_exact prec emax Hp He one (x k) 1 (B2R (x k)) (x k) (B2R (x k)) O1 (conj Fk eq_refl) (conj Fk eq_refl) (Rmult_1_l _)) as (FM & EM).
    split; [exact FM|]. rewrite EM, Rmult_1_l. split; [exact Xk|]. rewrite Rminus_diag_eq, Rabs_R0 by reflexivity. lra.
  - apply O1.
  - destruct O1 as (_ & ->). rewrite Rabs_R1. cbn. lra.
  - destruct O1 as (_ & ->). rewrite Rminus_diag_eq, Rabs_R0 by reflexivity. lra.
  - split; [exact G|]. eapply Rle_trans; [exact D|]. fold d. unfold P_FloatGlobal3.Ebound.
    pose proof (bern (3 * u) ltac:(lra) d) as B.
    assert (G0 : 0 <= (1 + 3 * u) ^ d) by (apply pow_le; lra).
    assert (G2 : (1 + 3 * u) ^ d <= 2).
    { assert (INR d * (3 * u) <= / 2) by lra. nra. }
    set (g := (1 + 3 * u) ^ d) in *. clearbody g.
    assert (P2 : 2 ^ d * eta <= u).
    { unfold P_FloatNear.eta. replace (2 ^ d) with (bpow radix2 (Z.of_nat d)).
      - rewrite <- bpow_plus. apply bpow_le. lia.
      - clear. induction d as [|d IH]; [reflexivity|]. rewrite Nat2Z.inj_succ, <- Z.add_1_l, bpow_plus, IH. reflexivity. }
    replace (INR d * 2 ^ d * g * eta) with (g * (INR d * (2 ^ d * eta))) by ring.
    assert (Q1 : INR d * (2 ^ d * eta) <= INR d * u) by (apply Rmult_le_compat_l; lra).
    assert (Q0 : 0 <= INR d * (2 ^ d * eta)).
    { apply Rmult_le_pos; [lra|]. apply Rmult_le_pos; [apply pow_le; lra|lra]. }
    assert (Q2 : g * (INR d * (2 ^ d * eta)) <= 2 * (INR d * u)) by (apply Rmult_le_compat; lra).
    assert (Q3 : g * (0 + INR d * (3 * u) * 1) <= 2 * (INR d * (3 * u))).
    { replace (0 + INR d * (3 * u) * 1) with (INR d * (3 * u)) by ring. apply Rmult_le_compat_r; lra. }
    lra.
Qed.

(** ** sums with weights of either sign *)
Lemma fcomb_err94 k B l y : 0 <= B <= bpow radix2 (emax - 4) -> wabs l <= 9 / 4 -> (forall p, In p l -> Rabs (B2R (fst p)) <= 2) -> l <> [] -> 6 * INR (length l) * u <= 1 ->
  (forall p, In p l -> is_finite (fst p) = true /\ is_finite (snd p k) = true /\ Rabs (B2R (snd p k)) <= B) ->
  is_finite (fcomb false l y k) = true /\
  Rabs (B2R (fcomb false l y k) - wsum k l) <= INR (length l) * (6 * u * B + 3 * eta).
Proof.
  intros (B0 & B1) W Wp N Nu Hl. destruct (u_small prec H2) as (U0 & U1). destruct (eta_small prec emax He H2) as (N0 & N1).
  pose proof (prec_emax prec emax He) as PE.
  set (n := INR (length l)) in *. assert (n0 : 0 <= n) by apply pos_INR.
  set (K := 4 * B + 4 * n * eta). set (s := 2 * u * B + u * K + 2 * eta).
  assert (Pn : 0 <= n * eta) by (apply Rmult_le_pos; lra).
  assert (Es : s <= 6 * u * B + 3 * eta).
  { unfold s, K. assert (u * (4 * n * eta) <= eta); [|lra]. replace (u * (4 * n * eta)) with ((4 * n * u) * eta) by ring.
    assert (4 * n * u <= 1) by (assert (0 <= n * u) by (apply Rmult_le_pos; lra); lra). nra. }
  assert (UB : 0 <= u * B) by (apply Rmult_le_pos; lra).
  assert (S0 : 0 <= s) by (unfold s, K; assert (0 <= u * (4 * B + 4 * n * eta)) by (apply Rmult_le_pos; lra); lra).
  assert (HK : B * (9 / 4) + n * s <= K).
  { assert (n * s <= n * (6 * u * B + 3 * eta)) by (apply Rmult_le_compat_l; lra).
    assert (n * (6 * u * B + 3 * eta) = (6 * n * u) * B + 3 * (n * eta)) by ring.
    assert ((6 * n * u) * B <= 1 * B) by (apply Rmult_le_compat_r; lra). unfold K. lra. }
  assert (KM : K <= bpow radix2 (emax - 1)).
  { unfold K. assert (4 * n * eta <= 1).
    { assert (n * u <= 1) by (assert (0 <= n * u) by (apply Rmult_le_pos; lra); lra).
      assert (n * eta <= n * (u / 32)) by (apply Rmult_le_compat_l; lra). lra. }
    assert (bpow radix2 (emax - 4) = / 8 * bpow radix2 (emax - 1)).
    { replace (emax - 4)%Z with (-3 + (emax - 1))%Z by ring. rewrite bpow_plus. reflexivity. }
    assert (2 <= bpow radix2 (emax - 1)) by (change 2 with (bpow radix2 1); apply bpow_le; lia). lra. }
  destruct l as [|p l]; [easy|]. cbn [P_FloatGlobal.fcomb].
  destruct (Hl p (or_introl eq_refl)) as (Fw & Fc & Lc). pose proof (Wp p (or_introl eq_refl)) as Lw.
  cbn [P_FloatGlobal6.wsum P_FloatGlobal6.wabs] in *. set (w := B2R (fst p)) in *. set (c := B2R (snd p k)) in *.
  assert (Lwc : Rabs (w * c) <= Rabs w * B) by (rewrite Rabs_mult; apply Rmult_le_compat_l; [apply Rabs_pos|exact Lc]).
  assert (Lw2 : Rabs w * B <= 2 * B) by (apply Rmult_le_compat_r; lra).
  assert (BK : 2 * B <= K) by (assert (0 <= n * s) by (apply Rmult_le_pos; lra); lra).
  destruct (fmul_ok prec emax Hp He ltac:(lia) (fst p) (snd p k) Fw Fc) as (M1 & M2); [fold w c; lra|]. fold w c in M1.
  pose proof (rnd_rel prec emax Hp (w * c)) as Q. rewrite <- M1 in Q.
  assert (UK : 0 <= u * K) by (apply Rmult_le_pos; lra).
  assert (Q' : Rabs (B2R (mul' (fst p) (snd p k)) - w * c) <= s).
  { assert (u * Rabs (w * c) <= u * (2 * B)) by (apply Rmult_le_compat_l; lra). unfold s. lra. }
  assert (En : n = INR (length l) + 1) by (unfold n; cbn [length]; now rewrite S_INR).
  pose proof (wabs_pos prec emax l) as PW.
  destruct (facc_err prec emax Hp He H2 k B K s B0 BK KM eq_refl l _ (w * c) s M2 Q') as (G1 & G2).
  - intros q Hq. destruct (Hl q (or_intror Hq)) as (? & ? & ?). repeat split; auto. apply Wp. now right.
  - replace (INR (length l)) with (n - 1) by lra.
    assert (B * wabs l <= B * (9 / 4 - Rabs w)) by (apply Rmult_le_compat_l; lra). lra.
  - split; [exact G1|]. eapply Rle_trans; [exact G2|]. rewrite En.
    assert ((INR (length l) + 1) * s <= (INR (length l) + 1) * (6 * u * B + 3 * eta)) by (apply Rmult_le_compat_l; [pose proof (pos_INR (length l)); lra|exact Es]).
    lra.
Qed.


Lemma wabs_near : forall l m (cs : list FVec), length l = length m -> wabs (combine l cs) <= asum m + wdist l m.
Proof.
  induction l as [|a l IH]; intros [|b m] cs H; try discriminate H; [cbn; lra|].
  assert (0 <= asum m + wdist l m) by (eapply Rle_trans; [apply (wabs_pos prec emax)|apply (IH m []); simpl in H; lia]).
  pose proof (Rabs_pos b) as B0.
  destruct cs as [|c cs]; cbn [combine P_FloatGlobal6.wabs asum P_FloatGlobal3.wdist fst].
  - pose proof (Rabs_pos (B2R a - b)). lra.
  - specialize (IH m cs ltac:(simpl in H; lia)). pose proof (near_abs (B2R a) b _ (Rle_refl _)) as A. lra.
Qed.
Lemma wdist_each : forall l m (P : R), length l = length m -> (forall b, In b m -> Rabs b <= P) -> forall w, In w l -> Rabs (B2R w) <= P + wdist l m.
Proof.
  induction l as [|a l IH]; intros [|b m] P H Hb w I; try discriminate H; [easy|]. cbn [P_FloatGlobal3.wdist].
  assert (W0 : 0 <= wdist l m).
  { clear. revert m. induction l as [|a l IH]; intros [|b m]; cbn [P_FloatGlobal3.wdist]; try lra. specialize (IH m). pose proof (Rabs_pos (B2R a - b)). lra. }
  pose proof (Rabs_pos (B2R a - b)) as D0. destruct I as [->|I].
  - pose proof (near_abs (B2R w) b _ (Rle_refl _)) as A. specialize (Hb b (or_introl eq_refl)). lra.
  - specialize (IH m P ltac:(simpl in H; lia) (fun b Hb' => Hb b (or_intror Hb')) w I). lra.
Qed.
End V.
