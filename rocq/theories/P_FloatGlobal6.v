(** C68: summation of the weighted corners; the total error. *)
From Coq Require Import PeanoNat NArith ZArith Lia Bool List Reals Lra FunctionalExtensionality.
From Flocq Require Import Core Relative IEEE754.BinarySingleNaN.
From Verif Require Import M_Type M_RefTopo M_RefGeo M_Matrix M_MultiLinear M_Float M_FloatGlobal S_Topo S_RefGeo S_MultiLinear S_FloatGlobal
  P_Type P_RefTopo P_RefTopo3 P_RSum P_RefGeo2 P_ML1 P_ML2 P_ML3 P_Float P_FloatNear P_FloatGlobal P_FloatGlobal2 P_FloatGlobal3 P_FloatGlobal4 P_FloatGlobal5.
Import ListNotations.
Local Open Scope R_scope.

(** ** topologies *)
Lemma cones_lt id : forall dim, cones (lt id dim) = ncones (topo_of id dim).
Proof.
  induction dim as [|d IH]; [reflexivity|]. rewrite lt_S, topo_S. destruct (N.testbit id (N.of_nat d)); cbn [orb cones ncones]; [exact IH|].
  destruct d as [|d]; [reflexivity|]. cbn [Nat.eqb cones]. rewrite IH.
  destruct (topo_of id (S d)) eqn:E; [|reflexivity..]. apply topo_Pt in E. discriminate E.
Qed.
Lemma lt_chain id : forall dim, simT (topo_of id dim) -> lt id dim = chainT dim.
Proof.
  induction dim as [|d IH]; intro H; [reflexivity|]. rewrite lt_S. rewrite topo_S in H.
  destruct (N.testbit id (N.of_nat d)); cbn [orb simT] in *.
  - apply topo_Pt in H. subst d. reflexivity.
  - destruct d as [|d]; [reflexivity|]. cbn [Nat.eqb]. rewrite (IH H). reflexivity.
Qed.
Lemma chain_inside : forall n x a, insideT (chainT n) x a -> (forall k, (k < n)%nat -> 0 <= x k) /\ (0 <= a -> rsum n x <= a).
Proof.
  induction n as [|n IH]; intros x a H; [split; [lia|intro; cbn [rsum]; lra]|].
  destruct n as [|n].
  - cbn [chainT insideT tdim] in H. split; [intros k Hk; replace k with 0%nat by lia; lra|]. intros _. cbn [rsum]. lra.
  - change (chainT (S (S n))) with (Pyr (chainT (S n))) in H. remember (S n) as m. cbn [insideT] in H. rewrite tdim_chain in H.
    destruct H as (H1 & H). destruct (IH x _ H) as (P & Q). split.
    + intros k Hk. destruct (Nat.eq_dec k m) as [->|N]; [lra|apply P; lia].
    + intros A. rewrite rsum_S. specialize (Q ltac:(lra)). lra.
Qed.

Section V.
Variables (prec emax : Z).
Context (Hp : Prec_gt_0 prec) (He : Prec_lt_emax prec emax).
Hypothesis H2 : (7 <= prec)%Z.
Notation float := (binary_float prec emax).
Notation FVec := (nat -> float).
Notation fexp := (SpecFloat.fexp prec emax).
Notation rnd := (round radix2 fexp (round_mode mode_NE)).
Notation u := (bpow radix2 (- prec)).
Notation eta := (eta prec emax).
Notation add' := (fadd prec emax Hp He).
Notation mul' := (fmul prec emax Hp He).
Notation one := (ofZ prec emax Hp He 1).
Notation fw := (fw prec emax Hp He).
Notation wdist := (wdist prec emax).

Lemma weights_err id dim (x : FVec) : (id < bit dim)%N -> tame id dim -> (Z.of_nat dim + 2 <= emax)%Z ->
  (isSimplex (GT2 id dim) = true -> (2 <= ncones (topo_of id dim))%nat -> ((prec - 5) * Z.of_nat dim + 4 <= emax)%Z) ->
  (28 * INR dim + 66) * u <= / 4 ->
  (forall k, (k < dim)%nat -> is_finite (x k) = true) -> insideT (topo_of id dim) (fun k => B2R (x k)) 1 ->
  Forall (fun w => is_finite w = true) (fw (lt id dim) one x one) /\
  wdist (fw (lt id dim) one x one) (ew (lt id dim) 1 (fun k => B2R (x k)) 1) <= (28 * INR dim + 66) * u.
Proof.
  intros Hid Ht Hd Hsd Hu Fx Hin. destruct (u_small prec H2) as (U0 & U1). destruct (eta_small prec emax He H2) as (N0 & N1).
  apply (insideT_lt id dim) in Hin. pose proof (is_one prec emax Hp He ltac:(lia)) as O1. pose proof (pos_INR dim) as Pd.
  assert (Pdu : 0 <= INR dim * u) by (apply Rmult_le_pos; lra).
  assert (OC : (ncones (topo_of id dim) <= 1)%nat ->
    Forall (fun w => is_finite w = true) (fw (lt id dim) one x one) /\
    wdist (fw (lt id dim) one x one) (ew (lt id dim) 1 (fun k => B2R (x k)) 1) <= (28 * INR dim + 66) * u).
  { intros HC. rewrite <- cones_lt in HC.
    assert (Fx' : forall k, (k < tdim (lt id dim))%nat -> is_finite (x k) = true) by (intros k Hk; rewrite tdim_lt in Hk; auto).
    destruct (onecone_err prec emax Hp He H2 (lt id dim) HC one x one 1 0 0 O1 Fx' Hin) as (G & D); try lra; try lia.
    - apply O1.
    - destruct O1 as (_ & ->). rewrite Rabs_R1. cbn. lra.
    - rewrite tdim_lt. lia.
    - destruct O1 as (_ & ->). rewrite Rminus_diag_eq, Rabs_R0 by reflexivity. lra.
    - split; [exact G|]. eapply Rle_trans; [exact D|]. rewrite tdim_lt. unfold Ebound.
      pose proof (bern (13 * u) ltac:(lra) dim) as B.
      assert (G2 : (1 + 13 * u) ^ dim <= 2).
      { assert (0 <= (1 + 13 * u) ^ dim) by (apply pow_le; lra).
        assert (INR dim * (13 * u) <= / 2) by lra. nra. }
      assert (G0 : 0 <= (1 + 13 * u) ^ dim) by (apply pow_le; lra).
      set (g := (1 + 13 * u) ^ dim) in *. clearbody g.
      assert (P2 : 2 ^ dim * eta <= u).
      { unfold P_FloatNear.eta. replace (2 ^ dim) with (bpow radix2 (Z.of_nat dim)).
        - rewrite <- bpow_plus. apply bpow_le. lia.
        - clear. induction dim as [|d IH]; [reflexivity|]. rewrite Nat2Z.inj_succ, <- Z.add_1_l, bpow_plus, IH. reflexivity. }
      replace (INR dim * 2 ^ dim * g * eta) with (g * (INR dim * (2 ^ dim * eta))) by ring.
      assert (Q1 : INR dim * (2 ^ dim * eta) <= INR dim * u) by (apply Rmult_le_compat_l; lra).
      assert (Q0 : 0 <= INR dim * (2 ^ dim * eta)).
      { apply Rmult_le_pos; [lra|]. apply Rmult_le_pos; [apply pow_le; lra|lra]. }
      assert (Q2 : g * (INR dim * (2 ^ dim * eta)) <= 2 * (INR dim * u)) by (apply Rmult_le_compat; lra).
      assert (Q3 : g * (0 + (INR dim * (13 * u) + 33 * u) * 1) <= 2 * (INR dim * (13 * u) + 33 * u)).
      { replace (0 + (INR dim * (13 * u) + 33 * u) * 1) with (INR dim * (13 * u) + 33 * u) by ring. apply Rmult_le_compat_r; lra. }
      lra. }
  destruct (Nat.le_gt_cases (ncones (topo_of id dim)) 1) as [HC|HC]; [now apply OC|].
  destruct Ht as [HC'|HS]; [now apply OC|].
  specialize (Hsd HS HC). apply isSimplex_simT in HS; [|exact Hid].
  rewrite (lt_chain id dim HS) in *. destruct (chain_inside dim _ 1 Hin) as (X0 & XS). specialize (XS ltac:(lra)).
  pose proof (ew_sw dim 1 (fun k => B2R (x k)) ltac:(lra) X0 XS) as ES. rewrite Rinv_1 in ES. rewrite ES.
  destruct O1 as (F1 & V1).
  destruct (chain_err prec emax Hp He H2 dim x one one 1 0 0 0) as (G & D); auto; try lra; try lia.
  - rewrite V1. replace (1 * 1 - 1) with 0 by ring. rewrite Rabs_R0. lra.
  - rewrite V1, Rminus_diag_eq, Rabs_R0 by reflexivity. lra.
  - rewrite V1, Rabs_R1, Z.mul_0_r. cbn. lra.
  - rewrite V1, Rabs_R1, Z.mul_0_r. cbn. lra.
  - split; [exact G|]. eapply Rle_trans; [exact D|]. lra.
Qed.

(** ** summation *)
Fixpoint wsum (k : nat) (l : list (float * FVec)) : R :=
  match l with [] => 0 | p :: l => B2R (fst p) * B2R (snd p k) + wsum k l end.
Fixpoint wabs (l : list (float * FVec)) : R :=
  match l with [] => 0 | p :: l => Rabs (B2R (fst p)) + wabs l end.
Lemma wabs_pos l : 0 <= wabs l.
Proof. induction l as [|p l IH]; cbn [wabs]; [lra|]. pose proof (Rabs_pos (B2R (fst p))). lra. Qed.

Lemma facc_err k B K s : 0 <= B -> 2 * B <= K -> K <= bpow radix2 (emax - 1) -> s = 2 * u * B + u * K + 2 * eta -> forall l acc A e0,
  is_finite acc = true -> Rabs (B2R acc - A) <= e0 ->
  (forall p, In p l -> is_finite (fst p) = true /\ is_finite (snd p k) = true /\ Rabs (B2R (snd p k)) <= B /\ Rabs (B2R (fst p)) <= 2) ->
  Rabs A + B * wabs l + e0 + INR (length l) * s <= K ->
  is_finite (facc prec emax Hp He k acc l) = true /\
  Rabs (B2R (facc prec emax Hp He k acc l) - (A + wsum k l)) <= e0 + INR (length l) * s.
Proof.
  intros B0 BK KM Es. destruct (u_small prec H2) as (U0 & U1). destruct (eta_small prec emax He H2) as (N0 & N1).
  assert (UB : 0 <= u * B) by (apply Rmult_le_pos; lra). assert (UK : 0 <= u * K) by (apply Rmult_le_pos; lra).
  assert (S0 : 0 <= s) by (rewrite Es; lra).
  induction l as [|p l IH]; intros acc A e0 Fa Ea Hl HK.
  - cbn [facc fold_left wsum length INR]. split; [exact Fa|]. rewrite Rplus_0_r. lra.
  - cbn [wsum wabs length] in *. rewrite S_INR in *.
    destruct (Hl p (or_introl eq_refl)) as (Fw & Fc & Lc & Lw). set (w := B2R (fst p)) in *. set (c := B2R (snd p k)) in *.
    pose proof (Rabs_pos A) as PA. pose proof (wabs_pos l) as PW. pose proof (pos_INR (length l)) as Pl.
    assert (PBW : 0 <= B * wabs l) by (apply Rmult_le_pos; lra).
    assert (Pls : 0 <= INR (length l) * s) by (apply Rmult_le_pos; lra).
    assert (E0 : 0 <= e0) by (eapply Rle_trans; [apply Rabs_pos|exact Ea]).
    assert (Lwc : Rabs (w * c) <= Rabs w * B) by (rewrite Rabs_mult; apply Rmult_le_compat_l; [apply Rabs_pos|exact Lc]).
    assert (Lw2 : Rabs w * B <= 2 * B) by (apply Rmult_le_compat_r; lra).
    destruct (fmul_ok prec emax Hp He ltac:(lia) (fst p) (snd p k) Fw Fc) as (M1 & M2); [fold w c; lra|]. fold w c in M1.
    pose proof (rnd_rel prec emax Hp (w * c)) as Q. rewrite <- M1 in Q. set (q := mul' (fst p) (snd p k)) in *.
    assert (Q' : Rabs (B2R q - w * c) <= 2 * u * B + eta).
    { assert (u * Rabs (w * c) <= u * (2 * B)) by (apply Rmult_le_compat_l; lra). lra. }
    assert (Lacc : Rabs (B2R acc + B2R q) <= K).
    { replace (B2R acc + B2R q) with ((A + w * c) + ((B2R acc - A) + (B2R q - w * c))) by ring.
      eapply Rle_trans; [apply Rabs_triang|]. 
      pose proof (Rabs_triang A (w * c)). pose proof (Rabs_triang (B2R acc - A) (B2R q - w * c)). lra. }
    destruct (fadd_ok prec emax Hp He H2 acc q Fa M2) as (A1 & A2); [lra|].
    pose proof (rnd_rel prec emax Hp (B2R acc + B2R q)) as Qa. rewrite <- A1 in Qa.
    assert (u * Rabs (B2R acc + B2R q) <= u * K) by (apply Rmult_le_compat_l; lra).
    change (facc prec emax Hp He k acc (p :: l)) with (facc prec emax Hp He k (add' acc q) l).
    destruct (IH (add' acc q) (A + w * c) (e0 + s) A2) as (G1 & G2).
    + apply abs_le. apply abs_le in Ea. apply abs_le in Q'. apply abs_le in Qa. lra.
    + intros; apply Hl; now right.
    + pose proof (Rabs_triang A (w * c)). lra.
    + split; [exact G1|]. rewrite <- Rplus_assoc. lra.
Qed.

Lemma fcomb_err k B l y : 0 <= B <= bpow radix2 (emax - 4) -> wabs l <= 2 -> l <> [] -> 6 * INR (length l) * u <= 1 ->
  (forall p, In p l -> is_finite (fst p) = true /\ is_finite (snd p k) = true /\ Rabs (B2R (snd p k)) <= B) ->
  is_finite (fcomb prec emax Hp He false l y k) = true /\
  Rabs (B2R (fcomb prec emax Hp He false l y k) - wsum k l) <= INR (length l) * (6 * u * B + 3 * eta).
Proof.
  intros (B0 & B1) W N Nu Hl. destruct (u_small prec H2) as (U0 & U1). destruct (eta_small prec emax He H2) as (N0 & N1).
  pose proof (prec_emax prec emax He) as PE.
  set (n := INR (length l)) in *. assert (n0 : 0 <= n) by apply pos_INR.
  set (K := 4 * B + 4 * n * eta). set (s := 2 * u * B + u * K + 2 * eta).
  assert (Pn : 0 <= n * eta) by (apply Rmult_le_pos; lra).
  assert (Es : s <= 6 * u * B + 3 * eta).
  { unfold s, K. assert (u * (4 * n * eta) <= eta); [|lra]. replace (u * (4 * n * eta)) with ((4 * n * u) * eta) by ring.
    assert (4 * n * u <= 1) by (assert (0 <= n * u) by (apply Rmult_le_pos; lra); lra). nra. }
  assert (UB : 0 <= u * B) by (apply Rmult_le_pos; lra).
  assert (S0 : 0 <= s) by (unfold s, K; assert (0 <= u * (4 * B + 4 * n * eta)) by (apply Rmult_le_pos; lra); lra).
  assert (HK : B * 2 + n * s <= K).
  { assert (n * s <= n * (6 * u * B + 3 * eta)) by (apply Rmult_le_compat_l; lra).
    assert (n * (6 * u * B + 3 * eta) = (6 * n * u) * B + 3 * (n * eta)) by ring.
    assert ((6 * n * u) * B <= 1 * B) by (apply Rmult_le_compat_r; lra). unfold K. lra. }
  assert (KM : K <= bpow radix2 (emax - 1)).
  { unfold K. assert (4 * n * eta <= 1).
    { assert (n * u <= 1) by (assert (0 <= n * u) by (apply Rmult_le_pos; lra); lra).
      assert (n * eta <= n * (u / 32)) by (apply Rmult_le_compat_l; lra). lra. }
    assert (bpow radix2 (emax - 4) = / 8 * bpow radix2 (emax - 1)).
    { replace (emax - 4)%Z with (-3 + (emax - 1))%Z by ring. rewrite bpow_plus. reflexivity. }
    assert (2 <= bpow radix2 (emax - 1)) by (change 2 with (bpow radix2 1); apply bpow_le; lia). lra. }
  assert (Wp : forall p, In p l -> Rabs (B2R (fst p)) <= 2).
  { intros p Hp'. apply Rle_trans with (wabs l); [|exact W]. clear -Hp'. induction l as [|q l IH]; [easy|].
    cbn [wabs]. pose proof (wabs_pos l). pose proof (Rabs_pos (B2R (fst q))). destruct Hp' as [->|H']; [lra|]. specialize (IH H'). lra. }
  destruct l as [|p l]; [easy|]. cbn [fcomb].
  destruct (Hl p (or_introl eq_refl)) as (Fw & Fc & Lc). pose proof (Wp p (or_introl eq_refl)) as Lw.
  cbn [wsum wabs] in *. set (w := B2R (fst p)) in *. set (c := B2R (snd p k)) in *.
  assert (Lwc : Rabs (w * c) <= Rabs w * B) by (rewrite Rabs_mult; apply Rmult_le_compat_l; [apply Rabs_pos|exact Lc]).
  assert (Lw2 : Rabs w * B <= 2 * B) by (apply Rmult_le_compat_r; lra).
  assert (BK : 2 * B <= K) by (assert (0 <= n * s) by (apply Rmult_le_pos; lra); lra).
  destruct (fmul_ok prec emax Hp He ltac:(lia) (fst p) (snd p k) Fw Fc) as (M1 & M2); [fold w c; lra|]. fold w c in M1.
  pose proof (rnd_rel prec emax Hp (w * c)) as Q. rewrite <- M1 in Q.
  assert (UK : 0 <= u * K) by (apply Rmult_le_pos; lra).
  assert (Q' : Rabs (B2R (mul' (fst p) (snd p k)) - w * c) <= s).
  { assert (u * Rabs (w * c) <= u * (2 * B)) by (apply Rmult_le_compat_l; lra). unfold s. lra. }
  assert (En : n = INR (length l) + 1) by (unfold n; cbn [length]; now rewrite S_INR).
  pose proof (wabs_pos l) as PW.
  destruct (facc_err k B K s B0 BK KM eq_refl l _ (w * c) s M2 Q') as (G1 & G2).
  - intros q Hq. destruct (Hl q (or_intror Hq)) as (? & ? & ?). repeat split; auto. apply Wp. now right.
  - replace (INR (length l)) with (n - 1) by lra.
    assert (B * wabs l <= B * (2 - Rabs w)) by (apply Rmult_le_compat_l; lra). lra.
  - split; [exact G1|]. eapply Rle_trans; [exact G2|]. rewrite En.
    assert ((INR (length l) + 1) * s <= (INR (length l) + 1) * (6 * u * B + 3 * eta)) by (apply Rmult_le_compat_l; [pose proof (pos_INR (length l)); lra|exact Es]).
    lra.
Qed.

(** lists *)
Fixpoint esum (k : nat) (m : list R) (cs : list FVec) : R :=
  match m, cs with b :: m, c :: cs => b * B2R (c k) + esum k m cs | _, _ => 0 end.
Lemma wsum_esum k B : forall l m cs, length l = length m -> length l = length cs -> (forall c, In c cs -> Rabs (B2R (c k)) <= B) ->
  Rabs (wsum k (combine l cs) - esum k m cs) <= wdist l m * B.
Proof.
  induction l as [|a l IH]; intros [|b m] [|c cs] H1 H3 Hc; try discriminate H1; try discriminate H3.
  - cbn. rewrite Rminus_0_r, Rabs_R0. lra.
  - cbn [combine wsum esum P_FloatGlobal3.wdist fst snd].
    specialize (IH m cs ltac:(simpl in H1; lia) ltac:(simpl in H3; lia) (fun c Hc' => Hc c (or_intror Hc'))).
    specialize (Hc c (or_introl eq_refl)).
    replace (B2R a * B2R (c k) + wsum k (combine l cs) - (b * B2R (c k) + esum k m cs))
      with ((B2R a - b) * B2R (c k) + (wsum k (combine l cs) - esum k m cs)) by ring.
    eapply Rle_trans; [apply Rabs_triang|]. rewrite Rabs_mult.
    assert (Rabs (B2R a - b) * Rabs (B2R (c k)) <= Rabs (B2R a - b) * B) by (apply Rmult_le_compat_l; [apply Rabs_pos|exact Hc]). lra.
Qed.
Lemma esum_rsum k : forall m cs, length m = length cs ->
  esum k m cs = rsum (length m) (fun i => nth i m 0 * nth i (map (fun (c : FVec) j => B2R (c j)) cs) vzero k).
Proof.
  induction m as [|b m IH]; intros [|c cs] H; try discriminate H; [reflexivity|].
  cbn [esum length map]. rewrite rsum_shift. cbn [nth]. rewrite IH by (simpl in H; lia). reflexivity.
Qed.
Lemma wabs_dist : forall l m (cs : list FVec), length l = length m -> (forall b, In b m -> 0 <= b) -> wabs (combine l cs) <= lsumR m + wdist l m.
Proof.
  induction l as [|a l IH]; intros [|b m] cs H P; try discriminate H; [cbn; lra|].
  assert (0 <= lsumR m + wdist l m) by (eapply Rle_trans; [apply wabs_pos|apply (IH m []); [simpl in H; lia|intros; apply P; now right]]).
  pose proof (P b (or_introl eq_refl)) as B0.
  destruct cs as [|c cs]; cbn [combine wabs lsumR P_FloatGlobal3.wdist fst].
  - pose proof (Rabs_pos (B2R a - b)). lra.
  - specialize (IH m cs ltac:(simpl in H; lia) (fun b Hb => P b (or_intror Hb))).
    pose proof (near_abs (B2R a) b _ (Rle_refl _)) as A. rewrite (Rabs_pos_eq b) in A by lra. lra.
Qed.
End V.
