(** Refined elements in floating point: the sums of referenceToKuhn, vertices and corners of the
    triangulations. *)
From Coq Require Import PeanoNat NArith ZArith Bool List Reals Lra Lia.
From Flocq Require Import Core IEEE754.BinarySingleNaN.
From Verif Require Import M_Type M_RefTopo M_RefGeo M_Matrix M_Affine M_Float M_Refine M_FloatRefine S_RefGeo S_Refine
  P_RefGeo P_RefGeo3 P_RSum P_Refine1 P_Refine2 P_Refine3 P_Refine4 P_Refine5 P_Refine6 P_Float P_Float2 P_FloatRef.
Import ListNotations.
Local Open Scope R_scope.

(** two decreasing arrangements of the same numbers are equal *)
Lemma decr_cnt : forall d f v i, (i < d)%nat -> decr d f -> ((i < cnt (fun j => v <=? f j) d)%nat <-> (v <= f i)%nat).
Proof.
  intros d f v i Hi D.
  assert (A : forall m, (m <= d)%nat -> (forall j, (j < m)%nat -> (v <= f j)%nat) -> cnt (fun j => v <=? f j)%nat m = m).
  { induction m; intros Hm H; [reflexivity|]. rewrite cnt_S, IHm by (intros; try apply H; lia).
    destruct (Nat.leb_spec v (f m)); [lia|]. specialize (H m ltac:(lia)). lia. }
  split; intros H.
  - destruct (Nat.le_gt_cases v (f i)) as [L|L]; [exact L|exfalso].
    assert (B : forall m, (m <= d)%nat -> (cnt (fun j => v <=? f j)%nat m <= i)%nat).
    { induction m; intros Hm; [cbn; lia|]. rewrite cnt_S. destruct (Nat.leb_spec v (f m)) as [L'|L']; [|specialize (IHm ltac:(lia)); lia].
      assert (m < i)%nat. { destruct (Nat.lt_ge_cases m i); [assumption|]. pose proof (decr_le d f i m D H0 ltac:(lia)). lia. }
      pose proof (cnt_le (fun j => v <=? f j)%nat m). lia. }
    specialize (B d ltac:(lia)). lia.
  - assert (C : (S i <= cnt (fun j => v <=? f j) (S i))%nat).
    { rewrite A; [lia|lia|]. intros j Hj. pose proof (decr_le d f j i D ltac:(lia) Hi). lia. }
    pose proof (cnt_incr (fun j => v <=? f j)%nat (S i) d ltac:(lia)). lia.
Qed.
Lemma decr_unique : forall d c p q, isPerm d p -> isPerm d q -> decr d (fun i => c (p i)) -> decr d (fun i => c (q i)) ->
  forall i, (i < d)%nat -> c (p i) = c (q i).
Proof.
  intros d c p q P Q Dp Dq i Hi.
  assert (E : forall v, cnt (fun j => v <=? c (p j))%nat d = cnt (fun j => v <=? c (q j))%nat d).
  { intros v. rewrite (cnt_perm d p (fun k => v <=? c k)%nat P), (cnt_perm d q (fun k => v <=? c k)%nat Q). reflexivity. }
  apply Nat.le_antisymm.
  - apply (decr_cnt d (fun i => c (q i)) _ i Hi Dq). rewrite <- E. apply (decr_cnt d (fun i => c (p i)) _ i Hi Dp). lia.
  - apply (decr_cnt d (fun i => c (p i)) _ i Hi Dp). rewrite E. apply (decr_cnt d (fun i => c (q i)) _ i Hi Dq). lia.
Qed.

Section FP.
Variables (prec emax : Z).
Context (Hp : Prec_gt_0 prec) (He : Prec_lt_emax prec emax).
Hypothesis H2 : (2 <= prec)%Z.
Notation float := (binary_float prec emax).
Notation fexp := (SpecFloat.fexp prec emax).
Notation rnd := (round radix2 fexp (round_mode mode_NE)).
Notation u := (bpow radix2 (- prec)).
Notation add := (fadd prec emax Hp He).
Notation sub := (fsub prec emax Hp He).
Notation div := (fdiv prec emax Hp He).
Notation ofZ := (ofZ prec emax Hp He).
Notation format := (generic_format radix2 fexp).
Notation nn := (fnn prec emax).
Local Instance vexpR2 : Valid_exp fexp := fexp_correct prec emax Hp.

(** ** referenceToKuhn with rounded sums *)
Definition radd (a b : R) : R := rnd (a + b).
Section Chain.
Variables (dim : nat) (p : nat -> nat) (pt : nat -> float) (r e : nat -> R) (K : R).
Hypothesis P : isPerm dim p.
Hypothesis Vr : forall j, (j < dim)%nat -> nn (pt j) (r j).
Hypothesis R0 : forall j, (j < dim)%nat -> 0 <= r j.
Hypothesis E : forall j, (j < dim)%nat -> Rabs (r j - e j) <= K * u.
Hypothesis K0 : 0 <= K.
Hypothesis Ex : forall j, (j < dim)%nat -> 0 <= referenceToKuhn Rplus dim e p (p j) <= 1.
Hypothesis Small : (K + 1) * INR dim * u < 1.

Lemma chain_nn : forall m j, (j + m = dim - 1)%nat -> (j < dim)%nat ->
  nn (referenceToKuhn add dim pt p (p j)) (referenceToKuhn radd dim r p (p j))
  /\ 0 <= referenceToKuhn radd dim r p (p j)
  /\ Rabs (referenceToKuhn radd dim r p (p j) - referenceToKuhn Rplus dim e p (p j)) <= (K + (K + 1) * INR m) * u.
Proof.
  destruct (r2k_spec add dim p pt P) as (A1 & A2 & _).
  destruct (r2k_spec radd dim p r P) as (B1 & B2 & _).
  destruct (r2k_spec Rplus dim p e P) as (C1 & C2 & _).
  pose proof (u_pos prec) as U.
  induction m as [|m IH]; intros j Ej Hj.
  - assert (j = dim - 1)%nat by lia. subst j. rewrite A2, B2, C2 by lia.
    assert (Pj : (p (dim - 1) < dim)%nat) by (apply P; lia).
    split; [now apply Vr|split; [now apply R0|]]. cbn [INR]. rewrite Rmult_0_r, Rplus_0_r. now apply E.
  - assert (Pj : (p j < dim)%nat) by (apply P; lia).
    destruct (IH (S j) ltac:(lia) ltac:(lia)) as (I1 & I2 & I3). rewrite A1, B1, C1 by lia.
    set (X := referenceToKuhn radd dim r p (p (S j))) in *. set (Y := referenceToKuhn Rplus dim e p (p (S j))) in *.
    pose proof (R0 _ Pj) as Rj. pose proof (E _ Pj) as Ej'. pose proof (Ex j Hj) as X1. rewrite C1 in X1 by lia. fold Y in X1.
    apply Rabs_le_inv in I3, Ej'.
    assert (S1 : 0 <= r (p j) + X) by lra.
    assert (SE : - ((2 * K + (K + 1) * INR m) * u) <= (r (p j) + X) - (e (p j) + Y) <= (2 * K + (K + 1) * INR m) * u) by lra.
    assert (S2 : r (p j) + X < 2).
    { assert ((2 * K + (K + 1) * INR m) * u <= (K + 1) * INR dim * u); [|lra].
      assert (Q : INR (m + 2) <= INR dim) by (apply le_INR; lia). rewrite plus_INR in Q. cbn [INR] in Q.
      apply Rmult_le_compat_r; [lra|].
      apply Rle_trans with ((K + 1) * (INR m + (1 + 1))); [lra|]. apply Rmult_le_compat_l; [lra|exact Q]. }
    pose proof (two_big prec emax He H2) as TB.
    split; [|split].
    + apply add_nn; try assumption; [now apply Vr|lra].
    + now apply rnd_nn.
    + pose proof (rnd_err prec emax Hp He H2 (r (p j) + X)) as RE. rewrite (Rabs_pos_eq (r (p j) + X)) in RE by lra.
      specialize (RE S2). apply Rabs_le_inv in RE. unfold radd. rewrite S_INR. apply Rabs_le.
      replace ((K + (K + 1) * (INR m + 1)) * u) with ((2 * K + (K + 1) * INR m) * u + u) by ring. lra.
Qed.
Lemma chain_spec : forall j, (j < dim)%nat ->
  nn (referenceToKuhn add dim pt p j) (referenceToKuhn radd dim r p j)
  /\ 0 <= referenceToKuhn radd dim r p j
  /\ Rabs (referenceToKuhn radd dim r p j - referenceToKuhn Rplus dim e p j) <= (K + 1) * INR dim * u.
Proof.
  intros j Hj. destruct (perm_onto dim p P j Hj) as (i & Hi & <-).
  destruct (chain_nn (dim - 1 - i)%nat i ltac:(lia) Hi) as (A & B & C). split; [exact A|split; [exact B|]].
  eapply Rle_trans; [exact C|]. pose proof (u_pos prec) as U. apply Rmult_le_compat_r; [lra|].
  assert (INR (dim - 1 - i + 1) <= INR dim) by (apply le_INR; lia). rewrite plus_INR in H. cbn [INR] in H. nra.
Qed.
End Chain.

Lemma r2k_ext {A} : forall (f : A -> A -> A) dim x y p, isPerm dim p -> agree dim x y ->
  agree dim (referenceToKuhn f dim x p) (referenceToKuhn f dim y p).
Proof.
  intros f dim x y p P A' j Hj. destruct (r2k_spec f dim p x P) as (A1 & A2 & _). destruct (r2k_spec f dim p y P) as (B1 & B2 & _).
  assert (G : forall m i, (i + m = dim - 1)%nat -> (i < dim)%nat -> referenceToKuhn f dim x p (p i) = referenceToKuhn f dim y p (p i)).
  { induction m as [|m IH]; intros i Ei Hi.
    - assert (i = dim - 1)%nat by lia. subst i. rewrite A2, B2 by lia. apply A', P. lia.
    - rewrite A1, B1 by lia. rewrite (IH (S i)) by lia. f_equal. apply A', P. lia. }
  destruct (perm_onto dim p P j Hj) as (i & Hi & <-). apply (G (dim - 1 - i)%nat); lia.
Qed.

(** ** the lattice *)
Variable n : nat.
Hypothesis Hn : (0 < n)%nat.
Hypothesis Nn : INR n <= bpow radix2 prec.
Notation vh := (vh prec emax n).
Notation cval := (cval prec emax n).
Notation cexact := (cexact n).

Lemma cexact_k2r : forall dim w, agree dim (cexact dim w) (kuhnToReference Rminus dim (fun i => INR (w i) / INR n) idp).
Proof. intros dim w j Hj. rewrite k2r_id by exact Hj. reflexivity. Qed.
Lemma grid_kuhn : forall dim w p, gridPoint dim n w -> isPerm dim p -> inKuhn dim p (referenceToKuhn Rplus dim (cexact dim w) p).
Proof.
  intros dim w p G P. apply inKuhn_Q.
  assert (S : kuhnQ (Rle 0) dim p (referenceToKuhn Rplus dim (kuhnToReference Rminus dim (fun i => INR (w i) / INR n) idp) p)).
  { apply simp_kuhn; [lra|exact P|]. apply (simp_kuhn _ dim idp); [lra|apply isPerm_id|].
    rewrite r2k_k2r by apply isPerm_id. apply inKuhn_Q. split.
    - intros i Hi. apply quo_range; [exact Hn|]. now apply (grid_le n Hn dim).
    - intros i Hi. apply Rmult_le_compat_r; [left; apply Rinv_0_lt_compat; now apply lt_0_INR|]. apply le_INR. now apply G. }
  refine (kuhnQ_agree _ _ _ _ _ P _ S). apply r2k_ext; [exact P|]. intros j Hj. symmetry. now apply cexact_k2r.
Qed.

(** the corners of a triangulation, before the final transformation *)
Lemma corner_chain : forall dim w p (x : nat -> float), gridPoint dim n w -> isPerm dim p -> 4 * INR dim * u < 1 ->
  (forall j, (j < dim)%nat -> nn (x j) (cval dim w j)) -> forall j, (j < dim)%nat ->
  nn (referenceToKuhn add dim x p j) (referenceToKuhn radd dim (cval dim w) p j)
  /\ 0 <= referenceToKuhn radd dim (cval dim w) p j
  /\ Rabs (referenceToKuhn radd dim (cval dim w) p j - referenceToKuhn Rplus dim (cexact dim w) p j) <= 4 * INR dim * u.
Proof.
  intros dim w p x G P S V j Hj. replace 4 with (3 + 1) in S |- * by ring.
  refine (chain_spec dim p x (cval dim w) (cexact dim w) 3 P V _ _ _ _ S j Hj).
  - intros l Hl. now apply cval_range.
  - intros l Hl. now apply cval_err.
  - lra.
  - intros l Hl. now apply (grid_kuhn dim w p G P).
Qed.

(** ** vertices *)
Definition dl (dim : nat) (w : nat -> nat) (j : nat) : nat := (w j - (if Nat.ltb (S j) dim then w (S j) else 0))%nat.
Lemma dl_le : forall dim w j, gridPoint dim n w -> (j < dim)%nat -> (dl dim w j <= n)%nat.
Proof. intros dim w j G Hj. pose proof (grid_le n Hn dim w j G Hj). unfold dl. lia. Qed.
Lemma dl_exact : forall dim w j, gridPoint dim n w -> (j < dim)%nat -> INR (dl dim w j) / INR n = cexact dim w j.
Proof.
  intros dim w j G Hj. unfold dl, P_FloatRef.cexact. destruct (Nat.ltb_spec (S j) dim) as [L|L].
  - rewrite minus_INR by now apply G. unfold Rdiv. ring.
  - rewrite Nat.sub_0_r. ring.
Qed.
Lemma sv_coordsF_spec : forall dim s, sv_size s = n -> gridPoint dim n (sv_vertex s) ->
  exists x, sv_coordsF prec emax Hp He dim s = Some x /\ forall j, (j < dim)%nat -> nn (x j) (vh (dl dim (sv_vertex s) j)).
Proof.
  intros dim s Es G. unfold sv_coordsF. rewrite getPermutation_zero. cbn [obind]. eexists. split; [reflexivity|].
  intros j Hj. cbv beta. rewrite k2r_idA by exact Hj.
  replace (if Nat.ltb (S j) dim then (Z.of_nat (sv_vertex s j) - Z.of_nat (sv_vertex s (S j)))%Z else Z.of_nat (sv_vertex s j))
    with (Z.of_nat (dl dim (sv_vertex s) j)).
  - rewrite Es. apply vh_quo; try assumption. now apply dl_le.
  - unfold dl. destruct (Nat.ltb_spec (S j) dim) as [L|L]; [|lia]. pose proof (proj2 G j L). lia.
Qed.
Lemma vertex_chain : forall dim w p (x : nat -> float), gridPoint dim n w -> isPerm dim p -> 2 * INR dim * u < 1 ->
  (forall j, (j < dim)%nat -> nn (x j) (vh (dl dim w j))) -> forall j, (j < dim)%nat ->
  nn (referenceToKuhn add dim x p j) (referenceToKuhn radd dim (fun j => vh (dl dim w j)) p j)
  /\ 0 <= referenceToKuhn radd dim (fun j => vh (dl dim w j)) p j
  /\ Rabs (referenceToKuhn radd dim (fun j => vh (dl dim w j)) p j - referenceToKuhn Rplus dim (cexact dim w) p j) <= 2 * INR dim * u.
Proof.
  intros dim w p x G P S V j Hj. replace 2 with (1 + 1) in S |- * by ring.
  refine (chain_spec dim p x (fun j => vh (dl dim w j)) (cexact dim w) 1 P V _ _ _ _ S j Hj).
  - intros l Hl. apply vh_range; try assumption. now apply dl_le.
  - intros l Hl. rewrite Rmult_1_l, <- dl_exact by assumption. apply vh_err; try assumption. now apply dl_le.
  - lra.
  - intros l Hl. now apply (grid_kuhn dim w p G P).
Qed.

(** the sums along two permutations agree when the exact points agree *)
Lemma vertex_conform : forall dim w w' p p', gridPoint dim n w -> gridPoint dim n w' -> isPerm dim p -> isPerm dim p' ->
  agree dim (referenceToKuhn Rplus dim (cexact dim w) p) (referenceToKuhn Rplus dim (cexact dim w') p') ->
  agree dim (referenceToKuhn radd dim (fun j => vh (dl dim w j)) p) (referenceToKuhn radd dim (fun j => vh (dl dim w' j)) p').
Proof.
  intros dim w w' p p' G G' P P' A.
  set (c := referenceToKuhn Nat.add dim (dl dim w) p). set (c' := referenceToKuhn Nat.add dim (dl dim w') p').
  assert (NP : 0 < INR n) by now apply lt_0_INR.
  (* the integer sums *)
  assert (CV : forall w p, gridPoint dim n w -> isPerm dim p -> forall j, (j < dim)%nat ->
    INR (referenceToKuhn Nat.add dim (dl dim w) p j) / INR n = referenceToKuhn Rplus dim (cexact dim w) p j).
  { clear. intros w p G P j Hj.
    destruct (r2k_spec Nat.add dim p (dl dim w) P) as (A1 & A2 & _). destruct (r2k_spec Rplus dim p (cexact dim w) P) as (B1 & B2 & _).
    assert (X : forall m i, (i + m = dim - 1)%nat -> (i < dim)%nat ->
      INR (referenceToKuhn Nat.add dim (dl dim w) p (p i)) / INR n = referenceToKuhn Rplus dim (cexact dim w) p (p i)).
    { induction m as [|m IH]; intros i Ei Hi; (assert (Pi : (p i < dim)%nat) by now apply P).
      - assert (i = dim - 1)%nat by lia. subst i. rewrite A2, B2 by lia. now apply dl_exact.
      - rewrite A1, B1 by lia. rewrite plus_INR. unfold Rdiv. rewrite Rmult_plus_distr_r. fold (INR (dl dim w (p i)) / INR n).
        rewrite dl_exact by assumption. f_equal. apply IH; lia. }
    destruct (perm_onto dim p P j Hj) as (i & Hi & <-). apply (X (dim - 1 - i)%nat); lia. }
  assert (CC : agree dim c c').
  { intros j Hj. apply INR_eq. apply Rmult_eq_reg_r with (/ INR n); [|apply Rinv_neq_0_compat; lra].
    fold (INR (c j) / INR n). fold (INR (c' j) / INR n). unfold c, c'. rewrite !CV by assumption. now apply A. }
  assert (Dc : forall w p, isPerm dim p -> decr dim (fun i => referenceToKuhn Nat.add dim (dl dim w) p (p i))).
  { clear. intros w p P i Hi. destruct (r2k_spec Nat.add dim p (dl dim w) P) as (A1 & _). rewrite (A1 i Hi). lia. }
  assert (SO : forall i, (i < dim)%nat -> c (p i) = c (p' i)).
  { apply decr_unique; try assumption; [apply Dc; assumption|].
    intros i Hi. cbv beta. rewrite !CC by (apply P'; lia). now apply (Dc w' p' P'). }
  (* the increments along the permutations *)
  destruct (r2k_spec Nat.add dim p (dl dim w) P) as (A1 & A2 & _). fold c in A1, A2.
  destruct (r2k_spec Nat.add dim p' (dl dim w') P') as (A1' & A2' & _). fold c' in A1', A2'.
  set (X := referenceToKuhn radd dim (fun j => vh (dl dim w j)) p).
  set (X' := referenceToKuhn radd dim (fun j => vh (dl dim w' j)) p').
  destruct (r2k_spec radd dim p (fun j => vh (dl dim w j)) P) as (B1 & B2 & _). fold X in B1, B2.
  destruct (r2k_spec radd dim p' (fun j => vh (dl dim w' j)) P') as (B1' & B2' & _). fold X' in B1', B2'.
  assert (D : forall i, (i < dim)%nat -> dl dim w (p i) = dl dim w' (p' i)).
  { intros i Hi. destruct (Nat.eq_dec (S i) dim) as [Ei|Ni].
    - assert (i = dim - 1)%nat by lia. subst i. rewrite <- A2, <- A2' by lia. rewrite <- CC by (apply P'; lia). apply SO. lia.
    - specialize (A1 i ltac:(lia)). specialize (A1' i ltac:(lia)).
      rewrite <- !CC in A1' by (apply P'; lia). rewrite <- !SO in A1' by lia. lia. }
  assert (XX : forall m i, (i + m = dim - 1)%nat -> (i < dim)%nat -> X (p i) = X' (p' i)).
  { induction m as [|m IH]; intros i Ei Hi.
    - assert (i = dim - 1)%nat by lia. subst i. rewrite B2, B2' by lia. now rewrite D.
    - rewrite B1, B1' by lia. rewrite (IH (S i)) by lia. now rewrite D. }
  (* equal coordinates have equal sums *)
  assert (LV : forall m i, (i + m < dim)%nat -> c (p i) = c (p (i + m)%nat) -> X (p i) = X (p (i + m)%nat)).
  { induction m as [|m IH]; intros i Hi Ec; [now rewrite Nat.add_0_r|].
    assert (Mono : forall a b, (a <= b)%nat -> (b < dim)%nat -> (c (p b) <= c (p a))%nat).
    { intros a b. apply (decr_le dim (fun i => c (p i))). apply Dc. exact P. }
    pose proof (Mono i (i + m)%nat ltac:(lia) ltac:(lia)). pose proof (Mono (i + m)%nat (i + S m)%nat ltac:(lia) ltac:(lia)).
    rewrite (IH i) by lia. rewrite Nat.add_succ_r in *. rewrite (B1 (i + m)%nat) by lia.
    specialize (A1 (i + m)%nat ltac:(lia)). assert (Z : dl dim w (p (i + m)%nat) = 0%nat) by lia. rewrite Z.
    unfold radd. rewrite (vh_0 prec emax n), Rplus_0_l. apply rnd_id.
    assert (FX : forall a, (a < dim)%nat -> generic_format radix2 fexp (X (p a))).
    { intros a Ha. destruct (Nat.eq_dec (S a) dim) as [Ea|Na].
      - assert (a = dim - 1)%nat by lia. subst a. rewrite B2 by lia. now apply vh_format.
      - rewrite B1 by lia. unfold radd. now apply rnd_fmt. }
    apply FX. lia. }
  intros k Hk. destruct (perm_onto dim p P k Hk) as (i & Hi & Ei). destruct (perm_onto dim p' P' k Hk) as (j & Hj & Ej).
  rewrite <- Ei at 1. rewrite <- Ej at 1.
  assert (W : X (p i) = X (p j)).
  { assert (Q : c (p i) = c (p j)) by (rewrite (SO j) by exact Hj; congruence).
    destruct (Nat.le_ge_cases i j).
    - replace j with (i + (j - i))%nat in Q |- * by lia. apply LV; [lia|exact Q].
    - symmetry. replace i with (j + (i - j))%nat in Q |- * by lia. apply LV; [lia|now symmetry]. }
  rewrite W. apply (XX (dim - 1 - j)%nat); lia.
Qed.
End FP.
