(** Hypercube refinement: the digits of the indices, vertices and cells. *)
From Coq Require Import PeanoNat NArith ZArith Bool List Reals Lia Lra FunctionalExtensionality.
From Verif Require Import M_Type M_RefGeo S_RefGeo M_Affine P_Affine P_AACube M_Refine S_Refine.
Import ListNotations.
Local Open Scope nat_scope.

Fixpoint dsum (d w : nat) (v : nat -> nat) : nat :=
  match d with O => 0 | S d' => dsum d' w v + v d' * w ^ d' end.
Lemma dsum_ext : forall d w v u, (forall i, i < d -> v i = u i) -> dsum d w v = dsum d w u.
Proof. induction d as [|d IH]; intros w v u H; cbn [dsum]; [reflexivity|]. rewrite (IH w v u), H by auto. reflexivity. Qed.
Lemma dsum_bound : forall d w v, (forall i, i < d -> v i < w) -> dsum d w v < w ^ d.
Proof.
  induction d as [|d IH]; intros w v H; cbn [dsum Nat.pow]; [lia|]. specialize (IH w v ltac:(auto)). specialize (H d ltac:(lia)). nia.
Qed.
Lemma dsum_digit : forall d w v i, (forall i, i < d -> v i < w) -> i < d -> (dsum d w v / w ^ i) mod w = v i.
Proof.
  induction d as [|d IH]; intros w v i H Hi; [lia|]. cbn [dsum].
  assert (W : w <> 0) by (specialize (H 0 ltac:(lia)); lia).
  destruct (Nat.eq_dec i d) as [->|].
  - assert (P : w ^ d <> 0) by (apply Nat.pow_nonzero; assumption).
    rewrite Nat.div_add, Nat.div_small by (auto; apply dsum_bound; auto). cbn [Nat.add]. apply Nat.mod_small, H. lia.
  - replace (w ^ d) with (w ^ (d - i - 1) * w * w ^ i).
    2:{ replace d with (d - i - 1 + 1 + i) at 2 by lia. rewrite !Nat.pow_add_r. cbn [Nat.pow]. lia. }
    rewrite !Nat.mul_assoc, Nat.div_add by (apply Nat.pow_nonzero; assumption). rewrite Nat.mod_add by assumption. apply IH; [auto|lia].
Qed.
Lemma dsum_digits : forall d w a, w <> 0 -> a < w ^ d -> dsum d w (fun i => (a / w ^ i) mod w) = a.
Proof.
  induction d as [|d IH]; intros w a W H; cbn [dsum Nat.pow] in *; [lia|].
  assert (P : w ^ d <> 0) by (apply Nat.pow_nonzero; assumption).
  rewrite (Nat.mod_small (a / w ^ d)) by (apply Nat.div_lt_upper_bound; [assumption|lia]).
  rewrite (dsum_ext d w _ (fun i => ((a mod w ^ d) / w ^ i) mod w)).
  - rewrite IH by (auto; apply Nat.mod_upper_bound; assumption). pose proof (Nat.div_mod a (w ^ d) P). lia.
  - intros i Hi. rewrite (Nat.div_mod a (w ^ d) P) at 1.
    assert (Q : w ^ d = w ^ (d - i - 1) * w * w ^ i).
    { replace d with (d - i - 1 + 1 + i) at 1 by lia. rewrite !Nat.pow_add_r. cbn [Nat.pow]. lia. }
    set (r := a mod w ^ d). set (b := a / w ^ d). rewrite Q at 1. clearbody r b.
    replace (w ^ (d - i - 1) * w * w ^ i * b + r) with (r + (b * w ^ (d - i - 1) * w) * w ^ i) by lia.
    rewrite Nat.div_add by (apply Nat.pow_nonzero; assumption). apply Nat.mod_add. assumption.
Qed.
Lemma dsum_inj : forall d w v u, (forall i, i < d -> v i < w) -> (forall i, i < d -> u i < w) -> dsum d w v = dsum d w u -> forall i, i < d -> v i = u i.
Proof. intros d w v u V U E i Hi. rewrite <- (dsum_digit d w v i), <- (dsum_digit d w u i), E by assumption. reflexivity. Qed.

Lemma idx2coord_loop : forall dim idx w, w <> 0 ->
  fold_left (fun '(idx, c) d => (idx / w, aset c d (idx mod w))) (seq 0 dim) (idx, fun _ => 0)
  = (idx / w ^ dim, fun i => if Nat.ltb i dim then (idx / w ^ i) mod w else 0).
Proof.
  induction dim as [|dim IH]; intros idx w W.
  - cbn [seq fold_left Nat.pow]. rewrite Nat.div_1_r. reflexivity.
  - rewrite seq_S, fold_left_app, IH by assumption. cbn [fold_left Nat.add]. f_equal.
    + cbn [Nat.pow]. rewrite (Nat.mul_comm w), Nat.div_div by (auto; apply Nat.pow_nonzero; assumption). reflexivity.
    + extensionality i. unfold aset. destruct (Nat.eqb_spec i dim) as [->|N].
      * rewrite (proj2 (Nat.ltb_lt dim (S dim))) by lia. reflexivity.
      * destruct (Nat.ltb_spec i dim), (Nat.ltb_spec i (S dim)); try lia; reflexivity.
Qed.
Lemma idx2coord_spec : forall dim idx w i, w <> 0 -> i < dim -> idx2coord dim idx w i = (idx / w ^ i) mod w.
Proof. intros. unfold idx2coord. rewrite idx2coord_loop by assumption. cbn [snd]. rewrite (proj2 (Nat.ltb_lt i dim)) by assumption. reflexivity. Qed.
Lemma idx2coord_bound : forall dim idx w i, w <> 0 -> i < dim -> idx2coord dim idx w i < w.
Proof. intros. rewrite idx2coord_spec by assumption. apply Nat.mod_upper_bound. assumption. Qed.
Lemma idx2coord_dsum : forall dim w v i, (forall i, i < dim -> v i < w) -> i < dim -> idx2coord dim (dsum dim w v) w i = v i.
Proof. intros dim w v i H Hi. rewrite idx2coord_spec by (auto; specialize (H i Hi); lia). apply dsum_digit; assumption. Qed.
Lemma dsum_idx2coord : forall dim w a, w <> 0 -> a < w ^ dim -> dsum dim w (idx2coord dim a w) = a.
Proof.
  intros dim w a W H. rewrite (dsum_ext _ _ _ (fun i => (a / w ^ i) mod w)) by (intros; apply idx2coord_spec; assumption). apply dsum_digits; assumption.
Qed.
Lemma c2iLoop_dsum : forall d c w i, c2iLoop d c w i = i * w ^ d + dsum d w c.
Proof.
  induction d as [|d IH]; intros c w i; cbn [c2iLoop dsum Nat.pow]; [lia|]. rewrite IH. nia.
Qed.
Lemma coord2idx_dsum : forall dim c w, coord2idx dim c w = dsum dim w c.
Proof. intros. unfold coord2idx. rewrite c2iLoop_dsum. lia. Qed.

Lemma land1 : forall i d, idx2multiidx i d = if Nat.testbit i d then 1 else 0.
Proof.
  intros i d. unfold idx2multiidx. rewrite Nat.testbit_odd.
  change 1 with (Nat.ones 1). rewrite Nat.land_ones. cbn [Nat.pow Nat.mul Nat.add].
  rewrite <- Nat.bit0_mod, Nat.bit0_odd. destruct (Nat.odd _); reflexivity.
Qed.
Lemma vertexIndices_loop : forall dim (f : nat -> nat) w,
  fold_left (fun '(vec, base) d => (vec + f d * base, base * w)) (seq 0 dim) (0, 1) = (dsum dim w f, w ^ dim).
Proof.
  induction dim as [|dim IH]; intros f w; [reflexivity|]. rewrite seq_S, fold_left_app, IH. cbn [fold_left dsum Nat.add Nat.pow]. f_equal. lia.
Qed.
Lemma he_vertexIndices_eq : forall dim s i, he_vertexIndices dim s i
  = dsum dim (hi_n s + 1) (fun d => (if Nat.testbit i d then 1 else 0) + hi_cellCoord dim s d).
Proof.
  intros dim s i. unfold he_vertexIndices. rewrite (vertexIndices_loop dim (fun d => idx2multiidx i d + hi_cellCoord dim s d)). cbn [fst].
  apply dsum_ext. intros d _. rewrite land1. reflexivity.
Qed.

Definition hAt (n k : nat) : HIter := {| hi_index := k; hi_n := n |}.
Lemma hAt_visits : forall n N, visits (fun s => Some (hi_increment s)) (fun s => hi_equals s (hAt n N)) (hAt n 0) N (hAt n).
Proof.
  intros n N. split; [reflexivity|]. split.
  - intros k Hk. unfold hi_equals, hAt, hi_increment. cbn [hi_index hi_n]. rewrite Nat.eqb_refl, Nat.add_1_r.
    destruct (Nat.eqb_spec k N); [lia|]. split; reflexivity.
  - unfold hi_equals, hAt. cbn. rewrite !Nat.eqb_refl. reflexivity.
Qed.

(** two numbers below 2^dim with the same bits below dim are equal *)
Lemma bits_inj : forall dim i j, i < 2 ^ dim -> j < 2 ^ dim -> (forall d, d < dim -> Nat.testbit i d = Nat.testbit j d) -> i = j.
Proof.
  intros dim i j Hi Hj H. apply Nat.bits_inj. intros d. destruct (Nat.lt_ge_cases d dim) as [L|L]; [apply H, L|].
  assert (X : forall a, a < 2 ^ dim -> Nat.testbit a d = false).
  { intros a Ha. destruct (Nat.eq_dec a 0) as [->|]; [apply Nat.bits_0|]. apply Nat.bits_above_log2.
    apply Nat.log2_lt_pow2; [lia|]. apply Nat.lt_le_trans with (2 ^ dim); [assumption|]. apply Nat.pow_le_mono_r; lia. }
  rewrite !X by assumption. reflexivity.
Qed.
Lemma cell_vertex_bound : forall dim n k i d, 0 < n -> d < dim -> (if Nat.testbit i d then 1 else 0) + hi_cellCoord dim (hAt n k) d < n + 1.
Proof.
  intros. unfold hi_cellCoord, hAt. cbn [hi_index hi_n]. pose proof (idx2coord_bound dim k n d ltac:(lia) ltac:(assumption)). destruct (Nat.testbit i d); lia.
Qed.
