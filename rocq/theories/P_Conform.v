(** The corners of a refined simplex that carry a point are determined by the point. *)
From Coq Require Import PeanoNat NArith ZArith Bool List Permutation Reals Factorial Lia Lra FunctionalExtensionality.
From Verif Require Import M_Type M_RefTopo M_RefGeo M_Matrix S_Topo S_RefGeo S_Matrix P_RSum P_RefGeo2 P_Det P_RefDet P_MxBridge
  M_MultiLinear M_Refine S_Refine S_Conform P_Refine1 P_Refine2 P_Refine3 P_Refine4 P_Refine5 P_Refine6 P_Refine7.
Import ListNotations.
Local Open Scope R_scope.

(** ** Kuhn coordinates *)
(** the grid point c carries the point y *)
Definition near (dim : nat) (c : nat -> Z) (y : Vec) : Prop :=
  (forall j, (j < dim)%nat -> -1 < IZR (c j) - y j < 1)
  /\ forall i j, (i < dim)%nat -> (j < dim)%nat -> (IZR (c i) - y i) - (IZR (c j) - y j) < 1.

Lemma kuhn_mono : forall dim p z, kuhnQ (Rle 0) dim p z -> isPerm dim p -> (0 < dim)%nat ->
  (forall j, (j < dim)%nat -> 0 <= z j <= 1) /\ forall i j, (i <= j)%nat -> (j < dim)%nat -> z (p j) <= z (p i).
Proof.
  intros dim p z K P H. apply inKuhn_Q in K. destruct K as [B M]. split.
  - intros j Hj. destruct (perm_onto dim p P j Hj) as (i & Hi & <-). apply B. assumption.
  - intros i j L. induction L as [|j L IH]; intros Hj; [lra|]. specialize (IH ltac:(lia)). specialize (M j Hj). lra.
Qed.
(** the weight of position i of the chain of the Kuhn simplex p at z *)
Definition chainWeight (dim : nat) (p : nat -> nat) (z : Vec) (i : nat) : R :=
  (match i with O => 1 | S m => z (p m) end) - (if (i <? dim)%nat then z (p i) else 0).
Lemma corner_near : forall dim p q v y i, (0 < dim)%nat -> isPerm dim p -> isPerm dim q ->
  (forall i, (i < dim)%nat -> p (q i) = i) -> (i <= dim)%nat ->
  kuhnQ (Rle 0) dim p (fun j => y j - INR (v j)) -> 0 < chainWeight dim p (fun j => y j - INR (v j)) i ->
  near dim (fun j => Z.of_nat (cornerAt q v i j)) y.
Proof.
  intros dim p q v y i H P Q pq Hi K W. set (z := fun j => y j - INR (v j)) in *. destruct (kuhn_mono dim p z K P H) as [B M].
  set (t := if (i <? dim)%nat then z (p i) else 0).
  assert (Hi1 : forall j, (j < dim)%nat -> (q j < i)%nat -> t < z j /\ 0 <= t).
  { intros j Hj L. assert (G : z (p (i - 1)%nat) <= z j).
    { rewrite <- (pq j Hj). apply M; [lia|lia]. }
    unfold chainWeight in W. fold t in W. destruct i as [|m]; [lia|]. replace (S m - 1)%nat with m in G by lia. split; [lra|].
    unfold t. destruct (Nat.ltb_spec (S m) dim); [|lra]. apply B. apply P. assumption. }
  assert (Lo : forall j, (j < dim)%nat -> (i <= q j)%nat -> z j <= t /\ t < 1).
  { intros j Hj L. pose proof (proj1 Q j Hj) as Qj. unfold t. destruct (Nat.ltb_spec i dim) as [L'|L']; [|lia]. split.
    - rewrite <- (pq j Hj) at 1. apply M; assumption.
    - unfold chainWeight in W. destruct (Nat.ltb_spec i dim); [|lia]. destruct i as [|m]; [lra|].
      assert (z (p m) <= 1) by (apply B, P; lia). lra. }
  assert (E : forall j, (j < dim)%nat -> IZR (Z.of_nat (cornerAt q v i j)) - y j = (if (q j <? i)%nat then 1 else 0) - z j).
  { intros j Hj. rewrite <- INR_IZR_INZ. unfold cornerAt. rewrite plus_INR. unfold z. destruct (q j <? i)%nat; cbn [INR]; ring. }
  assert (D : forall j, (j < dim)%nat -> -1 < IZR (Z.of_nat (cornerAt q v i j)) - y j < 1 /\ - t <= IZR (Z.of_nat (cornerAt q v i j)) - y j < 1 - t).
  { intros j Hj. rewrite E by assumption. specialize (B j Hj). destruct (Nat.ltb_spec (q j) i) as [L|L].
    - specialize (Hi1 j Hj L). lra.
    - specialize (Lo j Hj L). lra. }
  split; [intros j Hj; apply D; assumption|]. intros a b Ha Hb. pose proof (proj2 (D a Ha)). pose proof (proj2 (D b Hb)). lra.
Qed.
Lemma prefix_bool : forall n (b : nat -> bool), (forall m, (S m < n)%nat -> b (S m) = true -> b m = true) ->
  exists i, (i <= n)%nat /\ forall m, (m < n)%nat -> b m = (m <? i)%nat.
Proof.
  induction n as [|n IH]; intros b H; [exists 0%nat; split; [lia|intros; lia]|].
  destruct (IH b) as (i & Hi & E); [intros; apply H; [lia|assumption]|].
  destruct (b n) eqn:Bn.
  - exists (S n). split; [lia|]. assert (A : forall k m, (m + k = n)%nat -> b m = true).
    { induction k as [|k IHk]; intros m Em; [replace m with n by lia; assumption|]. apply H; [lia|]. apply IHk. lia. }
    intros m Hm. rewrite (A (n - m)%nat) by lia. symmetry. apply Nat.ltb_lt. assumption.
  - exists i. split; [lia|]. intros m Hm. destruct (Nat.eq_dec m n) as [->|]; [|apply E; lia].
    rewrite Bn. symmetry. apply Nat.ltb_ge. assumption.
Qed.
Lemma near_corner : forall dim p q v y c, (0 < dim)%nat -> isPerm dim p -> isPerm dim q ->
  (forall i, (i < dim)%nat -> q (p i) = i) -> (forall i, (i < dim)%nat -> p (q i) = i) ->
  kuhnQ (Rle 0) dim p (fun j => y j - INR (v j)) -> near dim c y ->
  exists i, (i <= dim)%nat /\ forall j, (j < dim)%nat -> c j = Z.of_nat (cornerAt q v i j).
Proof.
  intros dim p q v y c H P Q qp pq K [N1 N2]. set (z := fun j => y j - INR (v j)) in *. destruct (kuhn_mono dim p z K P H) as [B M].
  assert (C : forall j, (j < dim)%nat -> c j = Z.of_nat (v j) \/ c j = (Z.of_nat (v j) + 1)%Z).
  { intros j Hj. specialize (N1 j Hj). specialize (B j Hj). unfold z in B. rewrite INR_IZR_INZ in B.
    assert (A1 : IZR (Z.of_nat (v j) - 1) < IZR (c j)) by (rewrite minus_IZR; lra).
    assert (A2 : IZR (c j) < IZR (Z.of_nat (v j) + 2)) by (rewrite plus_IZR; lra).
    apply lt_IZR in A1. apply lt_IZR in A2. lia. }
  set (b := fun m => Z.eqb (c (p m)) (Z.of_nat (v (p m)) + 1)).
  destruct (prefix_bool dim b) as (i & Hi & E).
  { intros m Hm T. unfold b in *. apply Z.eqb_eq in T. apply Z.eqb_eq.
    destruct (C (p m) ltac:(apply P; lia)) as [F|F]; [|assumption]. exfalso.
    pose proof (N2 (p (S m)) (p m) ltac:(apply P; lia) ltac:(apply P; lia)) as G. rewrite T, F, plus_IZR, <- !INR_IZR_INZ in G.
    pose proof (M m (S m) ltac:(lia) Hm) as G'. unfold z in G'. lra. }
  exists i. split; [assumption|]. intros j Hj. pose proof (proj1 Q j Hj) as Qj. specialize (E (q j) Qj). unfold b in E. rewrite pq in E by assumption.
  unfold cornerAt. rewrite <- E. destruct (C j Hj) as [F|F]; rewrite F.
  - destruct (Z.eqb_spec (Z.of_nat (v j)) (Z.of_nat (v j) + 1)); lia.
  - rewrite Z.eqb_refl. lia.
Qed.

(** ** the corners of refined elements *)
Lemma K0_Gmap : forall dim p o n x, (0 < n)%nat -> K0 dim (Gmap dim p o n x) = fun i => (referenceToKuhn Rplus dim x p i + INR (o i)) / INR n.
Proof. intros. unfold K0, Gmap. apply r2k_k2r. apply isPerm_id. Qed.
Lemma K0_corner : forall dim n p q o i j, isPerm dim p -> (forall i, (i < dim)%nat -> q (p i) = i) -> (forall i, (i < dim)%nat -> p (q i) = i) ->
  isPerm dim q -> (0 < n)%nat -> (i <= dim)%nat -> (j < dim)%nat ->
  INR n * K0 dim (Gmap dim p o n (sc i)) j = INR (cornerAt q o (chainPos q i) j).
Proof.
  intros dim n p q o i j P qp pq Q Hn Hi Hj. rewrite K0_Gmap by assumption. rewrite (r2k_corner dim p q i j) by assumption.
  unfold cornerAt, chainPos. rewrite plus_INR. assert (INR n <> 0) by (apply not_0_INR; lia).
  destruct (Nat.ltb (q j) _); cbn [INR]; field; assumption.
Qed.
Lemma K0_inj : forall dim x y, agree dim (K0 dim x) (K0 dim y) -> agree dim x y.
Proof.
  intros dim x y A. apply (affdet_agree dim _ 1 _ _ (affdet_k2r dim idp (isPerm_id dim))) in A. cbv beta in A. unfold K0 in A.
  rewrite !k2r_r2k in A by apply isPerm_id. assumption.
Qed.
(** the weights of a point of the element in Kuhn coordinates *)
Lemma weight_chain : forall dim n p q o x w i, (0 < dim)%nat -> isPerm dim p -> (forall i, (i < dim)%nat -> q (p i) = i) -> (forall i, (i < dim)%nat -> p (q i) = i) ->
  isPerm dim q -> (0 < n)%nat -> (i <= dim)%nat -> rsum (S dim) w = 1 ->
  (forall k, (k < dim)%nat -> x k = rsum (S dim) (fun i => w i * Gmap dim p o n (sc i) k)) ->
  chainWeight dim p (local0 dim n o x) (chainPos q i) = w i /\ ((forall i, (i <= dim)%nat -> 0 <= w i) -> kuhnQ (Rle 0) dim p (local0 dim n o x)).
Proof.
  intros dim n p q o x w i H P qp pq Q Hn Hi W E. set (u := fun k => w (S k)).
  assert (A : agree dim x (Gmap dim p o n u)).
  { intros k Hk. rewrite E by assumption. symmetry. apply (affdet_comb dim _ _ w (S dim) sc (affdet_Gmap dim p o n P) W); auto.
    intros j Hj. symmetry. apply sc_sum. assumption. }
  assert (L : forall j, (j < dim)%nat -> local0 dim n o x j = referenceToKuhn Rplus dim u p j).
  { intros j Hj. unfold local0. rewrite (K0_agree dim _ _ A) by assumption. rewrite K0_Gmap by assumption. field. apply not_0_INR; lia. }
  assert (W0 : w 0%nat = 1 - rsum dim u) by (rewrite rsum_shift in W; unfold u; lra).
  destruct (r2k_spec Rplus dim p u P) as (R1 & R2 & _). split.
  - unfold chainWeight. destruct i as [|l]; cbn [chainPos].
    + destruct (Nat.ltb_spec 0 dim); [|lia]. rewrite L by (apply P; assumption). rewrite r2k_first by assumption. lra.
    + pose proof (proj1 Q l ltac:(lia)) as Ql. replace (q l + 1)%nat with (S (q l)) by lia. rewrite L by (apply P; assumption).
      destruct (Nat.ltb_spec (S (q l)) dim) as [L1|L1].
      * rewrite L by (apply P; assumption). rewrite R1 by assumption. rewrite pq by lia. unfold u. ring.
      * assert (F : q l = (dim - 1)%nat) by lia. rewrite F, R2 by assumption. rewrite <- F, pq by lia. unfold u. ring.
  - intros Wp. apply (elem_hull (Rle 0)); [lra|assumption|assumption|]. exists u. split; [|assumption]. split.
    + intros k Hk. apply Wp. lia.
    + rewrite Ssum_rsum, <- W0. apply Wp. lia.
Qed.
(** ** in barycentric coordinates: the sums over the first i coordinates *)
Lemma bary_total : forall dim x, rsum (S dim) (bary dim x) = 1.
Proof. intros. rewrite rsum_shift, (rsum_ext dim (fun k => bary dim x (S k)) x) by reflexivity. unfold bary. rewrite Ssum_rsum. ring. Qed.
Lemma bary_prefix : forall dim x j, (j < dim)%nat -> rsum (S j) (bary dim x) = 1 - K0 dim x j.
Proof.
  intros dim x j Hj. unfold K0. rewrite (r2k_tail dim idp x j) by (auto using isPerm_id).
  rewrite rsum_shift, (rsum_ext j (fun k => bary dim x (S k)) x) by reflexivity. unfold bary. rewrite Ssum_rsum.
  replace dim with (j + (dim - j))%nat at 1 by lia. rewrite rsum_app. ring.
Qed.
Definition lattice (dim n : nat) (c : Vec) : Prop := forall l, (l <= dim)%nat -> exists a : Z, INR n * bary dim c l = IZR a.
(** differences of the scaled barycentric coordinates, summed over ranges *)
Definition bdiff (dim n : nat) (c x : Vec) (l : nat) : R := INR n * (bary dim c l - bary dim x l).
Definition bnear (dim n : nat) (c x : Vec) : Prop :=
  forall i j, (i <= S dim)%nat -> (j <= S dim)%nat -> rsum i (bdiff dim n c x) - rsum j (bdiff dim n c x) < 1.
Lemma bdiff_prefix : forall dim n c x j, (j < dim)%nat -> rsum (S j) (bdiff dim n c x) = INR n * K0 dim x j - INR n * K0 dim c j.
Proof.
  intros dim n c x j Hj. unfold bdiff. rewrite rsum_scal, rsum_minus, !bary_prefix by assumption. ring.
Qed.
Lemma bdiff_total : forall dim n c x, rsum (S dim) (bdiff dim n c x) = 0.
Proof. intros. unfold bdiff. rewrite rsum_scal, rsum_minus, !bary_total. ring. Qed.
Lemma near_bnear : forall dim n (a : nat -> Z) c x, (forall j, (j < dim)%nat -> INR n * K0 dim c j = IZR (a j)) ->
  (near dim a (fun j => INR n * K0 dim x j) <-> bnear dim n c x).
Proof.
  intros dim n a c x E. split.
  - intros [N1 N2] i j Hi Hj.
    assert (C : forall i, (i <= S dim)%nat -> (rsum i (bdiff dim n c x) = 0 \/ exists m, (m < dim)%nat /\ rsum i (bdiff dim n c x) = - (IZR (a m) - INR n * K0 dim x m))).
    { intros [|m] Hm; [left; reflexivity|]. destruct (Nat.eq_dec m dim) as [->|]; [left; apply bdiff_total|].
      right. exists m. split; [lia|]. rewrite bdiff_prefix, E by lia. ring. }
    destruct (C i Hi) as [Ei|(m & Hm & Ei)], (C j Hj) as [Ej|(m' & Hm' & Ej)]; rewrite Ei, Ej.
    + lra.
    + specialize (N1 m' Hm'). lra.
    + specialize (N1 m Hm). lra.
    + specialize (N2 m' m Hm' Hm). lra.
  - intros B.
    assert (C : forall m, (m < dim)%nat -> IZR (a m) - INR n * K0 dim x m = - rsum (S m) (bdiff dim n c x)).
    { intros m Hm. rewrite bdiff_prefix, E by lia. ring. }
    split.
    + intros j Hj. cbv beta. rewrite C by assumption. pose proof (B (S j) 0%nat ltac:(lia) ltac:(lia)). pose proof (B 0%nat (S j) ltac:(lia) ltac:(lia)).
      change (rsum 0 (bdiff dim n c x)) with 0 in *. lra.
    + intros i j Hi Hj. cbv beta. rewrite !C by assumption. pose proof (B (S j) (S i) ltac:(lia) ltac:(lia)). lra.
Qed.
Lemma lattice_K0 : forall dim n c, lattice dim n c -> exists a : nat -> Z, forall j, (j < dim)%nat -> INR n * K0 dim c j = IZR (a j).
Proof.
  intros dim n c L.
  assert (G : forall i, (i <= S dim)%nat -> exists a : Z, INR n * rsum i (bary dim c) = IZR a).
  { induction i as [|i IH]; intros Hi; [exists 0%Z; cbn; ring|]. destruct (IH ltac:(lia)) as (a & A). destruct (L i ltac:(lia)) as (b & B).
    exists (a + b)%Z. rewrite rsum_S, plus_IZR, <- A, <- B. ring. }
  assert (C : forall d, (d <= dim)%nat -> exists a : nat -> Z, forall j, (j < d)%nat -> INR n * K0 dim c j = IZR (a j)).
  { induction d as [|d IH]; intros Hd; [exists (fun _ => 0%Z); intros; lia|]. destruct (IH ltac:(lia)) as (a & A).
    destruct (G (S d) ltac:(lia)) as (b & B). rewrite bary_prefix in B by lia.
    exists (fun j => if Nat.eqb j d then (Z.of_nat n - b)%Z else a j). intros j Hj. destruct (Nat.eqb_spec j d) as [->|]; [|apply A; lia].
    rewrite minus_IZR, <- INR_IZR_INZ, <- B. ring. }
  apply C. lia.
Qed.
(** the corners that carry a point of the element are near it *)
Lemma carrier_bnear : forall dim n p q o x w i, (0 < dim)%nat -> isPerm dim p -> (forall i, (i < dim)%nat -> q (p i) = i) -> (forall i, (i < dim)%nat -> p (q i) = i) ->
  isPerm dim q -> (0 < n)%nat -> (i <= dim)%nat -> (forall i, (i <= dim)%nat -> 0 <= w i) -> rsum (S dim) w = 1 ->
  (forall k, (k < dim)%nat -> x k = rsum (S dim) (fun i => w i * Gmap dim p o n (sc i) k)) -> 0 < w i ->
  bnear dim n (Gmap dim p o n (sc i)) x.
Proof.
  intros dim n p q o x w i H P qp pq Q Hn Hi W0 W1 E Wi.
  destruct (weight_chain dim n p q o x w i H P qp pq Q Hn Hi W1 E) as [C K]. specialize (K W0).
  apply (near_bnear dim n (fun j => Z.of_nat (cornerAt q o (chainPos q i) j))).
  - intros j Hj. rewrite (K0_corner dim n p q o i j) by assumption. apply INR_IZR_INZ.
  - apply (corner_near dim p q o _ _ H P Q pq); [apply chainPos_le; assumption|exact K|].
    change (0 < chainWeight dim p (local0 dim n o x) (chainPos q i)). rewrite C. assumption.
Qed.
Lemma corner_lattice : forall dim n p q o i, isPerm dim p -> (forall i, (i < dim)%nat -> q (p i) = i) -> (forall i, (i < dim)%nat -> p (q i) = i) ->
  isPerm dim q -> (0 < n)%nat -> (i <= dim)%nat -> lattice dim n (Gmap dim p o n (sc i)).
Proof.
  intros dim n p q o i P qp pq Q Hn Hi l Hl. set (c := Gmap dim p o n (sc i)).
  assert (G : forall i, (i <= S dim)%nat -> exists a : Z, INR n * rsum i (bary dim c) = IZR a).
  { intros [|m] Hm; [exists 0%Z; cbn; ring|]. destruct (Nat.eq_dec m dim) as [->|N].
    - exists (Z.of_nat n). rewrite bary_total, <- INR_IZR_INZ. ring.
    - exists (Z.of_nat n - Z.of_nat (cornerAt q o (chainPos q i) m))%Z. rewrite bary_prefix by lia.
      rewrite minus_IZR, <- !INR_IZR_INZ, <- (K0_corner dim n p q o i m) by (auto; lia). fold c. ring. }
  destruct (G l ltac:(lia)) as (a & A). destruct (G (S l) ltac:(lia)) as (b & B). exists (b - a)%Z.
  rewrite minus_IZR, <- A, <- B, rsum_S. ring.
Qed.
(** a grid point near a point of the element is one of its corners *)
Lemma bnear_corner : forall dim n p q o x c, (0 < dim)%nat -> isPerm dim p -> (forall i, (i < dim)%nat -> q (p i) = i) -> (forall i, (i < dim)%nat -> p (q i) = i) ->
  isPerm dim q -> (0 < n)%nat -> kuhnQ (Rle 0) dim p (local0 dim n o x) -> lattice dim n c -> bnear dim n c x ->
  exists i, (i <= dim)%nat /\ agree dim c (Gmap dim p o n (sc i)).
Proof.
  intros dim n p q o x c H P qp pq Q Hn K L B. destruct (lattice_K0 dim n c L) as (a & A).
  apply (near_bnear dim n a c x A) in B.
  destruct (near_corner dim p q o _ a H P Q qp pq K B) as (m & Hm & E).
  set (i := match m with O => O | S m => S (p m) end).
  assert (Hi : (i <= dim)%nat) by (unfold i; destruct m as [|m]; [lia|]; pose proof (proj1 P m ltac:(lia)); lia).
  assert (Ci : chainPos q i = m) by (unfold i; destruct m as [|m]; cbn [chainPos]; [reflexivity|]; rewrite qp by lia; lia).
  exists i. split; [assumption|]. apply K0_inj. intros j Hj.
  assert (N : INR n <> 0) by (apply not_0_INR; lia). apply (Rmult_eq_reg_l (INR n)); [|assumption].
  rewrite A, (K0_corner dim n p q o i j), Ci, E by assumption. symmetry. apply INR_IZR_INZ.
Qed.
(** two elements of one refined simplex *)
Lemma simplex_conform : forall dim n p q o p' q' o', (0 < dim)%nat -> (0 < n)%nat ->
  isPerm dim p -> isPerm dim q -> (forall i, (i < dim)%nat -> q (p i) = i) -> (forall i, (i < dim)%nat -> p (q i) = i) ->
  isPerm dim p' -> isPerm dim q' -> (forall i, (i < dim)%nat -> q' (p' i) = i) -> (forall i, (i < dim)%nat -> p' (q' i) = i) ->
  conform dim (map (fun i => Gmap dim p o n (sc i)) (seq 0 (dim + 1))) (map (fun i => Gmap dim p' o' n (sc i)) (seq 0 (dim + 1))).
Proof.
  intros dim n p q o p' q' o' H Hn P Q qp pq P' Q' qp' pq' X w W0 W1 E I i Hi Wi.
  rewrite map_length, seq_length in *. rewrite Nat.add_1_r in *. rewrite Ssum_rsum in W1.
  assert (E' : forall k, (k < dim)%nat -> X k = rsum (S dim) (fun i => w i * Gmap dim p o n (sc i) k)).
  { intros k Hk. rewrite E by assumption. rewrite Ssum_rsum. apply rsum_ext. intros j Hj. rewrite nth_map_seq by assumption. reflexivity. }
  assert (B : bnear dim n (Gmap dim p o n (sc i)) X) by (apply (carrier_bnear dim n p q o X w); auto; try lia; intros; apply W0; lia).
  rewrite <- Nat.add_1_r in I. apply (hull_image (Rle 0) dim _ _ X (affdet_Gmap dim p' o' n P')) in I.
  apply (elem_hull (Rle 0)) in I; [|lra|assumption|assumption].
  destruct (bnear_corner dim n p' q' o' X _ H P' qp' pq' Q' Hn I (corner_lattice dim n p q o i P qp pq Q Hn ltac:(lia)) B) as (i' & Hi' & A).
  exists (Gmap dim p' o' n (sc i')). split; [apply in_map_iff; exists i'; split; [reflexivity|]; apply in_seq; lia|].
  rewrite nth_map_seq by lia. assumption.
Qed.
