(** The elements of the refined simplex as point sets: they cover the simplex and do not overlap. *)
From Coq Require Import PeanoNat NArith ZArith Bool List Permutation Reals Factorial Lia Lra FunctionalExtensionality.
From Verif Require Import M_Type M_RefTopo M_RefGeo S_Topo S_RefGeo S_Matrix P_Type P_Topo P_RefTopo P_RefTopo2 P_RSum P_RefGeo P_RefGeo2 P_RefGeo4 P_Det P_RefDet P_RefGeo3 P_Type2 P_RefTopo3
  T_RefGeo M_MultiLinear M_Refine S_Refine P_Refine1 P_Refine2 P_Refine3 P_Refine4.
Import ListNotations.
Local Open Scope R_scope.

Notation idp := (fun i : nat => i).
Lemma isPerm_id : forall n, isPerm n idp. Proof. intros. split; auto. Qed.
(** the map of an element *)
Definition Gmap (dim : nat) (p : nat -> nat) (o : nat -> nat) (n : nat) (x : Vec) : Vec :=
  kuhnToReference Rminus dim (fun i => (referenceToKuhn Rplus dim x p i + INR (o i)) / INR n) idp.
Lemma se_global_eq : forall dim s p x, getPermutation dim (se_kuhn s) = Some p ->
  se_global dim s x = Some (Gmap dim p (se_origin s) (se_size s) x).
Proof. intros dim s p x E. unfold se_global. rewrite E, getPermutation_zero. reflexivity. Qed.
Lemma affdet_Gmap : forall dim p o n, isPerm dim p -> affdet dim (Gmap dim p o n) ((/ INR n) ^ dim).
Proof.
  intros dim p o n H.
  pose proof (affdet_comp dim _ _ _ _ (affdet_scale dim (fun i => INR (o i)) (INR n)) (affdet_r2k dim p H)) as A.
  pose proof (affdet_comp dim _ _ _ _ (affdet_k2r dim idp (isPerm_id dim)) A) as B.
  rewrite Rmult_1_l, Rmult_1_r in B. exact B.
Qed.
Lemma simplex_corner_pos : forall dim r i, (i <= dim)%nat -> re_position simplexId dim r i dim = Some (sc i).
Proof.
  intros dim r i Hi. unfold re_position. rewrite Nat.eqb_refl.
  assert (V : (simplexId < 2 ^ N.of_nat dim)%N).
  { unfold simplexId. assert (2 ^ N.of_nat dim <> 0)%N by (apply N.pow_nonzero; discriminate). lia. }
  assert (IS : isSimplex (GT2 simplexId dim) = true).
  { unfold isSimplex, GT2, simplexId. cbn. reflexivity. }
  assert (CC := C16_corner_count simplexId dim).
  assert (SZ : size simplexId dim dim = S dim).
  { rewrite <- CC. rewrite corners_verts, map_length. rewrite simT_verts_length; [now rewrite tdim_topo_of|].
    apply (isSimplex_simT _ _); [now rewrite bit_pow|exact IS]. }
  destruct (nth_error (referenceCorners simplexId dim) i) as [p|] eqn:E.
  - f_equal. extensionality k. apply (C16_simplex_corners _ _ _ _ V IS E).
  - apply nth_error_None in E. rewrite CC, SZ in E. lia.
Qed.
Lemma sequence_map {A B} : forall (f : A -> option B) (g : A -> B) l, (forall a, In a l -> f a = Some (g a)) -> sequence (map f l) = Some (map g l).
Proof.
  induction l as [|a l IH]; intros H; [reflexivity|]. cbn [map sequence]. rewrite H by (left; reflexivity). cbn [obind].
  rewrite IH by (intros; apply H; right; assumption). reflexivity.
Qed.
Lemma se_corners_eq : forall dim r s p, getPermutation dim (se_kuhn s) = Some p ->
  se_corners dim r s = Some (map (fun i => Gmap dim p (se_origin s) (se_size s) (sc i)) (seq 0 (dim + 1))).
Proof.
  intros dim r s p E. unfold se_corners. apply sequence_map. intros i I. apply in_seq in I.
  rewrite simplex_corner_pos by lia. cbn [obind]. apply se_global_eq. assumption.
Qed.
Lemma se_geometry_eq : forall dim r s p, getPermutation dim (se_kuhn s) = Some p ->
  se_geometry dim r s = Some {| ml_id := simplexId; ml_ref := r;
    ml_corners := map (fun i => Gmap dim p (se_origin s) (se_size s) (sc i)) (seq 0 (dim + 1)) |}.
Proof. intros dim r s p E. unfold se_geometry. rewrite (se_corners_eq dim r s p E). reflexivity. Qed.

(** Kuhn coordinates of the whole simplex *)
Definition K0 (dim : nat) (X : Vec) : Vec := referenceToKuhn Rplus dim X idp.
Lemma K0_agree : forall dim X Y, agree dim X Y -> agree dim (K0 dim X) (K0 dim Y).
Proof. intros. apply (affdet_agree dim (K0 dim) 1); auto. apply (affdet_r2k dim idp). apply isPerm_id. Qed.
Definition local0 (dim n : nat) (o : nat -> nat) (X : Vec) : Vec := fun j => INR n * K0 dim X j - INR (o j).
Lemma elem_hull : forall (Q : R -> Prop) dim p o n X, Q 1 -> isPerm dim p -> (0 < n)%nat ->
  ((exists x, simpQ Q dim x /\ agree dim X (Gmap dim p o n x)) <-> kuhnQ Q dim p (local0 dim n o X)).
Proof.
  intros Q dim p o n X Q1 H Hn. assert (N : INR n <> 0) by (apply not_0_INR; lia).
  assert (KG : forall x, K0 dim (Gmap dim p o n x) = fun i => (referenceToKuhn Rplus dim x p i + INR (o i)) / INR n).
  { intros x. unfold K0, Gmap. apply r2k_k2r. apply isPerm_id. }
  split.
  - intros (x & S & A). apply (simp_kuhn Q dim p x Q1 H) in S. revert S. apply kuhnQ_agree; auto.
    intros j Hj. apply K0_agree in A. unfold local0. rewrite A by assumption. rewrite KG. field. assumption.
  - intros K. exists (kuhnToReference Rminus dim (local0 dim n o X) p). split.
    + apply (simp_kuhn Q dim p _ Q1 H). rewrite r2k_k2r by assumption. assumption.
    + unfold Gmap. rewrite r2k_k2r by assumption.
      assert (E : (fun i => (local0 dim n o X i + INR (o i)) / INR n) = K0 dim X).
      { extensionality i. unfold local0. field. assumption. }
      rewrite E. unfold K0. rewrite k2r_r2k by apply isPerm_id. intros i Hi. reflexivity.
Qed.

(** ** covering *)
Definition ltZ (z : Vec) (b a : nat) : bool :=
  if Rlt_dec (z a) (z b) then true else if Rlt_dec (z b) (z a) then false else (b <? a)%nat.
Lemma ltZ_spec : forall z b a, ltZ z b a = true <-> z a < z b \/ (z a = z b /\ (b < a)%nat).
Proof.
  intros. unfold ltZ. destruct (Rlt_dec (z a) (z b)); [intuition|]. destruct (Rlt_dec (z b) (z a)).
  - split; [discriminate|]. intros [|[E _]]; lra.
  - rewrite Nat.ltb_lt. split; [intros; right; split; [lra|assumption]|]. intros [|[_ L]]; [lra|assumption].
Qed.
Lemma ltZ_irr : forall z a, ltZ z a a = false.
Proof. intros. destruct (ltZ z a a) eqn:E; [|reflexivity]. apply ltZ_spec in E. destruct E as [|[_ L]]; [lra|lia]. Qed.
Lemma ltZ_trans : forall z a b c, ltZ z a b = true -> ltZ z b c = true -> ltZ z a c = true.
Proof.
  intros z a b c. rewrite !ltZ_spec. intros [A|[A1 A2]] [B|[B1 B2]].
  - left; lra.
  - left; lra.
  - left; lra.
  - right; split; [lra|lia].
Qed.
Lemma ltZ_total : forall z a b, a <> b -> ltZ z a b = true \/ ltZ z b a = true.
Proof.
  intros z a b N. rewrite !ltZ_spec. destruct (Rtotal_order (z a) (z b)) as [|[E|]]; [right; left; lra| |left; left; lra].
  destruct (Nat.lt_trichotomy a b) as [|[|]]; [left; right|contradiction|right; right]; split; auto; lia.
Qed.
(** sorting the coordinates downwards *)
Lemma sort_down : forall dim z, exists p q, isPerm dim p /\ isPerm dim q
  /\ (forall i, (i < dim)%nat -> q (p i) = i) /\ (forall i, (i < dim)%nat -> p (q i) = i)
  /\ (forall i, (S i < dim)%nat -> z (p (S i)) <= z (p i))
  /\ (forall a b, (a < dim)%nat -> (b < dim)%nat -> ((q a < q b)%nat <-> ltZ z a b = true)).
Proof.
  intros dim z.
  assert (P : isPerm dim (rank dim (ltZ z))).
  { apply rank_perm; intros; [apply ltZ_irr|eapply ltZ_trans; eassumption|apply ltZ_total; assumption]. }
  assert (L : forall a b, (a < dim)%nat -> (b < dim)%nat -> ((rank dim (ltZ z) a < rank dim (ltZ z) b)%nat <-> ltZ z a b = true)).
  { intros a b Ha Hb. apply rank_lt_iff; intros; auto; [apply ltZ_irr|eapply ltZ_trans; eassumption|apply ltZ_total; assumption]. }
  destruct (perm_inverse dim _ P) as (p & Hp & pq & qp).
  exists p, (rank dim (ltZ z)). split; [exact Hp|]. split; [exact P|]. split; [exact qp|]. split; [exact pq|]. split; [|exact L].
  intros i Hi. assert (X : ltZ z (p i) (p (S i)) = true).
  { apply L; [apply Hp; lia|apply Hp; lia|]. rewrite !qp by lia. lia. }
  apply ltZ_spec in X. destruct X as [|[E _]]; lra.
Qed.
(** integer part, at most n-1 *)
Lemma cell_of : forall n y, (0 < n)%nat -> 0 <= y <= INR n -> exists c, (c < n)%nat /\ INR c <= y <= INR c + 1 /\ (y = INR n \/ y < INR c + 1).
Proof.
  induction n as [|n IH]; intros y Hn [Y1 Y2]; [lia|]. destruct (Rle_dec y (INR n)) as [L|L].
  - destruct (Nat.eq_dec n 0) as [->|N].
    + exists 0%nat. cbn in *. split; [lia|]. split; [lra|]. right. lra.
    + destruct (IH y ltac:(lia) (conj Y1 L)) as (c & C1 & C2 & [E|C3]).
      * exists n. split; [lia|]. split; [lra|]. right. lra.
      * exists c. split; [lia|]. split; [lra|]. right. lra.
  - exists n. rewrite S_INR in *. split; [lia|]. split; [lra|].
    destruct (Req_dec y (INR n + 1)); [left; assumption|right; lra].
Qed.
Lemma cell_mono : forall n a b x y, (a < n)%nat -> (b < n)%nat -> x <= y -> y <= INR n -> INR a <= x -> INR b <= y -> (y = INR n \/ y < INR b + 1) ->
  (x = INR n \/ x < INR a + 1) -> x <= INR a + 1 -> y <= INR b + 1 -> (a <= b)%nat.
Proof.
  intros n a b x y Ha Hb L U A B [E|B'] A' A2 B2.
  - assert (INR n <= INR b + 1) by lra. rewrite <- S_INR in H. apply INR_le in H. lia.
  - assert (INR a < INR b + 1) by lra. rewrite <- S_INR in H. apply INR_lt in H. lia.
Qed.
Lemma list_choice : forall n dim (y : Vec), (0 < n)%nat -> (forall j, (j < dim)%nat -> 0 <= y j <= INR n) ->
  exists v : nat -> nat, forall j, (j < dim)%nat -> (v j < n)%nat /\ INR (v j) <= y j <= INR (v j) + 1 /\ (y j = INR n \/ y j < INR (v j) + 1).
Proof.
  intros n dim y Hn. induction dim as [|dim IH]; intros B; [exists (fun _ => 0%nat); intros; lia|].
  destruct IH as (v & V); [intros; apply B; lia|]. destruct (cell_of n (y dim) Hn (B dim ltac:(lia))) as (c & C).
  exists (fun j => if Nat.eqb j dim then c else v j). intros j Hj. destruct (Nat.eqb_spec j dim) as [->|]; [exact C|]. apply V. lia.
Qed.

(** ** elements by origin and permutation *)
Lemma elem_find : forall dim n v p q, (0 < dim)%nat -> (0 < n)%nat -> isPerm dim p -> isPerm dim q ->
  (forall i, (i < dim)%nat -> q (p i) = i) -> (forall i, (i < dim)%nat -> p (q i) = i) -> decr dim v -> (v 0 < n)%nat -> inCond dim q v ->
  exists k, (k < n ^ dim)%nat /\ agree dim (se_origin (elemAt dim n k)) v
    /\ exists p', getPermutation dim (se_kuhn (elemAt dim n k)) = Some p' /\ agree dim p' p.
Proof.
  intros dim n v p q H Hn Hp Hq qp pq D B C.
  destruct (getPermutation_surj dim p Hp) as (m & p' & Hm & E & A).
  destruct (cand_of dim v m H D Hm) as (r & Er & Ek & Eq).
  assert (EP : permOf dim (candK dim r) = p') by (unfold permOf; rewrite Ek, E; reflexivity).
  assert (I : candIn dim r = true).
  { apply (candIn_iff dim r q); auto.
    - intros i Hi. rewrite EP, A by assumption. auto.
    - intros i Hi. rewrite EP, A by (apply Hq; assumption). auto.
    - intros j Hj. rewrite !Er by lia. apply C. assumption. }
  assert (L : (r < lastR dim n)%nat) by (apply cand_bound; auto; rewrite Er by assumption; assumption).
  destruct (rs_all dim n r H Hn L I) as (k & Hk & Rk). exists k. unfold elemAt. cbn [se_origin se_kuhn]. rewrite Rk.
  split; [assumption|]. split; [assumption|]. exists p'. rewrite Ek. auto.
Qed.
Lemma elem_spec : forall dim n k, (0 < dim)%nat -> (0 < n)%nat -> (k < n ^ dim)%nat ->
  exists p q, getPermutation dim (se_kuhn (elemAt dim n k)) = Some p /\ isPerm dim p /\ isPerm dim q
    /\ (forall i, (i < dim)%nat -> q (p i) = i) /\ (forall i, (i < dim)%nat -> p (q i) = i)
    /\ decr dim (se_origin (elemAt dim n k)) /\ (se_origin (elemAt dim n k) 0 < n)%nat /\ inCond dim q (se_origin (elemAt dim n k))
    /\ (se_kuhn (elemAt dim n k) < fact dim)%nat.
Proof.
  intros dim n k H Hn Hk. unfold elemAt. cbn [se_origin se_kuhn].
  destruct (permOf_spec dim (candK dim (rs dim k)) (candK_lt dim _)) as [G P].
  destruct (perm_inverse dim _ P) as (q & Hq & qp & pq).
  exists (permOf dim (candK dim (rs dim k))), q.
  split; [exact G|]. split; [exact P|]. split; [exact Hq|]. split; [exact qp|]. split; [exact pq|].
  split; [apply candO_decr; assumption|]. split; [apply cand_bound; auto; apply rs_lt; auto|]. split; [|apply candK_lt].
  apply (candIn_iff dim (rs dim k) q Hq qp pq). apply rs_in. assumption.
Qed.
Lemma elem_inj : forall dim n k k' p p', (0 < dim)%nat -> (0 < n)%nat ->
  getPermutation dim (se_kuhn (elemAt dim n k)) = Some p -> getPermutation dim (se_kuhn (elemAt dim n k')) = Some p' ->
  agree dim p p' -> agree dim (se_origin (elemAt dim n k)) (se_origin (elemAt dim n k')) -> k = k'.
Proof.
  intros dim n k k' p p' H Hn E E' A B. unfold elemAt in *. cbn [se_origin se_kuhn] in *.
  assert (Ek : candK dim (rs dim k) = candK dim (rs dim k')) by (eapply getPermutation_inj; eauto; apply candK_lt).
  apply index_ext in B. unfold candO in B. rewrite !vseq_index in B by assumption.
  assert (R : rs dim k = rs dim k').
  { pose proof (fact_pos dim). rewrite (Nat.div_mod (rs dim k) (fact dim)) by lia. rewrite (Nat.div_mod (rs dim k') (fact dim)) by lia.
    unfold candK in Ek. rewrite B, Ek. reflexivity. }
  destruct (Nat.lt_trichotomy k k') as [L|[L|L]]; [|assumption|]; apply (rs_mono dim) in L; auto; lia.
Qed.

Lemma elem_cover : forall dim n x, (0 < dim)%nat -> (0 < n)%nat -> inSimplex dim x ->
  exists k p, (k < n ^ dim)%nat /\ getPermutation dim (se_kuhn (elemAt dim n k)) = Some p
    /\ kuhnQ (Rle 0) dim p (local0 dim n (se_origin (elemAt dim n k)) x).
Proof.
  intros dim n x H Hn S. apply inSimplex_Q in S. apply (simp_kuhn _ dim idp) in S; [|lra|apply isPerm_id].
  apply inKuhn_Q in S. fold (K0 dim x) in S. destruct S as [S1 S2].
  assert (Np : 0 < INR n) by (apply lt_0_INR; assumption).
  destruct (list_choice n dim (fun j => INR n * K0 dim x j) Hn) as (v & V).
  { intros j Hj. specialize (S1 j Hj). cbn beta in S1. split; nra. }
  set (z := fun j => INR n * K0 dim x j - INR (v j)).
  destruct (sort_down dim z) as (p & q & Hp & Hq & qp & pq & Z & L).
  assert (D : decr dim v).
  { intros j Hj. destruct (V j ltac:(lia)) as (a1 & a2 & a3). destruct (V (S j) Hj) as (b1 & b2 & b3).
    specialize (S2 j Hj). cbn beta in S2. specialize (S1 j ltac:(lia)). cbn beta in S1.
    apply (cell_mono n _ _ (INR n * K0 dim x (S j)) (INR n * K0 dim x j)); auto; try lra; nra. }
  assert (C : inCond dim q v).
  { intros j Hj. pose proof (D j Hj). destruct (Nat.eq_dec (v (S j)) (v j)) as [E|E].
    - assert (X : (q j < q (S j))%nat).
      { apply L; try lia. apply ltZ_spec. unfold z. rewrite E. specialize (S2 j Hj). cbn beta in S2.
        assert (INR n * K0 dim x (S j) <= INR n * K0 dim x j) by nra.
        destruct (Req_dec (INR n * K0 dim x (S j)) (INR n * K0 dim x j)); [right; split; [lra|lia]|left; lra]. }
      apply Nat.ltb_lt in X. rewrite X. lia.
    - destruct (q j <? q (S j))%nat; lia. }
  destruct (elem_find dim n v p q H Hn Hp Hq qp pq D (proj1 (V 0%nat H)) C) as (k & Hk & O & p' & E & A).
  exists k, p'. split; [assumption|]. split; [assumption|].
  intros _. rewrite !A by lia.
  assert (W : forall j, (j < dim)%nat -> local0 dim n (se_origin (elemAt dim n k)) x j = z j) by (intros j Hj; unfold local0, z; rewrite O by assumption; reflexivity).
  assert (B : forall j, (j < dim)%nat -> 0 <= z j <= 1) by (intros j Hj; destruct (V j Hj) as (_ & a & _); unfold z; lra).
  rewrite !W by (apply Hp; lia). repeat apply conj.
  - pose proof (B (p 0%nat) ltac:(apply Hp; lia)). lra.
  - apply B. apply Hp. lia.
  - intros i Hi. rewrite !A, !W by (try apply Hp; lia). specialize (Z i Hi). lra.
Qed.

Lemma kuhn_strict : forall dim p y, kuhnQ (Rlt 0) dim p y -> isPerm dim p -> (0 < dim)%nat ->
  (forall j, (j < dim)%nat -> 0 < y j < 1) /\ forall i j, (i < j)%nat -> (j < dim)%nat -> y (p j) < y (p i).
Proof.
  intros dim p y K Hp Hd. destruct (K Hd) as (K1 & K2 & K3).
  assert (M : forall i j, (i < j)%nat -> (j < dim)%nat -> y (p j) < y (p i)).
  { intros i j L. induction L as [|j L IH]; intros Hj.
    - specialize (K3 i Hj). lra.
    - specialize (IH ltac:(lia)). specialize (K3 j Hj). lra. }
  split; [|exact M]. intros j Hj. destruct (perm_onto dim p Hp j Hj) as (i & Hi & <-). split.
  - destruct (Nat.eq_dec i (dim - 1)) as [->|N]; [assumption|]. pose proof (M i (dim - 1)%nat ltac:(lia) ltac:(lia)). lra.
  - destruct (Nat.eq_dec i 0) as [->|N]; [lra|]. pose proof (M 0%nat i ltac:(lia) ltac:(lia)). lra.
Qed.
(** the origin and the permutation are determined by an interior point *)
Lemma kuhn_unique : forall dim p p' (v v' : nat -> nat) (y : Vec), (0 < dim)%nat -> isPerm dim p -> isPerm dim p' ->
  kuhnQ (Rlt 0) dim p (fun j => y j - INR (v j)) -> kuhnQ (Rle 0) dim p' (fun j => y j - INR (v' j)) ->
  agree dim v v' /\ agree dim p p'.
Proof.
  intros dim p p' v v' y Hd Hp Hp' K K'.
  destruct (kuhn_strict dim p _ K Hp Hd) as [B M]. cbv beta in B, M.
  apply inKuhn_Q in K'. destruct K' as [B' M']. cbv beta in B', M'.
  assert (V : agree dim v v').
  { intros j Hj. specialize (B j Hj). destruct (perm_onto dim p' Hp' j Hj) as (i & Hi & E). specialize (B' i Hi). rewrite E in B'.
    assert (L1 : INR (v j) < INR (v' j) + 1) by lra. assert (L2 : INR (v' j) < INR (v j) + 1) by lra.
    rewrite <- S_INR in L1, L2. apply INR_lt in L1. apply INR_lt in L2. lia. }
  split; [assumption|].
  set (z := fun j => y j - INR (v j)).
  assert (M2 : forall i j, (i <= j)%nat -> (j < dim)%nat -> z (p' j) <= z (p' i)).
  { intros i j L. induction L as [|j L IH]; intros Hj; [lra|]. specialize (IH ltac:(lia)). specialize (M' j Hj).
    unfold z in *. rewrite !V by (apply Hp'; lia). rewrite !V in IH by (apply Hp'; lia). lra. }
  destruct (perm_inverse dim p Hp) as (q & Hq & qp & pq). destruct (perm_inverse dim p' Hp') as (q' & Hq' & qp' & pq').
  assert (T : forall a b, (a < dim)%nat -> (b < dim)%nat -> a <> b -> z a <> z b).
  { intros a b Ha Hb N E. rewrite <- (pq a Ha), <- (pq b Hb) in E.
    destruct (Nat.lt_trichotomy (q a) (q b)) as [L|[L|L]].
    - specialize (M (q a) (q b) L (proj1 Hq b Hb)). unfold z in E. lra.
    - apply Hq in L; auto.
    - specialize (M (q b) (q a) L (proj1 Hq a Ha)). unfold z in E. lra. }
  assert (R1 : forall a, (a < dim)%nat -> q a = rank dim (ltZ z) a).
  { apply rank_unique; auto.
    - intros. apply ltZ_irr.
    - intros. eapply ltZ_trans; eassumption.
    - intros. apply ltZ_total. assumption.
    - intros a b Ha Hb L. apply ltZ_spec in L. destruct (Nat.lt_trichotomy (q a) (q b)) as [|[E|G]]; [assumption| |].
      + apply Hq in E; auto. subst b. destruct L as [|[_ L]]; [lra|lia].
      + specialize (M (q b) (q a) G (proj1 Hq a Ha)). rewrite !pq in M by assumption. unfold z in L. destruct L as [|[E _]]; lra. }
  assert (R2 : forall a, (a < dim)%nat -> q' a = rank dim (ltZ z) a).
  { apply rank_unique; auto.
    - intros. apply ltZ_irr.
    - intros. eapply ltZ_trans; eassumption.
    - intros. apply ltZ_total. assumption.
    - intros a b Ha Hb L. apply ltZ_spec in L. destruct (Nat.lt_trichotomy (q' a) (q' b)) as [|[E|G]]; [assumption| |].
      + apply Hq' in E; auto. subst b. destruct L as [|[_ L]]; [lra|lia].
      + specialize (M2 (q' b) (q' a) ltac:(lia) (proj1 Hq' a Ha)). rewrite !pq' in M2 by assumption.
        destruct L as [|[E L]]; [lra|]. exfalso. apply (T a b Ha Hb); [lia|auto]. }
  intros i Hi. rewrite <- (pq' (p i)) by (apply Hp; assumption).
  rewrite R2, <- R1 by (apply Hp; assumption). rewrite qp by assumption. reflexivity.
Qed.
Lemma elem_disjoint : forall dim n k k' p p' x, (0 < dim)%nat -> (0 < n)%nat -> (k < n ^ dim)%nat -> (k' < n ^ dim)%nat ->
  getPermutation dim (se_kuhn (elemAt dim n k)) = Some p -> getPermutation dim (se_kuhn (elemAt dim n k')) = Some p' ->
  kuhnQ (Rlt 0) dim p (local0 dim n (se_origin (elemAt dim n k)) x) -> kuhnQ (Rle 0) dim p' (local0 dim n (se_origin (elemAt dim n k')) x) -> k = k'.
Proof.
  intros dim n k k' p p' x H Hn Hk Hk' E E' K K'.
  destruct (elem_spec dim n k H Hn Hk) as (p1 & q1 & E1 & P1 & _). rewrite E1 in E. injection E as <-.
  destruct (elem_spec dim n k' H Hn Hk') as (p2 & q2 & E2 & P2 & _). rewrite E2 in E'. injection E' as <-.
  destruct (kuhn_unique dim p1 p2 _ _ (fun j => INR n * K0 dim x j) H P1 P2 K K') as [V P].
  exact (elem_inj dim n k k' p1 p2 H Hn E1 E2 P V).
Qed.
(** an element lies in the simplex *)
Lemma elem_inside : forall dim n k p x, (0 < dim)%nat -> (0 < n)%nat -> (k < n ^ dim)%nat ->
  getPermutation dim (se_kuhn (elemAt dim n k)) = Some p ->
  kuhnQ (Rle 0) dim p (local0 dim n (se_origin (elemAt dim n k)) x) -> inSimplex dim x.
Proof.
  intros dim n k p x H Hn Hk E K.
  destruct (elem_spec dim n k H Hn Hk) as (p1 & q & E1 & P & Q & qp & pq & D & B & C & _). rewrite E1 in E. injection E as <-.
  apply inKuhn_Q in K. destruct K as [K1 K2].
  apply inSimplex_Q. apply (simp_kuhn _ dim idp); [lra|apply isPerm_id|]. fold (K0 dim x).
  assert (Np : 0 < INR n) by (apply lt_0_INR; assumption).
  set (o := se_origin (elemAt dim n k)) in *. set (z := local0 dim n o x) in *.
  assert (Zb : forall j, (j < dim)%nat -> 0 <= z j <= 1).
  { intros j Hj. destruct (perm_onto dim p1 P j Hj) as (i & Hi & <-). apply K1. assumption. }
  assert (Zm : forall i j, (i <= j)%nat -> (j < dim)%nat -> z (p1 j) <= z (p1 i)).
  { intros i j L. induction L as [|j L IH]; intros Hj; [lra|]. specialize (IH ltac:(lia)). specialize (K2 j Hj). lra. }
  assert (Y : forall j, INR n * K0 dim x j = z j + INR (o j)) by (intros; unfold z, local0; ring).
  intros _. repeat apply conj.
  - assert (INR n * K0 dim x 0%nat <= INR n * 1).
    { rewrite Y. specialize (Zb 0%nat H). rewrite Rmult_1_r. apply Rle_trans with (1 + INR (o 0%nat)); [lra|].
      rewrite Rplus_comm, <- S_INR. apply le_INR. lia. }
    apply Rmult_le_reg_l in H0; [lra|assumption].
  - assert (0 <= INR n * K0 dim x (dim - 1)%nat).
    { rewrite Y. specialize (Zb (dim - 1)%nat ltac:(lia)). pose proof (pos_INR (o (dim - 1)%nat)). lra. }
    nra.
  - intros i Hi.
    assert (INR n * K0 dim x (S i) <= INR n * K0 dim x i).
    { rewrite !Y. specialize (C i Hi). destruct (Nat.ltb_spec (q i) (q (S i))) as [L|L].
      - pose proof (Zm (q i) (q (S i)) ltac:(lia) ltac:(apply Q; lia)) as G. rewrite !pq in G by lia.
        assert (INR (o (S i)) <= INR (o i)) by (apply le_INR; lia). lra.
      - assert (INR (S (o (S i))) <= INR (o i)) by (apply le_INR; lia). rewrite S_INR in H0.
        pose proof (Zb i ltac:(lia)). pose proof (Zb (S i) Hi). lra. }
    nra.
Qed.
