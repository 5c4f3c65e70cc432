(** Ranks of strict total orders on 0 .. d-1, and the elements of the refined simplex. *)
From Coq Require Import PeanoNat NArith ZArith Bool List Permutation Reals Factorial Lia Lra FunctionalExtensionality.
From Verif Require Import M_RefTopo M_RefGeo M_Refine S_RefGeo S_Refine P_Refine1.
Import ListNotations.

(** number of i < n with f i *)
Definition cnt (f : nat -> bool) (n : nat) : nat := length (filter f (seq 0 n)).
Lemma cnt_S : forall f n, cnt f (S n) = cnt f n + if f n then 1 else 0.
Proof. intros. unfold cnt. rewrite seq_S, filter_app, app_length. cbn [filter plus]. destruct (f n); reflexivity. Qed.
Lemma cnt_le : forall f n, cnt f n <= n.
Proof. intros. induction n as [|n IH]; [reflexivity|]. rewrite cnt_S. destruct (f n); lia. Qed.
Lemma cnt_lt : forall f n k, k < n -> f k = false -> cnt f n < n.
Proof.
  intros f n k. induction n as [|n IH]; intros H E; [lia|]. rewrite cnt_S.
  destruct (Nat.eq_dec k n) as [->|N]; [rewrite E; pose proof (cnt_le f n); lia|].
  specialize (IH ltac:(lia) E). destruct (f n); lia.
Qed.
Lemma cnt_mono : forall f g n, (forall i, i < n -> f i = true -> g i = true) -> cnt f n <= cnt g n.
Proof.
  intros f g n. induction n as [|n IH]; intros H; [reflexivity|]. rewrite !cnt_S.
  specialize (IH ltac:(intros; apply H; [lia|assumption])). pose proof (H n ltac:(lia)).
  destruct (f n); [rewrite (H0 eq_refl); lia|]. destruct (g n); lia.
Qed.
Lemma cnt_strict : forall f g n k, (forall i, i < n -> f i = true -> g i = true) -> k < n -> f k = false -> g k = true ->
  cnt f n < cnt g n.
Proof.
  intros f g n k. induction n as [|n IH]; intros H Hk F G; [lia|]. rewrite !cnt_S.
  destruct (Nat.eq_dec k n) as [->|N].
  - rewrite F, G. pose proof (cnt_mono f g n ltac:(intros; apply H; [lia|assumption])). lia.
  - specialize (IH ltac:(intros; apply H; [lia|assumption]) ltac:(lia) F G). pose proof (H n ltac:(lia)).
    destruct (f n); [rewrite (H0 eq_refl); lia|]. destruct (g n); lia.
Qed.
Lemma cnt_ext : forall f g n, (forall i, i < n -> f i = g i) -> cnt f n = cnt g n.
Proof.
  intros f g n. induction n as [|n IH]; intros H; [reflexivity|]. rewrite !cnt_S, H by lia.
  rewrite IH by (intros; apply H; lia). reflexivity.
Qed.
Lemma perm_Permutation : forall n p, isPerm n p -> Permutation (map p (seq 0 n)) (seq 0 n).
Proof.
  intros n p H. apply NoDup_Permutation.
  - destruct H as [P1 P2]. assert (G : forall l, NoDup l -> (forall i, In i l -> i < n) -> NoDup (map p l)).
    { induction l as [|a l IH]; intros N B; [constructor|]. inversion N; subst. cbn [map]. constructor.
      - rewrite in_map_iff. intros (b & E & I). apply P2 in E; [subst; contradiction|apply B; right; assumption|apply B; left; reflexivity].
      - apply IH; auto. intros. apply B. right. assumption. }
    apply G; [apply seq_NoDup|]. intros i. rewrite in_seq. lia.
  - apply seq_NoDup.
  - intros k. rewrite in_map_iff, in_seq. split.
    + intros (i & <- & I). apply in_seq in I. destruct H as [P1 _]. pose proof (P1 i ltac:(lia)). lia.
    + intros L. destruct (perm_onto n p H k) as (i & Hi & E); [lia|]. exists i. rewrite in_seq. split; [assumption|lia].
Qed.
Lemma filter_Permutation {A} : forall (f : A -> bool) l l', Permutation l l' -> Permutation (filter f l) (filter f l').
Proof.
  intros f l l' H. induction H; cbn.
  - constructor.
  - destruct (f x); auto.
  - destruct (f x); destruct (f y); auto. constructor.
  - eapply perm_trans; eauto.
Qed.
Lemma cnt_perm : forall n p f, isPerm n p -> cnt (fun i => f (p i)) n = cnt f n.
Proof.
  intros n p f H. unfold cnt. rewrite <- (Permutation_length (filter_Permutation f _ _ (perm_Permutation n p H))).
  generalize (seq 0 n). induction l as [|a l IH]; [reflexivity|]. cbn [map filter]. destruct (f (p a)); cbn [length]; auto.
Qed.
Lemma cnt_below : forall n m, m <= n -> cnt (fun i => i <? m) n = m.
Proof.
  induction n as [|n IH]; intros m H; [unfold cnt; cbn; lia|]. rewrite cnt_S.
  destruct (Nat.ltb_spec n m).
  - assert (m = S n) by lia. subst. rewrite (cnt_ext _ (fun i => i <? n)); [rewrite IH; lia|].
    intros i Hi. destruct (Nat.ltb_spec i (S n)); destruct (Nat.ltb_spec i n); auto; lia.
  - rewrite IH; lia.
Qed.

(** ** the rank under a strict total order *)
Section Rank.
Variables (d : nat) (lt : nat -> nat -> bool).
Hypothesis lt_irr : forall a, a < d -> lt a a = false.
Hypothesis lt_trans : forall a b c, a < d -> b < d -> c < d -> lt a b = true -> lt b c = true -> lt a c = true.
Hypothesis lt_total : forall a b, a < d -> b < d -> a <> b -> lt a b = true \/ lt b a = true.

Definition rank (a : nat) : nat := cnt (fun b => lt b a) d.
Lemma rank_lt : forall a b, a < d -> b < d -> lt a b = true -> rank a < rank b.
Proof.
  intros a b Ha Hb L. unfold rank. apply (cnt_strict _ _ d a); auto.
  intros c Hc Lc. apply (lt_trans c a b); auto.
Qed.
Lemma rank_perm : isPerm d rank.
Proof.
  split.
  - intros a Ha. unfold rank. apply (cnt_lt _ d a); auto.
  - intros a b Ha Hb E. destruct (Nat.eq_dec a b); [assumption|].
    destruct (lt_total a b Ha Hb n) as [L|L]; apply rank_lt in L; auto; lia.
Qed.
Lemma rank_lt_iff : forall a b, a < d -> b < d -> (rank a < rank b <-> lt a b = true).
Proof.
  intros a b Ha Hb. split; [|apply rank_lt; assumption]. intros L.
  destruct (Nat.eq_dec a b) as [->|N]; [lia|]. destruct (lt_total a b Ha Hb N) as [|C]; [assumption|].
  apply rank_lt in C; auto. lia.
Qed.
(** a permutation that respects the order is the rank *)
Lemma rank_unique : forall p, isPerm d p -> (forall a b, a < d -> b < d -> lt a b = true -> p a < p b) ->
  forall a, a < d -> p a = rank a.
Proof.
  intros p H M a Ha. unfold rank.
  rewrite (cnt_ext _ (fun b => p b <? p a)).
  - destruct H as [P1 P2]. rewrite (cnt_perm d p (fun c => c <? p a)) by (split; assumption).
    rewrite cnt_below; [reflexivity|]. pose proof (P1 a Ha). lia.
  - intros b Hb. destruct (Nat.eq_dec a b) as [->|N].
    + rewrite lt_irr by assumption. symmetry. apply Nat.ltb_irrefl.
    + destruct (lt_total a b Ha Hb N) as [L|L].
      * pose proof (M a b Ha Hb L). destruct (Nat.ltb_spec (p b) (p a)); [lia|].
        destruct (lt b a) eqn:E; [|reflexivity]. pose proof (lt_trans a b a Ha Hb Ha L E). rewrite lt_irr in H2 by assumption. discriminate.
      * pose proof (M b a Hb Ha L). rewrite L. symmetry. apply Nat.ltb_lt. assumption.
Qed.
End Rank.

(** ** the corners along a permutation *)
(** [v] plus the unit vectors of p 0 .. p (i-1); q is the inverse of p *)
Definition cornerAt (q : nat -> nat) (v : nat -> nat) (i j : nat) : nat := v j + if q j <? i then 1 else 0.

Section Corner.
Variables (dim : nat) (p q : nat -> nat).
Hypothesis Hp : isPerm dim p.
Hypothesis Hq : isPerm dim q.
Hypothesis qp : forall i, i < dim -> q (p i) = i.
Hypothesis pq : forall i, i < dim -> p (q i) = i.

Lemma corner_next : forall v c i, i < dim -> agree dim c (cornerAt q v i) ->
  agree dim (aset c (p i) (c (p i) + 1)) (cornerAt q v (S i)).
Proof.
  intros v c i Hi A j Hj. unfold aset. destruct (Nat.eqb_spec j (p i)) as [->|N].
  - rewrite A by assumption. unfold cornerAt. rewrite qp by assumption. rewrite Nat.ltb_irrefl.
    destruct (Nat.ltb_spec i (S i)); lia.
  - rewrite A by assumption. unfold cornerAt.
    assert (q j <> i) by (intros C; apply N; rewrite <- C, pq by assumption; reflexivity).
    destruct (Nat.ltb_spec (q j) i); destruct (Nat.ltb_spec (q j) (S i)); lia.
Qed.

(** the test for corners outside *)
Definition inCond (v : nat -> nat) : Prop :=
  forall j, S j < dim -> v (S j) + 1 <= v j + if q j <? q (S j) then 1 else 0.
Lemma outside_spec : forall n i v c, i + n = dim -> agree dim c (cornerAt q v i) ->
  (outsideLoop p n i c = false <->
   forall m, i <= m -> m < dim -> 0 < p m -> v (p m) + 1 <= v (p m - 1) + if q (p m - 1) <? m then 1 else 0).
Proof.
  induction n as [|n IH]; intros i v c Hi A.
  - cbn. split; [intros; lia|auto].
  - cbn [outsideLoop].
    pose proof (corner_next v c i ltac:(lia) A) as A'.
    set (c' := aset c (p i) (c (p i) + 1)) in *.
    assert (Bi : p i < dim) by (apply Hp; lia).
    assert (Ei : c' (p i) = v (p i) + 1).
    { rewrite A' by assumption. unfold cornerAt. rewrite qp by lia. destruct (Nat.ltb_spec i (S i)); lia. }
    destruct (Nat.ltb_spec 0 (p i)) as [L|L]; cbn [andb].
    + assert (Ej : c' (p i - 1) = v (p i - 1) + if q (p i - 1) <? i then 1 else 0).
      { rewrite A' by lia. unfold cornerAt. f_equal.
        assert (q (p i - 1) <> i). { intros C. apply (f_equal p) in C. rewrite pq in C by lia. lia. }
        destruct (Nat.ltb_spec (q (p i - 1)) i); destruct (Nat.ltb_spec (q (p i - 1)) (S i)); auto; lia. }
      rewrite Ei, Ej. destruct (Nat.ltb_spec (v (p i - 1) + (if q (p i - 1) <? i then 1 else 0)) (v (p i) + 1)).
      * split; [discriminate|]. intros H0. specialize (H0 i ltac:(lia) ltac:(lia) L). lia.
      * rewrite (IH (S i) v c') by (auto; lia). split.
        -- intros G m H1 H2 H3. destruct (Nat.eq_dec m i) as [->|N]; [assumption|]. apply G; lia.
        -- intros G m H1 H2 H3. apply G; lia.
    + rewrite (IH (S i) v c') by (auto; lia). split.
      * intros G m H1 H2 H3. destruct (Nat.eq_dec m i) as [->|N]; [lia|]. apply G; lia.
      * intros G m H1 H2 H3. apply G; lia.
Qed.
Lemma outside_inCond : forall v, outsideLoop p dim 0 v = false <-> inCond v.
Proof.
  intros v. rewrite (outside_spec dim 0 v v) by (auto; intros j Hj; unfold cornerAt; cbn; lia).
  unfold inCond. split.
  - intros G j Hj. assert (q (S j) < dim) by (apply Hq; assumption).
    specialize (G (q (S j)) ltac:(lia) H). rewrite pq in G by assumption. specialize (G ltac:(lia)).
    rewrite Nat.sub_succ, Nat.sub_0_r in G. exact G.
  - intros G m _ Hm Pm. assert (p m < dim) by (apply Hp; assumption).
    specialize (G (p m - 1)). replace (S (p m - 1)) with (p m) in G by lia. specialize (G H).
    rewrite qp in G by assumption. exact G.
Qed.

(** corners of an inside simplex are grid points *)
Lemma corner_grid : forall v n i, 0 < dim -> decr dim v -> inCond v -> v 0 < n -> gridPoint dim n (cornerAt q v i).
Proof.
  intros v n i Hd D C B. split.
  - intros _. unfold cornerAt. destruct (q 0 <? i); lia.
  - intros j Hj. unfold cornerAt. pose proof (C j Hj). pose proof (D j Hj).
    destruct (Nat.ltb_spec (q j) (q (S j))); destruct (Nat.ltb_spec (q (S j)) i); destruct (Nat.ltb_spec (q j) i); lia.
Qed.
Lemma corner_inj : forall v i k, i <= dim -> k <= dim -> agree dim (cornerAt q v i) (cornerAt q v k) -> i = k.
Proof.
  intros v i k Hi Hk A. destruct (Nat.lt_trichotomy i k) as [L|[E|L]]; [|assumption|].
  - pose proof (proj1 Hp i ltac:(lia)). specialize (A (p i) H). unfold cornerAt in A. rewrite qp in A by lia.
    destruct (Nat.ltb_spec i i); destruct (Nat.ltb_spec i k); lia.
  - pose proof (proj1 Hp k ltac:(lia)). specialize (A (p k) H). unfold cornerAt in A. rewrite qp in A by lia.
    destruct (Nat.ltb_spec k k); destruct (Nat.ltb_spec k i); lia.
Qed.
End Corner.

(** ** the vertices in the order of the iterator *)
Definition vseq (dim k : nat) : nat -> nat := Nat.iter k (incLoop dim) (fun _ => 0).
Lemma vseq_S : forall dim k, vseq dim (S k) = incLoop dim (vseq dim k).
Proof. reflexivity. Qed.
Lemma vseq_decr : forall dim k, 0 < dim -> decr dim (vseq dim k).
Proof.
  intros dim k H. induction k as [|k IH]; [intros i Hi; cbn; lia|]. rewrite vseq_S. apply inc_decr; assumption.
Qed.
Lemma vseq_index : forall dim k, 0 < dim -> pointIndex dim (vseq dim k) = k.
Proof.
  intros dim k H. induction k as [|k IH].
  - rewrite pointIndex_psum. apply psum_zero. reflexivity.
  - rewrite vseq_S, inc_index by (auto; apply vseq_decr; assumption). rewrite IH. reflexivity.
Qed.
Lemma vseq_outside : forall dim k j, 0 < dim -> dim <= j -> vseq dim k j = 0.
Proof.
  intros dim k j H L. induction k as [|k IH]; [reflexivity|]. rewrite vseq_S.
  destruct (inc_spec dim (vseq dim k) H (vseq_decr dim k H)) as (c & _ & _ & _ & _ & A & _). rewrite A; assumption.
Qed.
Lemma index_agree : forall dim v w, decr dim v -> decr dim w -> pointIndex dim v = pointIndex dim w -> agree dim v w.
Proof. intros. rewrite !pointIndex_psum in *. apply psum_inj; assumption. Qed.
Lemma index_ext : forall dim v w, agree dim v w -> pointIndex dim v = pointIndex dim w.
Proof. intros. rewrite !pointIndex_psum. apply psum_agree. assumption. Qed.
Lemma vseq_of : forall dim v, 0 < dim -> decr dim v -> agree dim v (vseq dim (pointIndex dim v)).
Proof.
  intros. apply index_agree; [assumption|apply vseq_decr; assumption|]. rewrite vseq_index by assumption. reflexivity.
Qed.
Lemma index_bound : forall dim n v, 0 < dim -> decr dim v -> (pointIndex dim v < binom (dim + n) dim <-> v 0 <= n).
Proof.
  intros dim n v H D. rewrite pointIndex_psum. split.
  - intros L. destruct (Nat.le_gt_cases (v 0) n) as [|G]; [assumption|]. exfalso.
    destruct dim as [|k]; [lia|]. cbn [psum] in L. pose proof (pterm_mono (S k) (S n) (v 0) ltac:(lia)).
    rewrite pterm_next in H0. lia.
  - intros L. apply psum_bound; auto.
Qed.
Lemma vseq_bound : forall dim n k, 0 < dim -> (k < binom (dim + n) dim <-> vseq dim k 0 <= n).
Proof.
  intros dim n k H. pose proof (index_bound dim n (vseq dim k) H (vseq_decr dim k H)) as E.
  rewrite vseq_index in E by assumption. exact E.
Qed.
Lemma gridPoint_decr : forall dim n v, gridPoint dim n v -> decr dim v.
Proof. intros dim n v [_ H]. exact H. Qed.
(** index of the point (c,0,..,0) *)
Lemma index_top : forall dim v c, 0 < dim -> v 0 = S c -> (forall i, 0 < i -> i < dim -> v i = 0) ->
  pointIndex dim v = binom (dim + c) dim.
Proof.
  intros dim v c H E Z. rewrite pointIndex_psum. destruct dim as [|k]; [lia|]. cbn [psum]. rewrite E, pterm_next.
  rewrite psum_zero; [lia|]. intros. apply Z; lia.
Qed.
Lemma veq_agree : forall n v w, veq n v w = true <-> agree n v w.
Proof.
  induction n as [|n IH]; intros v w; cbn [veq].
  - split; [intros _ i Hi; lia|reflexivity].
  - rewrite andb_true_iff, IH, Nat.eqb_eq. split.
    + intros [A B] i Hi. destruct (Nat.eq_dec i n) as [->|N]; [assumption|]. apply A. lia.
    + intros A. split; [intros i Hi; apply A; lia|apply A; lia].
Qed.

(** ** candidates in the order of the element iterator *)
Definition permOf (dim k : nat) : nat -> nat := match getPermutation dim k with Some p => p | None => fun i => i end.
Lemma permOf_spec : forall dim k, k < fact dim -> getPermutation dim k = Some (permOf dim k) /\ isPerm dim (permOf dim k).
Proof.
  intros dim k H. unfold permOf. destruct (getPermutation_perm dim k H) as (p & E & P). rewrite E. auto.
Qed.
Definition candO (dim r : nat) : nat -> nat := vseq dim (r / fact dim).
Definition candK (dim r : nat) : nat := r mod fact dim.
Lemma candK_lt : forall dim r, candK dim r < fact dim.
Proof. intros. unfold candK. apply Nat.mod_upper_bound. pose proof (fact_pos dim). lia. Qed.
Definition candIn (dim r : nat) : bool := negb (outsideLoop (permOf dim (candK dim r)) dim 0 (candO dim r)).
Lemma cand_next : forall dim r,
  (if Nat.eqb (S (candK dim r)) (fact dim) then (incLoop dim (candO dim r), 0) else (candO dim r, S (candK dim r)))
  = (candO dim (S r), candK dim (S r)).
Proof.
  intros. unfold candO, candK. pose proof (fact_pos dim) as F. pose proof (Nat.mod_upper_bound r (fact dim) ltac:(lia)) as B.
  pose proof (Nat.div_mod r (fact dim) ltac:(lia)) as E.
  set (q := r / fact dim) in *. set (m := r mod fact dim) in *.
  destruct (Nat.eqb_spec (S m) (fact dim)) as [C|C].
  - assert (E2 : S r = S q * fact dim) by (cbn [Nat.mul]; rewrite (Nat.mul_comm q); lia). rewrite E2.
    rewrite Nat.div_mul, Nat.mod_mul by lia. reflexivity.
  - assert (E2 : S r = q * fact dim + S m) by (rewrite (Nat.mul_comm q); lia). rewrite E2.
    rewrite Nat.div_add_l, Nat.div_small, Nat.add_0_r by lia.
    rewrite Nat.add_comm, Nat.mod_add, Nat.mod_small by lia. reflexivity.
Qed.
Lemma se_round_cand : forall dim r,
  se_round dim (candO dim r) (candK dim r) = Some (candO dim (S r), candK dim (S r), candIn dim (S r)).
Proof.
  intros. unfold se_round. rewrite cand_next. destruct (permOf_spec dim (candK dim (S r)) (candK_lt dim (S r))) as [E _].
  rewrite E. reflexivity.
Qed.
(** the search stops at the next inside candidate *)
Lemma se_search_cand : forall m dim r fuel, m < fuel ->
  (forall j, j < m -> candIn dim (r + 1 + j) = false) -> candIn dim (r + 1 + m) = true ->
  se_search fuel dim (candO dim r) (candK dim r) = Ret (candO dim (r + 1 + m), candK dim (r + 1 + m)).
Proof.
  induction m as [|m IH]; intros dim r fuel F N Y; (destruct fuel as [|fuel]; [lia|]); cbn [se_search]; rewrite se_round_cand.
  - rewrite Nat.add_0_r in *. rewrite Nat.add_1_r in *. rewrite Y. reflexivity.
  - pose proof (N 0 ltac:(lia)) as N0. rewrite Nat.add_0_r, Nat.add_1_r in N0. rewrite N0.
    rewrite (IH dim (S r) fuel).
    + do 2 f_equal; f_equal; lia.
    + lia.
    + intros j Hj. replace (S r + 1 + j) with (r + 1 + S j) by lia. apply N. lia.
    + replace (S r + 1 + m) with (r + 1 + S m) by lia. exact Y.
Qed.
(** the identity is always inside *)
Lemma candIn_id : forall dim r, 0 < dim -> candK dim r = 0 -> candIn dim r = true.
Proof.
  intros dim r H E. unfold candIn. rewrite E. unfold permOf. rewrite getPermutation_zero.
  apply negb_true_iff. apply (outside_inCond dim (fun i => i) (fun i => i)); try (split; auto); auto.
  intros j Hj. pose proof (vseq_decr dim (r / fact dim) H j Hj). unfold candO.
  destruct (Nat.ltb_spec j (S j)); lia.
Qed.
Lemma next_cand : forall dim r, 0 < dim ->
  exists m, m < fact dim /\ (forall j, j < m -> candIn dim (r + 1 + j) = false) /\ candIn dim (r + 1 + m) = true
    /\ r / fact dim <= (r + 1 + m) / fact dim <= S (r / fact dim)
    /\ (candK dim (r + 1 + m) = 0 \/ (r + 1 + m) / fact dim = r / fact dim).
Proof.
  intros dim r H. pose proof (fact_pos dim) as F.
  set (M := fact dim - 1 - r mod fact dim).
  assert (EM : r + 1 + M = S (r / fact dim) * fact dim).
  { unfold M. pose proof (Nat.mod_upper_bound r (fact dim) ltac:(lia)). pose proof (Nat.div_mod r (fact dim) ltac:(lia)). nia. }
  assert (Y : candIn dim (r + 1 + M) = true).
  { apply candIn_id; [assumption|]. unfold candK. rewrite EM. apply Nat.mod_mul. lia. }
  assert (G : forall n, n <= M -> (forall j, j < n -> candIn dim (r + 1 + j) = false) \/
     exists m, m < n /\ (forall j, j < m -> candIn dim (r + 1 + j) = false) /\ candIn dim (r + 1 + m) = true).
  { induction n as [|n IH]; intros Hn; [left; intros; lia|].
    destruct IH as [A|(m & A & B & C)]; [lia| |].
    - destruct (candIn dim (r + 1 + n)) eqn:E.
      + right. exists n. auto.
      + left. intros j Hj. destruct (Nat.eq_dec j n) as [->|]; [assumption|]. apply A. lia.
    - right. exists m. split; [lia|]. auto. }
  assert (X : exists m, m <= M /\ (forall j, j < m -> candIn dim (r + 1 + j) = false) /\ candIn dim (r + 1 + m) = true).
  { destruct (G M (Nat.le_refl M)) as [A|(m & A & B & C)].
    - exists M. auto.
    - exists m. split; [lia|]. auto. }
  destruct X as (m & Hm & A & B). exists m. split; [unfold M in Hm; lia|]. split; [exact A|]. split; [exact B|].
  split.
  - split; [apply Nat.div_le_mono; lia|]. apply Nat.lt_succ_r. apply Nat.div_lt_upper_bound; [lia|]. nia.
  - destruct (Nat.eq_dec m M) as [->|N].
    + left. unfold candK. rewrite EM. apply Nat.mod_mul. lia.
    + right. apply Nat.le_antisymm; [|apply Nat.div_le_mono; lia].
      apply Nat.lt_succ_r. apply Nat.div_lt_upper_bound; [lia|]. nia.
Qed.
